(** The CBOR parser inverts the encoder. *)
From Coq Require Import List NArith ZArith Lia Bool.
From Verif Require Import Base BaseProofs Cbor.
Import ListNotations.

Lemma be_length k n : length (be k n) = k.
Proof. revert n; induction k as [|k IH]; intros n; cbn; [easy|]. rewrite app_length, IH. cbn. lia. Qed.

Lemma of_be_app a b : of_be (a ++ [b]) = (of_be a * 256 + byte_to_N b)%N.
Proof. unfold of_be. rewrite fold_left_app. reflexivity. Qed.

Lemma of_be_be k n : (n < 256 ^ N.of_nat k)%N -> of_be (be k n) = n.
Proof.
  revert n; induction k as [|k IH]; intros n H.
  - cbn in *. lia.
  - cbn [be]. rewrite of_be_app, byte_to_of_N_mod, IH.
    + pose proof (N.div_mod n 256). lia.
    + rewrite Nat2N.inj_succ, N.pow_succ_r' in H.
      apply N.div_lt_upper_bound; lia.
Qed.

Lemma take_n_app (a b : bytes) : take_n (Nlen a) (a ++ b) = Some (a, b).
Proof.
  unfold take_n. rewrite Nlen_app.
  destruct (N.ltb_spec (Nlen a + Nlen b) (Nlen a)); [lia|].
  unfold Nlen. rewrite Nat2N.id, firstn_app_exact, skipn_app_exact. reflexivity.
Qed.

Lemma take_n_app' n (a b : bytes) : Nlen a = n -> take_n n (a ++ b) = Some (a, b).
Proof. intros <-. apply take_n_app. Qed.

(** Reading back a head with a given additional information value. *)
Lemma parse_head_imm major n rest :
  (major < 8 -> n < 24 ->
   parse_head (byte_of_N (major * 32 + n) :: rest) = Some (major, n, n, rest))%N.
Proof.
  intros Hm Hn. unfold parse_head. rewrite byte_to_of_N by lia.
  rewrite N.add_comm, N.div_add, N.mod_add by lia.
  rewrite N.div_small, N.mod_small by lia. cbn [N.add].
  destruct (N.ltb_spec n 24); [easy|lia].
Qed.

Lemma parse_head_arg major ai k n rest :
  (major < 8)%N ->
  (ai = 24 /\ k = 1%nat \/ ai = 25 /\ k = 2%nat \/ ai = 26 /\ k = 4%nat \/ ai = 27 /\ k = 8%nat)%N ->
  (n < 256 ^ N.of_nat k)%N ->
  parse_head ((byte_of_N (major * 32 + ai) :: be k n) ++ rest) = Some (major, ai, n, rest).
Proof.
  intros Hm Hk Hn. unfold parse_head. cbn [app].
  assert (Hai : (24 <= ai < 28)%N) by (destruct Hk as [[]|[[]|[[]|[]]]]; lia).
  rewrite byte_to_of_N by lia.
  rewrite N.add_comm, N.div_add, N.mod_add by lia.
  rewrite N.div_small, N.mod_small by lia. cbn [N.add].
  destruct (N.ltb_spec ai 24); [lia|].
  destruct Hk as [[-> ->]|[[-> ->]|[[-> ->]|[-> ->]]]];
    rewrite take_n_app' by (unfold Nlen; now rewrite be_length); now rewrite of_be_be.
Qed.

(** The head written for any 64 bit argument is read back. *)
Lemma parse_enc_head major n rest :
  (major < 8)%N -> (n < two64)%N ->
  exists ai, parse_head (enc_head major n ++ rest) = Some (major, ai, n, rest)
             /\ ((n < 24)%N -> ai = n).
Proof.
  intros Hm Hn. unfold enc_head.
  destruct (N.ltb_spec n 24).
  { exists n. split; [|easy]. cbn [app]. now apply parse_head_imm. }
  unfold two64 in Hn.
  destruct (N.ltb_spec n 256).
  { exists 24%N. split; [|lia]. apply parse_head_arg; cbn; auto. }
  destruct (N.ltb_spec n 65536).
  { exists 25%N. split; [|lia]. apply parse_head_arg; cbn; auto. }
  destruct (N.ltb_spec n two32).
  { exists 26%N. split; [|lia]. apply parse_head_arg; cbn; auto. }
  exists 27%N. split; [|lia]. apply parse_head_arg; cbn; auto 10.
Qed.

Lemma enc_head_length major n : 1 <= length (enc_head major n).
Proof. unfold enc_head. repeat destruct (_ <? _)%N; cbn; lia. Qed.

Lemma enc_nonempty c : 1 <= length (enc c).
Proof.
  destruct c; cbn [enc]; rewrite ?app_length;
    try (pose proof (enc_head_length 0 n); lia);
    try (pose proof (enc_head_length 1 n); lia);
    try (pose proof (enc_head_length 2 (Nlen b)); lia);
    try (pose proof (enc_head_length 3 (Nlen b)); lia);
    try (pose proof (enc_head_length 4 (Nlen l)); lia);
    try (pose proof (enc_head_length 5 (Nlen l)); lia);
    try (pose proof (enc_head_length 6 t); lia);
    try (pose proof (enc_head_length 7 n); lia).
  cbn; lia.
Qed.

(** Induction principle covering nested lists. *)
Section cbor_rect'.
  Variable P : cbor -> Prop.
  Hypothesis HUint : forall n, P (CUint n).
  Hypothesis HNeg : forall n, P (CNeg n).
  Hypothesis HBytes : forall b, P (CBytes b).
  Hypothesis HText : forall b, P (CText b).
  Hypothesis HArr : forall l, Forall P l -> P (CArr l).
  Hypothesis HMap : forall l, Forall (fun kv => P (fst kv) /\ P (snd kv)) l -> P (CMap l).
  Hypothesis HTag : forall t c, P c -> P (CTag t c).
  Hypothesis HSimple : forall n, P (CSimple n).
  Hypothesis HFloat : forall w b, P (CFloat w b).

  Fixpoint cbor_ind' (c : cbor) : P c :=
    match c with
    | CUint n => HUint n
    | CNeg n => HNeg n
    | CBytes b => HBytes b
    | CText b => HText b
    | CArr l =>
        HArr l ((fix go l : Forall P l :=
                   match l with
                   | [] => Forall_nil _
                   | x :: l' => Forall_cons x (cbor_ind' x) (go l')
                   end) l)
    | CMap l =>
        HMap l ((fix go l : Forall (fun kv => P (fst kv) /\ P (snd kv)) l :=
                   match l with
                   | [] => Forall_nil _
                   | x :: l' => Forall_cons x (conj (cbor_ind' (fst x)) (cbor_ind' (snd x))) (go l')
                   end) l)
    | CTag t c => HTag t c (cbor_ind' c)
    | CSimple n => HSimple n
    | CFloat w b => HFloat w b
    end.
End cbor_rect'.

Lemma parse_n_flat {A} (p : bytes -> option (A * bytes)) (e : A -> bytes) l rest :
  Forall (fun x => forall r, p (e x ++ r) = Some (x, r)) l ->
  parse_n p (length l) (flat_map e l ++ rest) = Some (l, rest).
Proof.
  induction 1 as [|x l Hx Hl IH]; cbn; [easy|].
  rewrite <- app_assoc, Hx, IH. reflexivity.
Qed.

Lemma flat_map_length_ge {A B} (f : A -> list B) l :
  (forall x, 1 <= length (f x)) -> length l <= length (flat_map f l).
Proof.
  intros H. induction l as [|x l IH]; cbn; [lia|]. rewrite app_length.
  specialize (H x). lia.
Qed.

Lemma flat_map_in_length {A B} (f : A -> list B) l x :
  In x l -> length (f x) <= length (flat_map f l).
Proof.
  induction l as [|y l IH]; cbn; [easy|]. rewrite app_length.
  intros [->|H]; [lia|specialize (IH H); lia].
Qed.

Lemma parse_enc c : forall fuel rest,
  cbor_ok c = true -> length (enc c) <= fuel -> parse fuel (enc c ++ rest) = Some (c, rest).
Proof.
  induction c using cbor_ind'; intros fuel rest Hok Hf;
    pose proof (enc_nonempty) as Hne.
  - destruct fuel; [specialize (Hne (CUint n)); lia|].
    cbn [cbor_ok enc] in *. apply N.ltb_lt in Hok.
    destruct (parse_enc_head 0 n rest) as (ai & E & _); [lia|easy|].
    cbn [parse]. now rewrite E.
  - destruct fuel; [specialize (Hne (CNeg n)); lia|].
    cbn [cbor_ok enc] in *. apply N.ltb_lt in Hok.
    destruct (parse_enc_head 1 n rest) as (ai & E & _); [lia|easy|].
    cbn [parse]. now rewrite E.
  - destruct fuel; [specialize (Hne (CBytes b)); lia|].
    cbn [cbor_ok enc] in *. apply N.ltb_lt in Hok.
    rewrite <- app_assoc.
    destruct (parse_enc_head 2 (Nlen b) (b ++ rest)) as (ai & E & _); [lia|easy|].
    cbn [parse]. rewrite E, take_n_app. reflexivity.
  - destruct fuel; [specialize (Hne (CText b)); lia|].
    cbn [cbor_ok enc] in *. apply N.ltb_lt in Hok.
    rewrite <- app_assoc.
    destruct (parse_enc_head 3 (Nlen b) (b ++ rest)) as (ai & E & _); [lia|easy|].
    cbn [parse]. rewrite E, take_n_app. reflexivity.
  - destruct fuel; [specialize (Hne (CArr l)); lia|].
    cbn [cbor_ok enc] in *. apply andb_true_iff in Hok as [Hl Hok].
    apply N.ltb_lt in Hl. rewrite <- app_assoc.
    destruct (parse_enc_head 4 (Nlen l) (flat_map enc l ++ rest)) as (ai & E & _); [lia|easy|].
    cbn [parse]. rewrite E.
    rewrite Nlen_app.
    pose proof (flat_map_length_ge enc l enc_nonempty) as Hge.
    destruct (N.ltb_spec (Nlen (flat_map enc l) + Nlen rest) (Nlen l)) as [Hlt|_].
    { unfold Nlen in Hlt. lia. }
    unfold Nlen at 1. rewrite Nat2N.id.
    rewrite parse_n_flat; [reflexivity|].
    rewrite Forall_forall in *. rewrite forallb_forall in Hok.
    intros x Hx r. apply H; [easy|now apply Hok|].
    rewrite app_length in Hf. pose proof (flat_map_in_length enc l x Hx).
    pose proof (enc_head_length 4 (Nlen l)). lia.
  - destruct fuel; [specialize (Hne (CMap l)); lia|].
    cbn [cbor_ok enc] in *. apply andb_true_iff in Hok as [Hl Hok].
    apply N.ltb_lt in Hl. rewrite <- app_assoc.
    set (e := fun kv : cbor * cbor => enc (fst kv) ++ enc (snd kv)) in *.
    destruct (parse_enc_head 5 (Nlen l) (flat_map e l ++ rest)) as (ai & E & _); [lia|easy|].
    cbn [parse]. rewrite E.
    rewrite Nlen_app.
    assert (Hge : length l <= length (flat_map e l)).
    { apply flat_map_length_ge. intros x. unfold e. rewrite app_length.
      pose proof (enc_nonempty (fst x)). lia. }
    destruct (N.ltb_spec (Nlen (flat_map e l) + Nlen rest) (Nlen l)) as [Hlt|_].
    { unfold Nlen in Hlt. lia. }
    unfold Nlen at 1. rewrite Nat2N.id.
    rewrite (parse_n_flat _ e); [reflexivity|].
    rewrite Forall_forall in *. rewrite forallb_forall in Hok.
    intros [k v] Hx r.
    pose proof (H _ Hx) as [Hk Hv]. pose proof (Hok _ Hx) as Ho.
    cbn [fst snd] in *. apply andb_true_iff in Ho as [Ho1 Ho2].
    rewrite app_length in Hf. pose proof (flat_map_in_length e l _ Hx) as Hin.
    pose proof (enc_head_length 5 (Nlen l)).
    unfold e in Hin at 1. cbn [fst snd] in Hin. rewrite app_length in Hin.
    unfold parse_pair, e. cbn [fst snd]. rewrite <- app_assoc.
    rewrite Hk by (auto; lia). rewrite Hv by (auto; lia). reflexivity.
  - destruct fuel; [specialize (Hne (CTag t c)); lia|].
    cbn [cbor_ok enc] in *. apply andb_true_iff in Hok as [Ht Hok].
    apply N.ltb_lt in Ht. rewrite <- app_assoc.
    destruct (parse_enc_head 6 t (enc c ++ rest)) as (ai & E & _); [lia|easy|].
    cbn [parse]. rewrite E.
    rewrite app_length in Hf. pose proof (enc_head_length 6 t).
    rewrite IHc by (auto; lia). reflexivity.
  - destruct fuel; [specialize (Hne (CSimple n)); lia|].
    cbn [cbor_ok enc] in *. apply N.ltb_lt in Hok.
    destruct (parse_enc_head 7 n rest) as (ai & E & Eai); [lia|unfold two64; lia|].
    specialize (Eai Hok). subst ai.
    cbn [parse]. rewrite E. destruct (N.ltb_spec n 24); [reflexivity|lia].
  - destruct fuel; [specialize (Hne (CFloat w b)); lia|].
    cbn [cbor_ok] in Hok. apply andb_true_iff in Hok as [Hw Hb]. apply N.ltb_lt in Hb.
    assert (Hw' : w = 2 \/ w = 4 \/ w = 8).
    { rewrite !orb_true_iff, !Nat.eqb_eq in Hw. tauto. }
    cbn [parse enc].
    destruct Hw' as [->|[->| ->]]; cbn [float_ai];
      (rewrite parse_head_arg; [|cbn; lia|tauto|assumption]); reflexivity.
Qed.

Lemma checked_prefix_enc c rest :
  cbor_ok c = true -> checked_prefix (enc c ++ rest) = Some (c, rest).
Proof.
  intros H. unfold checked_prefix. apply parse_enc; [easy|]. rewrite app_length. lia.
Qed.

Lemma parse_seq_fuel_enc l fuel :
  forallb cbor_ok l = true -> length (flat_map enc l) <= fuel ->
  parse_seq_fuel fuel (flat_map enc l) = Some l.
Proof.
  revert fuel; induction l as [|c l IH]; intros fuel Hok Hf; cbn [flat_map].
  - now destruct fuel.
  - cbn [forallb flat_map] in *. apply andb_true_iff in Hok as [Hc Hl].
    rewrite app_length in Hf. pose proof (enc_nonempty c) as Hn.
    destruct fuel; [lia|].
    destruct (enc c ++ flat_map enc l) eqn:E.
    { destruct (enc c); cbn in *; [lia|discriminate]. }
    rewrite <- E. cbn [parse_seq_fuel]. rewrite E, <- E.
    rewrite checked_prefix_enc, IH by (auto; lia). reflexivity.
Qed.

Lemma parse_seq_enc l : forallb cbor_ok l = true -> parse_seq (flat_map enc l) = Some l.
Proof. intros H. now apply parse_seq_fuel_enc. Qed.

(** Decoding never yields an item the encoder could not have written; used to
    keep decoded data re-encodable. *)
Lemma take_n_spec n bs a b : take_n n bs = Some (a, b) -> bs = a ++ b /\ Nlen a = n.
Proof.
  unfold take_n. destruct (N.ltb_spec (Nlen bs) n); [easy|].
  intros [= <- <-]. split; [now rewrite firstn_skipn|].
  unfold Nlen in *. rewrite firstn_length. lia.
Qed.

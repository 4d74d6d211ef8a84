(** C94: keys, key sequences and tag indexes as JSON. *)
From Coq Require Import List NArith Arith Lia Bool String Sorted.
From Coq Require Import Strings.Byte.
From Verif Require Import Base BaseProofs Cbor CborProofs Types Tags TagProofs PropsTags Json.
Import ListNotations.
Open Scope list_scope.

(** * Specification *)

(** A tag index obtained from the API: built, decoded, or read from JSON. [vs_ok s]
    (TagProofs.v): [s] is strictly sorted, as every [VecSet] is. *)
Definition obtained (utf8 : bytes -> bool) (ti : tag_index) : Prop :=
  made utf8 ti \/ exists text, from_str de_index text = Some ti.

(** Numbers that are a [u64], and a key with such numbers and a set of tags. *)
Definition is_u64 (n : N) : Prop := (n < two64)%N.
Definition time_ok (t : time) : Prop := is_u64 (t_lamport t) /\ is_u64 (t_min t) /\ is_u64 (t_max t).

(** The document [[names, elements]]. *)
Definition document (names : list tag) (elements : list (list N)) : json :=
  JArr [JArr (map JStr names); JArr (map (fun e => JArr (map JNum e)) elements)].

(** The tags that [e] names, if its numbers are positions in [names]. *)
Definition named (names : list tag) (e : list N) (s : tagset) : Prop :=
  vs_ok s /\ forall t, In t s <-> exists n, In n e /\ nth_error names (N.to_nat n) = Some t.

(** * The text *)

(** Values that are written as they are read: integers are below 2^64. *)
Fixpoint plain (j : json) : Prop :=
  match j with
  | JNum n => is_u64 n
  | JReal => False
  | JArr l => fold_right (fun j P => plain j /\ P) True l
  | JObj l => fold_right (fun kv P => plain (snd kv) /\ P) True l
  | _ => True
  end.
Lemma plain_arr l : plain (JArr l) <-> Forall plain l.
Proof.
  cbn [plain]. induction l as [|x l IH]; cbn; [split; constructor|]. rewrite IH. split.
  - intros (A & B). now constructor.
  - intros H. inversion H; auto.
Qed.
Lemma plain_obj l : plain (JObj l) <-> Forall (fun kv => plain (snd kv)) l.
Proof.
  cbn [plain]. induction l as [|x l IH]; cbn; [split; constructor|]. rewrite IH. split.
  - intros (A & B). now constructor.
  - intros H. inversion H; auto.
Qed.

Section Ind.
  Variable P : json -> Prop.
  Hypothesis Hnull : P JNull.
  Hypothesis Hbool : forall b, P (JBool b).
  Hypothesis Hnum : forall n, P (JNum n).
  Hypothesis Hreal : P JReal.
  Hypothesis Hstr : forall s, P (JStr s).
  Hypothesis Harr : forall l, Forall P l -> P (JArr l).
  Hypothesis Hobj : forall l, Forall (fun kv => P (snd kv)) l -> P (JObj l).
  Fixpoint json_ind' (j : json) : P j :=
    match j with
    | JNull => Hnull
    | JBool b => Hbool b
    | JNum n => Hnum n
    | JReal => Hreal
    | JStr s => Hstr s
    | JArr l => Harr l ((fix go l : Forall P l :=
        match l with [] => Forall_nil _ | x :: l' => Forall_cons _ (json_ind' x) (go l') end) l)
    | JObj l => Hobj l ((fix go l : Forall (fun kv => P (snd kv)) l :=
        match l with [] => Forall_nil _ | x :: l' => Forall_cons _ (json_ind' (snd x)) (go l') end) l)
    end.
End Ind.

(** Numbers *)
Lemma of_digits_snoc d b : of_digits (d ++ [b]) = (of_digits d * 10 + (byte_to_N b - 48))%N.
Proof. unfold of_digits. now rewrite fold_left_app. Qed.
Lemma digit_val n : (n < 10)%N -> byte_to_N (digit n) = (48 + n)%N.
Proof. intros H. unfold digit. apply byte_to_of_N. lia. Qed.
Lemma digit_is n : (n < 10)%N -> is_digit (digit n) = true.
Proof.
  intros H. unfold is_digit. rewrite digit_val by assumption.
  apply andb_true_intro. split; apply N.leb_le; lia.
Qed.
Lemma decimal_to_spec k : forall n acc, (n < 10 ^ N.of_nat (S k))%N ->
  exists d, decimal_to (S k) n acc = d ++ acc /\ of_digits d = n /\ forallb is_digit d = true /\ d <> []
  /\ (forall t, d = x30 :: t -> t = []).
Proof.
  induction k as [|k IH]; intros n acc H.
  - assert (L : (n < 10)%N) by exact H. cbn [decimal_to]. rewrite (proj2 (N.ltb_lt _ _) L).
    exists [digit n]. repeat split.
    + cbn. rewrite digit_val by assumption. lia.
    + cbn. now rewrite digit_is.
    + discriminate.
    + intros t E. now injection E.
  - remember (S k) as k1 eqn:Ek. cbn [decimal_to]. destruct (N.ltb_spec n 10) as [L|L].
    + exists [digit n]. repeat split.
      * cbn. rewrite digit_val by assumption. lia.
      * cbn. now rewrite digit_is.
      * discriminate.
      * intros t E. now injection E.
    + assert (H' : (n / 10 < 10 ^ N.of_nat k1)%N).
      { apply N.div_lt_upper_bound; [lia|]. rewrite <- N.pow_succ_r'. now rewrite <- Nat2N.inj_succ. }
      destruct (IH (n / 10)%N (digit (n mod 10) :: acc) H') as (d & E & V & A & Ne & Z).
      assert (M : (n mod 10 < 10)%N) by (apply N.mod_lt; lia).
      exists (d ++ [digit (n mod 10)]). rewrite E, <- app_assoc. repeat split.
      * rewrite of_digits_snoc, V, digit_val by assumption. clear H H'. pose proof (N.div_mod n 10 ltac:(lia)) as D.
        clear - D. revert D. generalize (n / 10)%N (n mod 10)%N. intros. lia.
      * rewrite forallb_app, A. cbn. now rewrite digit_is.
      * destruct d; discriminate.
      * intros t Et. destruct d as [|b d]; [congruence|]. injection Et as -> <-.
        rewrite (Z d eq_refl) in V. cbn in V.
        assert (1 <= n / 10)%N by (apply N.div_le_lower_bound; lia). lia.
Qed.
Lemma decimal_spec n : is_u64 n ->
  of_digits (decimal n) = n /\ forallb is_digit (decimal n) = true /\ decimal n <> []
  /\ (forall t, decimal n = x30 :: t -> t = []).
Proof.
  intros H. destruct (decimal_to_spec 19 n []) as (d & E & R).
  { eapply N.lt_le_trans; [exact H|]. vm_compute. discriminate. }
  unfold decimal. rewrite E, app_nil_r. exact R.
Qed.

(** What may follow a value inside a document. *)
Definition stops (rest : bytes) : Prop :=
  match rest with [] => True | b :: _ => In b [x2c; x5d; x7d] end.
Lemma digits_app d rest : forallb is_digit d = true -> stops rest -> digits (d ++ rest) = (d, rest).
Proof.
  intros A R. induction d as [|b d IH]; cbn.
  - destruct rest as [|b r]; [reflexivity|]. cbn in R. destruct R as [<-|[<-|[<-|[]]]]; reflexivity.
  - cbn in A. apply andb_prop in A. destruct A as (A & B). rewrite A. now rewrite (IH B).
Qed.
Lemma unsigned_decimal n rest : is_u64 n -> stops rest ->
  unsigned (decimal n ++ rest) = Some (JNum n, rest).
Proof.
  intros H R. destruct (decimal_spec n H) as (V & A & Ne & Z). unfold unsigned.
  rewrite digits_app by assumption.
  assert (W : whole (decimal n) = true).
  { destruct (decimal n) as [|b d]; [congruence|]. destruct d as [|b' d]; [destruct b; reflexivity|].
    destruct b; try reflexivity. specialize (Z _ eq_refl). discriminate. }
  rewrite W, V, (proj2 (N.ltb_lt _ _) H).
  destruct rest as [|b r]; [reflexivity|]. cbn in R. destruct R as [<-|[<-|[<-|[]]]]; reflexivity.
Qed.

(** Strings *)
Lemma string_end_escape b t :
  string_end (escape_byte b ++ t) = option_map (fun sr => (b :: fst sr, snd sr)) (string_end t).
Proof. destruct b; reflexivity. Qed.
Lemma string_end_quoted s rest : string_end (flat_map escape_byte s ++ x22 :: rest) = Some (s, rest).
Proof.
  induction s as [|b s IH]; [reflexivity|]. cbn [flat_map]. now rewrite <- app_assoc, string_end_escape, IH.
Qed.

(** The first byte of a value. *)
Definition opens (b : byte) : bool :=
  match b with x22 | x5b | x7b | x6e | x74 | x66 => true | _ => is_digit b end.
Lemma jwrite_front j : plain j -> exists b r, jwrite j = b :: r /\ opens b = true.
Proof.
  destruct j; cbn [jwrite]; intros H; try (eexists; eexists; split; [reflexivity|reflexivity]).
  - destruct b; eexists; eexists; split; reflexivity.
  - destruct (decimal_spec n H) as (_ & A & Ne & _). destruct (decimal n) as [|b d]; [congruence|].
    exists b, d. split; [reflexivity|]. cbn in A. apply andb_prop in A. destruct A as (A & _).
    destruct b; try reflexivity; discriminate A.
Qed.
Lemma skip_front b r : opens b = true -> skip_ws (b :: r) = b :: r.
Proof. destruct b; try reflexivity; discriminate. Qed.
Lemma skip_write j t : plain j -> skip_ws (jwrite j ++ t) = jwrite j ++ t.
Proof. intros H. destruct (jwrite_front j H) as (b & r & E & O). rewrite E. now apply skip_front. Qed.

Lemma commas_cons x y l : commas (x :: y :: l) = x ++ x2c :: commas (y :: l).
Proof. reflexivity. Qed.

Definition reads (j : json) : Prop :=
  forall f rest, 2 * List.length (jwrite j) <= f -> stops rest -> jval f (jwrite j ++ rest) = Some (j, rest).

Lemma read_elems l : Forall reads l -> l <> [] -> forall f rest,
  2 * List.length (commas (map jwrite l)) + 1 <= f ->
  jelems f (commas (map jwrite l) ++ x5d :: rest) = Some (l, rest).
Proof.
  induction 1 as [|x l Hx Hl IH]; [congruence|]. intros _ f rest Hf.
  destruct f as [|f]; [lia|]. destruct l as [|y l].
  - cbn [map commas flat_map] in *. rewrite app_nil_r in *. cbn [jelems].
    rewrite Hx; [reflexivity|lia|cbn; auto].
  - cbn [map] in *. rewrite commas_cons in *. rewrite <- app_assoc. cbn [app]. cbn [jelems].
    rewrite app_length in Hf. cbn [List.length] in Hf.
    rewrite Hx; [|lia|cbn; auto]. cbn [skip_ws].
    rewrite IH by (try discriminate; lia). reflexivity.
Qed.
Lemma read_members l : Forall (fun kv => reads (snd kv)) l -> l <> [] -> forall f rest,
  2 * List.length (commas (map (fun kv => quoted (fst kv) ++ x3a :: jwrite (snd kv)) l)) + 1 <= f ->
  jmembers f (commas (map (fun kv => quoted (fst kv) ++ x3a :: jwrite (snd kv)) l) ++ x7d :: rest) = Some (l, rest).
Proof.
  induction 1 as [|[k x] l Hx Hl IH]; [congruence|]. intros _ f rest Hf. cbn [fst snd] in *.
  destruct f as [|f]; [lia|]. destruct l as [|y l].
  - cbn [map commas flat_map fst snd] in *. rewrite app_nil_r in *. cbn [jmembers].
    rewrite app_length in Hf. cbn [List.length] in Hf.
    unfold quoted. rewrite <- !app_assoc. cbn [app]. rewrite <- !app_assoc. cbn [app skip_ws].
    rewrite string_end_quoted. cbn [skip_ws].
    rewrite Hx; [reflexivity|lia|cbn; auto].
  - cbn [map fst snd] in *. rewrite commas_cons in *. rewrite <- app_assoc. cbn [app]. cbn [jmembers].
    rewrite !app_length in Hf. cbn [List.length] in Hf.
    unfold quoted at 1. rewrite <- !app_assoc. cbn [app]. rewrite <- !app_assoc. cbn [app skip_ws].
    rewrite string_end_quoted. cbn [skip_ws].
    rewrite Hx; [|lia|cbn; auto]. cbn [skip_ws].
    rewrite IH; [reflexivity|discriminate|].
    clear - Hf. unfold bytes in *. lia.
Qed.

Lemma jval_write j : plain j -> reads j.
Proof.
  induction j using json_ind'; intros Hp f rest Hf R.
  - destruct f as [|f]; [cbn in Hf; lia|]. reflexivity.
  - destruct f as [|f]; [destruct b; cbn in Hf; lia|]. destruct b; reflexivity.
  - destruct f as [|f].
    { destruct (decimal_spec n Hp) as (_ & _ & Ne & _). cbn [jwrite] in Hf. destruct (decimal n); [congruence|cbn in Hf; lia]. }
    pose proof (unsigned_decimal n rest Hp R) as U.
    destruct (jwrite_front (JNum n) Hp) as (b & r & E & O). cbn [jwrite] in *.
    destruct (decimal_spec n Hp) as (_ & A & _ & _). rewrite E in *. cbn in A. apply andb_prop in A. destruct A as (A & _).
    cbn [app] in *. cbn [jval]. rewrite skip_front by assumption.
    destruct b; try discriminate A; exact U.
  - destruct Hp.
  - cbn [jwrite] in *. destruct f as [|f]; [cbn in Hf; lia|]. cbn [jval]. unfold quoted. cbn [app skip_ws].
    rewrite <- app_assoc. cbn [app]. now rewrite string_end_quoted.
  - rewrite plain_arr in Hp. cbn [jwrite] in *. destruct f as [|f]; [cbn in Hf; lia|].
    cbn [jval app skip_ws]. rewrite <- app_assoc. cbn [app].
    destruct l as [|x l]; [reflexivity|].
    assert (G : Forall reads (x :: l)).
    { clear - H Hp. induction H; inversion Hp; subst; constructor; auto. }
    cbn [List.length] in Hf. rewrite app_length in Hf. cbn [List.length] in Hf.
    pose proof (read_elems (x :: l) G ltac:(discriminate) f rest ltac:(lia)) as E.
    assert (F : exists b r, commas (map jwrite (x :: l)) ++ x5d :: rest = b :: r /\ opens b = true).
    { inversion Hp; subst. destruct (jwrite_front x ltac:(assumption)) as (b & r & E1 & O).
      cbn [map commas]. rewrite E1. cbn [app]. eauto. }
    destruct F as (b & r & E1 & O). rewrite E1 in *. rewrite skip_front by assumption.
    destruct b; try discriminate O; now rewrite E.
  - rewrite plain_obj in Hp. cbn [jwrite] in *. destruct f as [|f]; [cbn in Hf; lia|].
    cbn [jval app skip_ws]. rewrite <- app_assoc. cbn [app].
    destruct l as [|x l]; [reflexivity|].
    assert (G : Forall (fun kv => reads (snd kv)) (x :: l)).
    { clear - H Hp. induction H; inversion Hp; subst; constructor; auto. }
    cbn [List.length] in Hf. rewrite app_length in Hf. cbn [List.length] in Hf.
    pose proof (read_members (x :: l) G ltac:(discriminate) f rest ltac:(lia)) as E.
    cbn [map commas] in *. unfold quoted at 1 in E. unfold quoted at 1. cbn [app skip_ws] in *. now rewrite E.
Qed.

(** Reading gives back every value that was written. *)
Lemma jread_write j : plain j -> jread (jwrite j) = Some j.
Proof.
  intros H. unfold jread.
  pose proof (jval_write j H (2 * List.length (jwrite j) + 2) [] ltac:(lia) Logic.I) as E.
  rewrite app_nil_r in E. now rewrite E.
Qed.

(** * C94 *)

Lemma plain_strings l : plain (se_set l).
Proof. apply plain_arr. apply Forall_forall. intros j I. apply in_map_iff in I. now destruct I as (s & <- & _). Qed.
Lemma plain_nums l : Forall is_u64 l -> plain (se_nums l).
Proof.
  intros H. apply plain_arr. apply Forall_forall. intros j I. apply in_map_iff in I. destruct I as (n & <- & I).
  now apply (proj1 (Forall_forall _ _) H).
Qed.
Lemma de_strings l : vs_ok l -> de_set de_str (se_set l) = Some l.
Proof.
  intros H. unfold de_set. cbn [de_vec se_set].
  replace (omapM de_str (map JStr l)) with (Some l); [cbn; now rewrite of_id|].
  clear. induction l as [|x l IH]; [reflexivity|]. cbn. now rewrite <- IH.
Qed.
Lemma de_u64s l : Forall is_u64 l -> de_vec de_u64 (se_nums l) = Some l.
Proof.
  intros H. cbn [de_vec se_nums]. induction H as [|n l Hn H IH]; [reflexivity|]. cbn.
  rewrite (proj2 (N.ltb_lt _ _) Hn). cbn. now rewrite IH.
Qed.
Lemma de_u32s l : Forall (fun n => n < two32)%N l -> omapM de_u32 (map JNum l) = Some l.
Proof.
  intros H. induction H as [|n l Hn H IH]; [reflexivity|]. cbn [map omapM de_u32].
  rewrite (proj2 (N.ltb_lt _ _) Hn). cbn. now rewrite IH.
Qed.

(** What is accepted: the numbers are positions in the table as it is sorted. *)
Lemma de_index_document names elements :
  Forall (Forall (fun n => n < two32)%N) elements ->
  de_index (document names elements)
  = if existsb (existsb (fun x => (Nlen (vs_of names) <=? x)%N)) (map vs_of elements) then None
    else Some {| ti_tags := vs_of names; ti_elements := map vs_of elements |}.
Proof.
  intros H. unfold de_index, document.
  replace (de_set de_str (JArr (map JStr names))) with (Some (vs_of names)).
  2:{ unfold de_set. cbn [de_vec]. replace (omapM de_str (map JStr names)) with (Some names); [reflexivity|].
      clear. induction names as [|x l IH]; [reflexivity|]. cbn. now rewrite <- IH. }
  replace (de_vec (de_set de_u32) (JArr (map (fun e => JArr (map JNum e)) elements))) with (Some (map vs_of elements)).
  2:{ cbn [de_vec]. induction H as [|e l He H IH]; [reflexivity|]. cbn [map omapM].
      unfold de_set at 1. cbn [de_vec]. rewrite de_u32s by assumption. cbn [option_map].
      now rewrite <- IH. }
  reflexivity.
Qed.

Lemma de_index_ok j ti : de_index j = Some ti -> ti_ok ti.
Proof.
  unfold de_index. destruct j as [| | | | |[|j1 [|j2 [|]]]|]; try discriminate.
  destruct (de_set de_str j1) as [tags|] eqn:E1; [|discriminate].
  destruct (de_vec (de_set de_u32) j2) as [es|] eqn:E2; [|discriminate].
  destruct (existsb _ _) eqn:F; [discriminate|]. intros E. injection E as <-.
  assert (K : Forall vs_ok es).
  { unfold de_vec in E2. destruct j2; try discriminate. apply omapM_some in E2.
    clear - E2. induction E2 as [|a b l r H E IH]; constructor; [|exact IH].
    unfold de_set in H. destruct (de_vec de_u32 a); [|discriminate]. injection H as <-. apply of_ok. }
  split; cbn.
  - unfold de_set in E1. destruct (de_vec de_str j1); [|discriminate]. injection E1 as <-. apply of_ok.
  - apply Forall_forall. intros e I. split; [now apply (proj1 (Forall_forall _ _) K)|].
    intros n J. destruct (N.ltb_spec n (Nlen tags)) as [L|L]; [exact L|]. exfalso.
    enough (X : existsb (existsb (fun x => (Nlen tags <=? x)%N)) es = true) by congruence.
    apply existsb_exists. exists e. split; [exact I|]. apply existsb_exists. exists n.
    split; [exact J|]. now apply N.leb_le.
Qed.
Lemma obtained_ok utf8 ti : obtained utf8 ti -> ti_ok ti.
Proof.
  intros [[(xs & _ & E)|(bs & r & E)]|(text & E)]; [now apply from_ok in E|now apply decode_ok in E|].
  unfold from_str in E. destruct (jread text) as [j|]; [|discriminate]. now apply de_index_ok in E.
Qed.

Lemma index_back ti : ti_ok ti -> (Nlen (ti_tags ti) <= two32)%N ->
  plain (se_index ti) /\ de_index (se_index ti) = Some ti.
Proof.
  intros (K & KE) Z. split.
  - apply plain_arr. constructor; [apply plain_strings|]. constructor; [|constructor].
    apply plain_arr. apply Forall_forall. intros j I. apply in_map_iff in I. destruct I as (e & <- & I).
    apply plain_nums. apply Forall_forall. intros n J.
    apply (proj1 (Forall_forall _ _) KE) in I. destruct I as (_ & H). specialize (H n J).
    unfold is_u64, two32, two64 in *. lia.
  - unfold se_index. change (JArr [se_set (ti_tags ti); JArr (map se_nums (ti_elements ti))])
      with (document (ti_tags ti) (ti_elements ti)).
    rewrite de_index_document.
    2:{ apply Forall_forall. intros e I. apply (proj1 (Forall_forall _ _) KE) in I. destruct I as (_ & H).
        apply Forall_forall. intros n J. specialize (H n J). lia. }
    rewrite of_id by assumption.
    replace (map vs_of (ti_elements ti)) with (ti_elements ti).
    2:{ clear Z. destruct ti as [tags es]. cbn in *. induction KE as [|e l (He & _) KE IH]; [reflexivity|].
        cbn. rewrite of_id by assumption. now rewrite <- IH. }
    destruct (existsb _ _) eqn:F; [|now destruct ti]. exfalso.
    apply existsb_exists in F. destruct F as (e & I & F). apply existsb_exists in F. destruct F as (n & J & F).
    apply (proj1 (Forall_forall _ _) KE) in I. destruct I as (_ & H). specialize (H n J). apply N.leb_le in F. lia.
Qed.

(** Tag indexes, keys and key sequences can be read back from their JSON. *)
Theorem C94_index utf8 ti :
  obtained utf8 ti -> (Nlen (ti_tags ti) <= two32)%N ->
  from_str de_index (to_string se_index ti) = Some ti.
Proof.
  intros M Z. destruct (index_back ti (obtained_ok utf8 ti M) Z) as (P & E).
  unfold from_str, to_string. now rewrite jread_write.
Qed.

Lemma plain_time t : time_ok t -> plain (se_time t).
Proof. intros (A & B & C). cbn. auto. Qed.
Lemma de_time_back t : time_ok t -> de_time (se_time t) = Some t.
Proof.
  intros (A & B & C). destruct t as [a b c]. cbn in *. unfold de_time.
  change (de_struct ["min_lamport"; "min_time"; "max_time"]%string (se_time {| t_lamport := a; t_min := b; t_max := c |}))
    with (Some [JNum a; JNum b; JNum c]).
  cbn [de_u64]. now rewrite (proj2 (N.ltb_lt _ _) A), (proj2 (N.ltb_lt _ _) B), (proj2 (N.ltb_lt _ _) C).
Qed.
Theorem C94_key k :
  time_ok (k_time k) -> vs_ok (k_tags k) -> from_str de_key (to_string se_key k) = Some k.
Proof.
  intros T S. unfold from_str, to_string. rewrite jread_write.
  2:{ apply plain_obj. constructor; [now apply plain_time|]. constructor; [apply plain_strings|constructor]. }
  destruct k as [t s]. cbn [k_time k_tags] in *. unfold de_key.
  change (de_struct ["time"; "tags"]%string (se_key {| k_time := t; k_tags := s |})) with (Some [se_time t; se_set s]).
  cbn [omapM]. now rewrite de_time_back, de_strings by assumption.
Qed.

Theorem C94_keyseq utf8 s :
  Forall is_u64 (ks_lamport s) -> Forall is_u64 (ks_min s) -> Forall is_u64 (ks_max s) ->
  obtained utf8 (ks_tags s) -> (Nlen (ti_tags (ks_tags s)) <= two32)%N ->
  from_str de_keyseq (to_string se_keyseq s) = Some s.
Proof.
  intros A B C M Z. destruct (index_back _ (obtained_ok utf8 _ M) Z) as (P & E).
  unfold from_str, to_string. rewrite jread_write.
  2:{ apply plain_obj. do 4 (constructor; cbn [snd]; [first [exact P|now apply plain_nums]|]). constructor. }
  destruct s as [a b c ti]. cbn [ks_lamport ks_min ks_max ks_tags] in *. unfold de_keyseq.
  change (de_struct ["min_lamport"; "min_time"; "max_time"; "tags"]%string
            (se_keyseq {| ks_lamport := a; ks_min := b; ks_max := c; ks_tags := ti |}))
    with (Some [se_nums a; se_nums b; se_nums c; se_index ti]).
  cbv beta iota. now rewrite !de_u64s, E by assumption.
Qed.

(** Whatever text is accepted, no lookup in the index panics. *)
Theorem C94_in_bounds text ti i :
  from_str de_index text = Some ti ->
  exists o, ti_get ti i = Ok o /\ (o = None <-> nth_error (ti_elements ti) i = None).
Proof.
  intros H. unfold from_str in H. destruct (jread text) as [j|]; [|discriminate].
  destruct (de_index_ok _ _ H) as (KT & KE). unfold ti_get.
  destruct (nth_error (ti_elements ti) i) as [e|] eqn:E; [|exists None; now split].
  apply nth_error_In in E. destruct (proj1 (Forall_forall _ _) KE _ E) as (_ & H').
  rewrite lookup_eq by assumption. eexists. split; [reflexivity|]. split; discriminate.
Qed.

(** A text of the right form is accepted exactly if every number is a position in
    the table; the elements then are the sets of tags that the text names. This
    needs a table in ascending order without repetitions, see C94_refuted. *)
Theorem C94_meaning_partial text names elements :
  jread text = Some (document names elements) -> Forall (Forall (fun n => n < two32)%N) elements -> vs_ok names ->
  ((exists ti, from_str de_index text = Some ti)
   <-> Forall (Forall (fun n => n < Nlen names)%N) elements)
  /\ (forall ti, from_str de_index text = Some ti ->
      List.length (ti_elements ti) = List.length elements
      /\ forall i e, nth_error elements i = Some e ->
         exists s, ti_get ti i = Ok (Some s) /\ named names e s).
Proof.
  intros E B K. unfold from_str. rewrite E, de_index_document by assumption. rewrite of_id by assumption.
  assert (X : existsb (existsb (fun x => (Nlen names <=? x)%N)) (map vs_of elements) = false
    <-> Forall (Forall (fun n => n < Nlen names)%N) elements).
  { split.
    - intros F. apply Forall_forall. intros e I. apply Forall_forall. intros n J.
      destruct (N.ltb_spec n (Nlen names)) as [L|L]; [exact L|]. exfalso.
      enough (Y : existsb (existsb (fun x => (Nlen names <=? x)%N)) (map vs_of elements) = true) by congruence.
      apply existsb_exists. exists (vs_of e). split; [now apply in_map|]. apply existsb_exists. exists n.
      split; [now rewrite of_in|now apply N.leb_le].
    - intros F. destruct (existsb _ _) eqn:Y; [|reflexivity]. exfalso.
      apply existsb_exists in Y. destruct Y as (e' & I & Y). apply in_map_iff in I. destruct I as (e & <- & I).
      apply existsb_exists in Y. destruct Y as (n & J & Y). rewrite of_in in J. apply N.leb_le in Y.
      apply (proj1 (Forall_forall _ _) F) in I. apply (proj1 (Forall_forall _ _) I) in J. cbn in J. lia. }
  split.
  - rewrite <- X. destruct (existsb _ _); split; intros H; try easy; [now destruct H|eauto].
  - intros ti. destruct (existsb _ _) eqn:F; [discriminate|]. intros H. injection H as <-. cbn [ti_elements].
    apply proj1 in X. specialize (X eq_refl). split; [apply map_length|].
    intros i e N. unfold ti_get. cbn [ti_elements ti_tags]. rewrite nth_error_map, N. cbn [option_map].
    apply nth_error_In in N. apply (proj1 (Forall_forall _ _) X) in N. rewrite (Forall_forall (fun n => _)) in N.
    rewrite lookup_eq by (intros n J; rewrite of_in in J; now apply N).
    eexists. split; [reflexivity|]. split; [apply of_ok|]. intros t. rewrite of_in, in_map_iff. split.
    + intros (n & <- & J). rewrite of_in in J. exists n. split; [exact J|]. specialize (N n J).
      unfold tag_at. apply nth_error_nth'. unfold Nlen in N. lia.
    + intros (n & J & Y). exists n. split; [unfold tag_at; now apply nth_error_nth|now rewrite of_in].
Qed.

(** The table of the text is sorted when it is read, but the numbers stay: a text
    with a table in another order is accepted, and its elements name other tags. The
    same holds for the binary form. *)
Theorem C94_refuted :
  exists text bs ti,
    jread text = Some (document [tb; ta] [[0]]%N)
    /\ from_str de_index text = Some ti
    /\ ti_get ti 0 = Ok (Some [ta]) /\ ~ named [tb; ta] [0%N] [ta]
    /\ bs = x82 :: enc (CArr [CText tb; CText ta]) ++ enc (CArr [CArr [CUint 0]])
    /\ ti_decode (fun _ => true) bs = Ok (ti, []).
Proof.
  exists (jwrite (document [tb; ta] [[0]]%N)). eexists. eexists.
  split; [vm_compute; reflexivity|]. split; [vm_compute; reflexivity|]. split; [vm_compute; reflexivity|].
  split; [|split; [reflexivity|vm_compute; reflexivity]].
  intros (_ & H). destruct (proj1 (H ta) (or_introl eq_refl)) as (n & [<-|[]] & E). discriminate E.
Qed.

Definition case_keys : list key :=
  [k_single 7 1000 [ta; tc]; k_single 8 18446744073709551615 [[x22; x5c; x0a; x01; x7f; xc3; xa4]]; k_range 3 5 []]%N.
Example C94_case :
  exists s, kseq_from case_keys = Ok s
  /\ Forall is_u64 (ks_lamport s) /\ Forall is_u64 (ks_min s) /\ Forall is_u64 (ks_max s)
  /\ obtained (fun _ => true) (ks_tags s) /\ (Nlen (ti_tags (ks_tags s)) <= two32)%N
  /\ Forall (fun k => time_ok (k_time k) /\ vs_ok (k_tags k)) case_keys
  /\ to_string se_index (ks_tags s)
     = text_bytes "[[""\""\\\n\u0001" ++ [x7f; xc3; xa4] ++ text_bytes """,""a"",""c""],[[1,2],[0],[]]]".
Proof.
  eexists. split; [vm_compute; reflexivity|].
  cbn [ks_lamport ks_min ks_max ks_tags ti_tags].
  assert (U : forall n, (n <? two64)%N = true -> is_u64 n) by (intros n; apply N.ltb_lt).
  split; [repeat constructor; now apply U|]. split; [repeat constructor; now apply U|].
  split; [repeat constructor; now apply U|].
  split; [|split; [|split; [|vm_compute; reflexivity]]].
  - left. left. exists (map k_tags case_keys). split; [repeat constructor|vm_compute; reflexivity].
  - unfold Nlen, two32. cbn. lia.
  - repeat constructor; now apply U.
Qed.

(** Spaces, other escapes, fields in another order and unknown fields are accepted;
    numbers that are no [u32], commas before a bracket and text behind the value are
    not. *)
Example C94_meaning_case :
  let read s := from_str de_index (text_bytes s) in
  jread (text_bytes " [ [""\u0061"",""b""] , [[1 ,0],[]] ] ") = Some (document [ta; tb] [[1; 0]; []]%N)
  /\ (exists ti, read " [ [""\u0061"",""b""] , [[1 ,0],[]] ] "%string = Some ti /\ ti_elements ti = [[0; 1]; []]%N)
  /\ vs_ok [ta; tb]
  /\ read "[[""a"",""b""],[[0],[0,1],[0],[0,-1]]]"%string = None
  /\ read "[[""a"",""b""],[[0],[0,1],[0],[0,2]]]"%string = None
  /\ read "[[""a""],[[0],]]"%string = None
  /\ read "[[""a""],[[0]]]]"%string = None
  /\ read "[[""a""],[[00]]]"%string = None
  /\ from_str de_time (text_bytes "{""max_time"":3,""x"":[1.5e3,null,{""y"":true}],""min_lamport"":1,""min_time"":2}")
     = Some {| t_lamport := 1; t_min := 2; t_max := 3 |}%N
  /\ from_str de_time (text_bytes "[1,2,3]") = Some {| t_lamport := 1; t_min := 2; t_max := 3 |}%N
  /\ from_str de_time (text_bytes "{""max_time"":3,""max_time"":3,""min_lamport"":1,""min_time"":2}") = None.
Proof.
  cbv zeta. split; [vm_compute; reflexivity|]. split; [eexists; split; vm_compute; reflexivity|].
  split; [repeat constructor|].
  repeat split; vm_compute; reflexivity.
Qed.

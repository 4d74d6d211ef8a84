(** C74, C75: compact sequences: the default methods of [CompactSeq], and the
    sequences that come with the code. *)
From Coq Require Import List NArith Arith Lia Bool String Sorted.
From Coq Require Import Strings.Byte.
From Verif Require Import Base BaseProofs Cbor CborProofs Types Tags TagProofs PropsTags PropsKeyTags Compact.
Import ListNotations.
Open Scope list_scope.

(** * Specification *)

(** Through the two required methods, [s] shows the items of [l]. *)
Definition shows {S I} (C : compact S I) (s : S) (l : list I) : Prop :=
  c_len C s = List.length l /\ forall i, c_get C s i = Ok (nth_error l i).

(** The items whose bit is set. *)
Definition picked {A} (bits : list bool) (l : list A) : list A :=
  map snd (filter fst (combine bits l)).

(** * C74 *)

Section Defaults.
  Context {S I : Type} (C : compact S I).

  Lemma to_vec_go s : forall (l : list I) o,
    (forall i, c_get C s (o + i) = Ok (nth_error l i)) ->
    rmapM (fun i => unwrap (c_get C s i)) (seq o (List.length l)) = Ok l.
  Proof.
    induction l as [|x l IH]; intros o H; cbn [List.length seq]; [reflexivity|].
    cbn [rmapM]. pose proof (H 0) as H0. rewrite Nat.add_0_r in H0. rewrite H0. cbn [nth_error unwrap rbind].
    fold (rmapM (fun i => unwrap (c_get C s i))). rewrite IH; [reflexivity|].
    intros i. specialize (H (Datatypes.S i)). cbn in H. rewrite <- H. f_equal. lia.
  Qed.

  Lemma select_go s bits : forall (l : list I) o,
    (forall i, c_get C s (o + i) = Ok (nth_error l i)) ->
    let r := rmap (@List.concat I)
      (rmapM (fun i =>
         match nth_error bits i with
         | None => Panic (PAssert "index out of bounds")
         | Some false => Ok []
         | Some true => rmap (fun o => match o with Some x => [x] | None => [] end) (c_get C s i)
         end) (seq o (List.length l))) in
    (o + List.length l <= List.length bits -> r = Ok (picked (skipn o bits) l))
    /\ (o <= List.length bits < o + List.length l -> exists p, r = Panic p).
  Proof.
    induction l as [|x l IH]; intros o H; cbn [List.length seq].
    { split; [|lia]. intros _. cbn. unfold picked. now destruct (skipn o bits). }
    cbn [rmapM]. fold (rmapM (fun i =>
         match nth_error bits i with
         | None => Panic (PAssert "index out of bounds")
         | Some false => Ok []
         | Some true => rmap (fun o => match o with Some x => [x] | None => [] end) (c_get C s i)
         end)).
    pose proof (H 0) as H0. rewrite Nat.add_0_r in H0. rewrite H0. cbn [nth_error].
    assert (H' : forall i, c_get C s (Datatypes.S o + i) = Ok (nth_error l i)).
    { intros i. specialize (H (Datatypes.S i)). cbn in H. rewrite <- H. f_equal. lia. }
    specialize (IH (Datatypes.S o) H'). cbv zeta in IH. destruct IH as (IH1 & IH2).
    destruct (nth_error bits o) as [b|] eqn:B.
    - pose proof (nth_error_Some_lt _ _ _ B) as LT.
      assert (SK : skipn o bits = b :: skipn (Datatypes.S o) bits).
      { clear -B. revert bits B. induction o as [|o IH]; intros [|c bits] B; try discriminate.
        - cbn in B. injection B as ->. reflexivity.
        - cbn in B. cbn [skipn]. now apply IH. }
      split.
      + intros Z. cbv zeta. rewrite SK.
        specialize (IH1 ltac:(lia)).
        destruct (rmapM _ (seq (Datatypes.S o) (List.length l))) as [ys| | |]; try discriminate.
        cbn in IH1. injection IH1 as IH1. unfold picked in *.
        destruct b; cbn; rewrite IH1; reflexivity.
      + intros Z. cbv zeta. destruct (IH2 ltac:(lia)) as (p & IH2').
        destruct (rmapM _ (seq (Datatypes.S o) (List.length l))) as [ys| | |]; try discriminate.
        exists p. cbn in IH2'. destruct b; cbn; assumption.
    - apply nth_error_None in B. split; [lia|]. intros _. cbn. eauto.
  Qed.

  (** The default methods describe the items that [len] and [get] show. *)
  Theorem C74_defaults s l : shows C s l ->
    c_to_vec C s = Ok l
    /\ c_count C s = Nlen l
    /\ (c_is_empty C s = true <-> l = [])
    /\ (forall x r, l = x :: r -> c_first C s = Ok x)
    /\ (forall x r, l = r ++ [x] -> c_last C s = Ok x)
    /\ (l = [] -> exists p p', c_first C s = Panic p /\ c_last C s = Panic p')
    /\ (forall bits, List.length l <= List.length bits -> c_select C s bits = Ok (picked bits l))
    /\ (forall bits, List.length bits < List.length l -> exists p, c_select C s bits = Panic p).
  Proof.
    intros (HL & HG). splits.
    - unfold c_to_vec. rewrite HL. apply to_vec_go. exact HG.
    - unfold c_count, Nlen. now rewrite HL.
    - unfold c_is_empty. rewrite HL, Nat.eqb_eq. destruct l; cbn; split; congruence.
    - intros x r ->. unfold c_first. now rewrite HG.
    - intros x r ->. unfold c_last. rewrite HL, app_length. cbn [List.length]. rewrite Nat.add_1_r, HG.
      rewrite nth_error_app2, Nat.sub_diag by lia. reflexivity.
    - intros ->. unfold c_first, c_last. rewrite HL, HG. cbn. eauto.
    - intros bits Z. unfold c_select. rewrite HL. now apply (proj1 (select_go s bits l 0 HG)).
    - intros bits Z. unfold c_select. rewrite HL. apply (proj2 (select_go s bits l 0 HG)). lia.
  Qed.
End Defaults.

(** [picked] is what the model of iteration uses for [select]. *)
Lemma picked_mask {A} bits : forall l : list A, mask_select bits l = picked bits l.
Proof.
  unfold picked. induction bits as [|b bits IH]; intros [|x l]; cbn; try reflexivity.
  destruct b; cbn; now rewrite IH.
Qed.

(** [VecSeq] shows what it was collected from, and survives its encoding. *)
Theorem C74_vecseq {A} (k_enc : A -> cbor) (k_dec : cbor -> option A) (l : list A) :
  shows vecseq_compact (vecseq_of l) l
  /\ ((forall k, k_dec (k_enc k) = Some k) -> vecseq_dec k_dec (vecseq_enc k_enc (vecseq_of l)) = Some (vecseq_of l)).
Proof.
  split; [split; reflexivity|]. intros H. cbn. now rewrite (omapM_id _ k_enc _ H).
Qed.

(** So does [UnitSeq], if the number of items fits a [u64] and a [usize]. *)
Theorem C74_unitseq usize_max (l : list unit) :
  shows unitseq_compact (unitseq_of l) l
  /\ ((Nlen l < two64)%N -> (Nlen l <= usize_max)%N ->
      unitseq_dec usize_max (unitseq_enc (unitseq_of l)) = Some (unitseq_of l)).
Proof.
  split.
  - split; [cbn; unfold Nlen; now rewrite Nat2N.id|]. intros i. cbn. f_equal. unfold Nlen.
    destruct (N.ltb_spec (N.of_nat i) (N.of_nat (List.length l))) as [H|H].
    + destruct (nth_error l i) as [[]|] eqn:E; [reflexivity|]. apply nth_error_None in E. lia.
    + destruct (nth_error l i) as [[]|] eqn:E; [|reflexivity]. apply nth_error_Some_lt in E. lia.
  - intros A B. cbn. apply N.ltb_lt in A. apply N.leb_le in B. now rewrite A, B.
Qed.

(** So does [KeySeq]. *)
Theorem C74_keyseq ks : keys_ok ks -> exists s, kseq_from ks = Ok s /\ shows keyseq_compact s ks.
Proof. intros H. destruct (C52_get ks H) as (s & E & A & B). exists s. repeat split; assumption. Qed.

(** Trees with keys in a [VecSeq] and without summary meet banyan's requirements
    on types whenever keys, values and links can be encoded. *)
Theorem C74_plain {K V L} k_enc k_dec v_enc v_dec l_eqb l_cid l_of nonce :
  (forall k, k_dec (k_enc k) = Some k) -> (forall v, v_dec (v_enc v) = Some v) ->
  (forall l, l_of (l_cid l) = Some l) -> (forall a b, l_eqb a b = true <-> a = b) ->
  TypesLaws (@plain_types K V L k_enc k_dec v_enc v_dec l_eqb l_cid l_of nonce).
Proof.
  intros HK HV HL HE. constructor; cbn -[c_to_vec]; intros; auto.
  - now rewrite (proj1 (C74_defaults _ _ _ (proj1 (C74_vecseq k_enc k_dec l)))).
  - now rewrite (proj1 (C74_defaults _ _ _ (proj1 (C74_unitseq 0 l)))).
  - destruct k as [l]. exact (proj2 (C74_vecseq k_enc k_dec l) HK).
  - now destruct s.
Qed.

Example C74_case :
  let l := [10; 20; 30]%N in
  let bits := [true; false; true] in
  shows vecseq_compact (vecseq_of l) l
  /\ c_select vecseq_compact (vecseq_of l) bits = Ok [10; 30]%N
  /\ c_last vecseq_compact (vecseq_of l) = Ok 30%N
  /\ c_to_vec unitseq_compact (unitseq_of [tt; tt]) = Ok [tt; tt]
  /\ (exists p, c_select vecseq_compact (vecseq_of l) [true; true] = Panic p).
Proof. cbn. splits; try reflexivity; [split; reflexivity|eauto]. Qed.

(** * C75 *)

(** The columns of the sequence, and its number of keys. *)
Definition columns (s : keyseq) : list (list N) := [ks_lamport s; ks_min s; ks_max s].

(** What is needed for a sequence of keys to exist in memory. *)
Definition kseq_fits (utf8 : bytes -> bool) (s : keyseq) : Prop :=
  fits utf8 (ks_tags s)
  /\ Forall (fun c => (Nlen c < two64)%N /\ Forall (fun n => (n < two64)%N) c) (columns s).

Lemma dec_column_enc l :
  (Nlen l < two64)%N -> Forall (fun n => (n < two64)%N) l -> dec_column (enc (CArr (map CUint l))) = Ok l.
Proof.
  intros H F. unfold dec_column.
  assert (E : checked_prefix (enc (CArr (map CUint l))) = Some (CArr (map CUint l), [])).
  { rewrite <- (app_nil_r (enc _)). apply checked_prefix_enc. cbn [cbor_ok]. rewrite Nlen_map.
    apply N.ltb_lt in H. rewrite H. cbn [andb]. rewrite forallb_forall. intros c I.
    apply in_map_iff in I. destruct I as (n & <- & I). cbn. apply N.ltb_lt.
    now apply (proj1 (Forall_forall _ _) F). }
  rewrite E. cbn [dec_vec]. now rewrite (omapM_id dec_u64 CUint).
Qed.

(** Key sequences survive their encoding. *)
Theorem C75_codec utf8 ks s :
  keys_ok ks -> kseq_from ks = Ok s -> kseq_fits utf8 s ->
  kseq_decode utf8 (kseq_encode s) = Ok s /\ shows keyseq_compact s ks.
Proof.
  intros O E (FT & FC). destruct (C74_keyseq ks O) as (s' & E' & SH). rewrite E in E'. injection E' as <-.
  split; [|exact SH]. unfold columns in FC.
  inversion FC as [|? ? (A1 & A2) FC1]; subst. inversion FC1 as [|? ? (B1 & B2) FC2]; subst.
  inversion FC2 as [|? ? (C1 & C2) _]; subst.
  unfold kseq_encode, kseq_decode. rewrite !dec_column_enc by assumption. cbn [rbind].
  rewrite <- (app_nil_r (ti_encode (ks_tags s))).
  rewrite (C46_codec utf8 (ks_tags s) []); [now destruct s| |exact FT].
  left. exists (map k_tags ks). split.
  - apply Forall_forall. intros x I. apply in_map_iff in I. destruct I as (k & <- & I).
    now apply (proj1 (Forall_forall _ _) (proj1 O)).
  - unfold kseq_from in E. destruct (ti_from (map k_tags ks)) as [ti| | |]; try discriminate.
    cbn in E. injection E as <-. reflexivity.
Qed.

Lemma decode_tags utf8 fields s : kseq_decode utf8 fields = Ok s -> ti_ok (ks_tags s).
Proof.
  unfold kseq_decode. destruct fields as [|a [|b [|c [|d [|]]]]]; try discriminate.
  destruct (dec_column a); try discriminate. destruct (dec_column b); try discriminate.
  destruct (dec_column c); try discriminate. cbn [rbind].
  destruct (ti_decode utf8 d) as [[ti rest]| | |] eqn:E; try discriminate. cbn.
  destruct rest; [|discriminate]. intros X. injection X as <-. cbn. eapply decode_ok; eassumption.
Qed.

Lemma get_eq s i : ti_ok (ks_tags s) ->
  exists o, kseq_get s i = Ok o
  /\ (i < kseq_len s -> (o <> None <-> Forall (fun c => i < List.length c) (columns s))).
Proof.
  intros (_ & K). unfold kseq_get, ti_get, kseq_len.
  destruct (nth_error (ti_elements (ks_tags s)) i) as [e|] eqn:E.
  - pose proof (nth_error_In _ _ E) as I. destruct (proj1 (Forall_forall _ _) K _ I) as (_ & H).
    rewrite lookup_eq by assumption. cbn [rmap rbind].
    assert (P : forall l : list N, i < List.length l -> exists x, nth_error l i = Some x).
    { intros l Z. destruct (nth_error l i) eqn:N; [eauto|]. apply nth_error_None in N. lia. }
    destruct (nth_error (ks_lamport s) i) as [x|] eqn:A;
      [destruct (nth_error (ks_min s) i) as [y|] eqn:B; [destruct (nth_error (ks_max s) i) as [z|] eqn:D|]|];
      eexists; (split; [reflexivity|]); intros _; unfold columns; split; intros H0; try congruence.
    + repeat constructor; eapply nth_error_Some_lt; eassumption.
    + exfalso. apply Forall_inv_tail, Forall_inv_tail, Forall_inv in H0. destruct (P _ H0). congruence.
    + exfalso. apply Forall_inv_tail, Forall_inv in H0. destruct (P _ H0). congruence.
    + exfalso. apply Forall_inv in H0. destruct (P _ H0). congruence.
  - apply nth_error_None in E. cbn [rbind].
    eexists. split.
    + destruct (nth_error (ks_lamport s) i), (nth_error (ks_min s) i), (nth_error (ks_max s) i); reflexivity.
    + lia.
Qed.

Lemma rmapM_total {A C} (f : A -> res C) l :
  (exists r, rmapM f l = Ok r) <-> (forall x, In x l -> exists y, f x = Ok y).
Proof.
  split.
  - intros (r & E) x I. apply rmapM_ok in E. induction E as [|a c l r H E IH]; [destruct I|].
    destruct I as [<-|I]; eauto.
  - induction l as [|x l IH]; intros H; [exists []; reflexivity|]. cbn [rmapM].
    fold (rmapM f). destruct (H x (or_introl eq_refl)) as (y & ->).
    destruct IH as (r & ->); [intros z I; apply H; now right|]. cbn. eauto.
Qed.

(** A sequence of keys that was decoded can be read exactly if no column is
    shorter than the list of tag sets; the single items never panic. *)
Theorem C75_read_partial utf8 fields s : kseq_decode utf8 fields = Ok s ->
  (forall i, exists o, c_get keyseq_compact s i = Ok o)
  /\ ((exists l, c_to_vec keyseq_compact s = Ok l)
      <-> Forall (fun c => c_len keyseq_compact s <= List.length c) (columns s)).
Proof.
  intros D. apply decode_tags in D. split.
  { intros i. destruct (get_eq s i D) as (o & E & _). exists o. exact E. }
  unfold c_to_vec. rewrite rmapM_total. cbn [c_len c_get keyseq_compact].
  assert (U : forall i, In i (seq 0 (kseq_len s)) ->
    ((exists y, unwrap (kseq_get s i) = Ok y) <-> Forall (fun c => i < List.length c) (columns s))).
  { intros i I. apply in_seq in I. destruct (get_eq s i D) as (o & E & H). rewrite E.
    specialize (H ltac:(lia)). rewrite <- H. destruct o as [k|]; cbn; split; intros X; try congruence.
    - eauto.
    - destruct X as (y & X). discriminate. }
  split.
  - intros H. unfold columns. destruct (kseq_len s) as [|n] eqn:Z.
    { repeat constructor; lia. }
    specialize (H n). rewrite U in H by (apply in_seq; lia).
    specialize (H ltac:(apply in_seq; lia)). unfold columns in H.
    eapply Forall_impl; [|exact H]. cbn. intros. lia.
  - intros H i I. apply U; [assumption|]. apply in_seq in I.
    eapply Forall_impl; [|exact H]. cbn. intros. lia.
Qed.

(** The decoder does not compare the lengths: there are bytes that it accepts
    and that make [to_vec], and with it every read of the node, panic. *)
Theorem C75_refuted : exists fields s p,
  kseq_decode (fun _ => true) fields = Ok s /\ c_to_vec keyseq_compact s = Panic p.
Proof.
  exists [[x80]; [x80]; [x80]; [Byte.x82; x80; x81; x80]]. eexists. eexists.
  split; vm_compute; reflexivity.
Qed.

Example C75_case :
  let ks := [k_single 1 5 [ta]; k_single 2 6 [ta; tb]; k_single 3 7 []] in
  keys_ok ks /\ (exists s, kseq_from ks = Ok s /\ kseq_fits (fun _ => true) s
    /\ kseq_decode (fun _ => true) (kseq_encode s) = Ok s
    /\ c_to_vec keyseq_compact s = Ok ks).
Proof.
  cbv zeta. split.
  - split; [repeat constructor|]. apply few_small. vm_compute. discriminate.
  - eexists. split; [vm_compute; reflexivity|]. splits.
    + split; [unfold fits; splits; [vm_compute; discriminate|reflexivity|repeat constructor]|].
      unfold columns. cbn. repeat constructor.
    + vm_compute. reflexivity.
    + vm_compute. reflexivity.
Qed.

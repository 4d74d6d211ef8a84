(** C46 - C49: tag indexes, and boolean expressions over tags. *)
From Coq Require Import List NArith Arith Lia Bool String Sorted.
From Coq Require Import Strings.Byte.
From Verif Require Import Base BaseProofs Cbor CborProofs Types Tags TagProofs.
Import ListNotations.
Open Scope list_scope.

(** * Specification *)

(** [vs_ok s] (TagProofs.v): [s] is strictly sorted, as every [VecSet] is. *)

(** At most 2^32 different tags occur in [xs]. *)
Definition few_tags (xs : list tagset) : Prop :=
  forall ts : list tag, NoDup ts -> (forall t, In t ts -> exists x, In x xs /\ In t x) -> (Nlen ts <= two32)%N.

(** A tag index obtained from the API: built, or decoded. *)
Definition made (utf8 : bytes -> bool) (ti : tag_index) : Prop :=
  (exists xs : list tagset, Forall vs_ok xs /\ ti_from xs = Ok ti) \/ (exists bs rest, ti_decode utf8 bs = Ok (ti, rest)).

(** What is needed for an index to exist in memory: lengths fit in 64 bits, tags
    are strings, and there are at most 2^32 of them. *)
Definition fits (utf8 : bytes -> bool) (ti : tag_index) : Prop :=
  (Nlen (ti_tags ti) <= two32)%N /\ (Nlen (ti_elements ti) < two64)%N
  /\ Forall (fun t => utf8 t = true /\ (Nlen t < two64)%N) (ti_tags ti).

(** Satisfaction of a boolean expression by a set of tags. *)
Fixpoint sat (s : list tag) (e : expr) : Prop :=
  match e with
  | ELit t => In t s
  | EAnd es => fold_right (fun e p => sat s e /\ p) True es
  | EOr es => fold_right (fun e p => sat s e \/ p) False es
  end.

(** No conjunction or disjunction of nothing. *)
Fixpoint nonempty (e : expr) : Prop :=
  match e with
  | ELit _ => True
  | EAnd es | EOr es => es <> [] /\ fold_right (fun e p => nonempty e /\ p) True es
  end.

(** Satisfaction of a disjunctive normal form. *)
Definition dnf_sat (s : list tag) (d : list tagset) : Prop := exists c, In c d /\ incl c s.

(** * C46 *)

Lemma few_all xs : few_tags xs -> (Nlen (all_tags xs) <= two32)%N.
Proof.
  intros H. apply H; [apply ok_nodup, all_tags_ok|]. intros t I. now apply all_tags_in.
Qed.

(** Building an index never panics, and gives back what it was built from. *)
Theorem C46_get (xs : list tagset) :
  Forall vs_ok xs -> few_tags xs ->
  exists ti, ti_from xs = Ok ti /\ ti_as_elements ti = Ok xs
  /\ forall i, ti_get ti i = Ok (nth_error xs i).
Proof.
  intros K F. rewrite from_eq. eexists. split; [reflexivity|].
  assert (G : forall x, In x xs -> ti_lookup (all_tags xs) (iset (all_tags xs) x) = Ok x).
  { intros x I. rewrite lookup_eq.
    - rewrite lookup_iset; [reflexivity|now apply few_all|now apply (proj1 (Forall_forall _ _) K)|].
      intros t J. apply all_tags_in. eauto.
    - intros n J. apply iset_in in J. destruct J as (t & J & ->). apply pos_lt, all_tags_in. eauto. }
  split.
  - unfold ti_as_elements. cbn [ti_tags ti_elements]. apply rmapM_ok.
    assert (X : forall l, incl l xs ->
      Forall2 (fun e y => ti_lookup (all_tags xs) e = Ok y) (map (iset (all_tags xs)) l) l).
    { induction l as [|x l IH]; intros H; cbn; constructor; [apply G, H; now left|].
      apply IH. intros y I. apply H. now right. }
    apply X, incl_refl.
  - intros i. unfold ti_get. cbn [ti_tags ti_elements]. rewrite nth_error_map.
    destruct (nth_error xs i) as [x|] eqn:E; cbn; [|reflexivity].
    rewrite G by now apply nth_error_In in E. reflexivity.
Qed.

(** Decoding gives back what was encoded, and leaves what follows. *)
Lemma set_length (e : list N) m : vs_ok e -> (forall n, In n e -> (n < m)%N) -> (Nlen e <= m)%N.
Proof.
  intros K H. unfold Nlen.
  assert (List.length e <= List.length (map N.of_nat (seq 0 (N.to_nat m)))).
  { apply NoDup_incl_length; [now apply ok_nodup|]. intros n I. apply in_map_iff.
    exists (N.to_nat n). specialize (H n I). split; [apply N2Nat.id|]. apply in_seq. lia. }
  rewrite map_length, seq_length in H0. lia.
Qed.

Theorem C46_codec utf8 ti rest :
  made utf8 ti -> fits utf8 ti -> ti_decode utf8 (ti_encode ti ++ rest) = Ok (ti, rest).
Proof.
  intros M (Z & ZE & ZT).
  assert (K : ti_ok ti).
  { destruct M as [(xs & _ & E)|(bs & r & E)]; [now apply from_ok in E|now apply decode_ok in E]. }
  destruct K as (KT & KE).
  unfold ti_encode, ti_decode. rewrite <- app_comm_cons, <- app_assoc.
  rewrite checked_prefix_enc.
  2:{ cbn. rewrite Nlen_map. apply andb_true_intro. split.
      - apply N.ltb_lt. eapply N.le_lt_trans; [exact Z|reflexivity].
      - rewrite forallb_forall. intros c I. apply in_map_iff in I. destruct I as (t & <- & I). cbn.
        apply N.ltb_lt. now apply (proj1 (Forall_forall _ _) ZT). }
  assert (E1 : dec_vec (dec_string utf8) (cstrings (ti_tags ti)) = Some (ti_tags ti)).
  { cbn. apply omapM_some. revert ZT. generalize (ti_tags ti). induction t as [|x t IH]; cbn; constructor.
    - inversion ZT; subst. destruct H1 as (U & _). cbn. now rewrite U.
    - apply IH. now inversion ZT. }
  rewrite E1. rewrite checked_prefix_enc.
  2:{ cbn. rewrite Nlen_map. apply andb_true_intro. split; [now apply N.ltb_lt|].
      rewrite forallb_forall. intros c I. apply in_map_iff in I. destruct I as (e & <- & I). cbn.
      destruct (proj1 (Forall_forall _ _) KE _ I) as (Ke & He).
      pose proof (set_length _ _ Ke He).
      rewrite Nlen_map. apply andb_true_intro. split.
      - apply N.ltb_lt. unfold two32, two64 in *. lia.
      - rewrite forallb_forall. intros c J. apply in_map_iff in J. destruct J as (n & <- & J). cbn.
        apply N.ltb_lt. specialize (He n J). unfold two32, two64 in *. lia. }
  assert (E2 : dec_vec (dec_vec dec_u32) (CArr (map cu32s (ti_elements ti))) = Some (ti_elements ti)).
  { cbn. apply omapM_some. revert KE. generalize (ti_elements ti). induction l as [|e l IH]; cbn; constructor.
    - inversion KE; subst. destruct H1 as (_ & He). cbn. apply omapM_some.
      clear -He Z. induction e as [|n e IH]; cbn; constructor.
      + cbn. assert ((n <? two32)%N = true) as ->; [|reflexivity].
        apply N.ltb_lt. specialize (He n (or_introl eq_refl)). lia.
      + apply IH. intros m I. apply He. now right.
    - apply IH. now inversion KE. }
  rewrite E2. cbv zeta. rewrite (of_id _ KT).
  assert (E3 : map vs_of (ti_elements ti) = ti_elements ti).
  { clear -KE. induction KE as [|e l (Ke & _) _ IH]; cbn; [reflexivity|]. now rewrite IH, of_id. }
  rewrite E3.
  assert (forallb (forallb (fun x => (x <? Nlen (ti_tags ti))%N)) (ti_elements ti) = true) as ->.
  { rewrite forallb_forall. intros e I. rewrite forallb_forall. intros n J. apply N.ltb_lt.
    now apply (proj1 (Forall_forall _ _) KE e I). }
  destruct ti; reflexivity.
Qed.

(** Lookups in an index never go out of bounds, also if it was decoded from
    arbitrary bytes. *)
Theorem C46_in_bounds utf8 ti i :
  made utf8 ti -> exists o, ti_get ti i = Ok o /\ (o = None <-> nth_error (ti_elements ti) i = None).
Proof.
  intros M.
  assert (K : ti_ok ti).
  { destruct M as [(xs & _ & E)|(bs & r & E)]; [now apply from_ok in E|now apply decode_ok in E]. }
  destruct K as (KT & KE). unfold ti_get.
  destruct (nth_error (ti_elements ti) i) as [e|] eqn:E; [|exists None; now split].
  apply nth_error_In in E. destruct (proj1 (Forall_forall _ _) KE _ E) as (_ & H).
  rewrite lookup_eq by assumption. eexists. split; [reflexivity|]. split; discriminate.
Qed.

Definition ta : tag := [x61].
Definition tb : tag := [x62].
Definition tc : tag := [x63].

Example C46_case :
  let xs := [[ta; tc]; []; [tb]; [ta; tb; tc]] in
  Forall vs_ok xs /\ few_tags xs
  /\ exists ti, ti_from xs = Ok ti /\ made (fun _ => true) ti /\ fits (fun _ => true) ti
       /\ ti_tags ti = [ta; tb; tc] /\ ti_elements ti = [[0; 2]; []; [1]; [0; 1; 2]]%N.
Proof.
  cbv zeta.
  assert (K : Forall vs_ok [[ta; tc]; []; [tb]; [ta; tb; tc]]).
  { repeat constructor. }
  splits; [exact K| |].
  - intros ts N H. assert (I : incl ts [ta; tb; tc]).
    { intros t J. destruct (H t J) as (x & X & T). cbn in X. destruct X as [<-|[<-|[<-|[<-|[]]]]]; cbn in *; intuition. }
    apply NoDup_incl_length in I; [|assumption]. unfold Nlen, two32. cbn in I. lia.
  - eexists. split; [vm_compute; reflexivity|]. splits; try reflexivity.
    + left. eexists. split; [exact K|vm_compute; reflexivity].
    + split; cbn; [unfold Nlen, two32; cbn; lia|]. split; [unfold Nlen, two64; cbn; lia|].
      repeat constructor; unfold Nlen, two64; cbn; lia.
Qed.

(** * C47 *)

Lemma matching_in q es n i :
  In i (flat_map (fun ie : nat * indexset => if existsb (fun x => is_subset x (snd ie)) q then [fst ie] else [])
          (combine (seq n (List.length es)) es)) <->
  exists e x, n <= i /\ nth_error es (i - n) = Some e /\ In x q /\ incl x e.
Proof.
  rewrite in_flat_map. split.
  - intros ((j & e) & I & J). cbn in J. destruct (existsb _ q) eqn:X; [|easy]. destruct J as [->|[]].
    apply existsb_exists in X. destruct X as (x & X & S). apply subset_incl in S.
    exists e, x. apply In_nth_error in I. destruct I as (k & I).
    assert (A : nth_error (seq n (List.length es)) k = Some i /\ nth_error es k = Some e).
    { clear -I. revert I. generalize (seq n (List.length es)) as s. intros s. revert es k.
      induction s as [|a s IH]; intros [|b es] [|k]; cbn; try discriminate.
      - intros E. injection E as -> ->. auto.
      - apply IH. }
    destruct A as (A & B).
    assert (k < List.length es) by (apply nth_error_Some; congruence).
    rewrite (nth_error_nth' _ 0), seq_nth in A by (rewrite ?seq_length; lia). injection A as <-.
    splits; auto; [lia|]. now replace (n + k - n) with k by lia.
  - intros (e & x & Z & E & I & S). exists (i, e). split.
    + assert (i - n < List.length es) by (apply nth_error_Some; congruence).
      apply (nth_error_In _ (i - n)).
      assert (A : nth_error (seq n (List.length es)) (i - n) = Some i).
      { rewrite (nth_error_nth' _ 0), seq_nth by (rewrite ?seq_length; lia). f_equal. lia. }
      revert A E. generalize (seq n (List.length es)) as s, (i - n) as k. clear. intros s k.
      revert es k. induction s as [|a s IH]; intros [|b es] [|k]; cbn; try discriminate.
      * congruence.
      * apply IH.
    + cbn. assert (existsb (fun x => is_subset x e) q = true) as ->; [|now left].
      apply existsb_exists. exists x. split; [assumption|now apply subset_incl].
Qed.

Lemma matching_sorted {C} (f : nat * C -> bool) es n :
  StronglySorted lt (flat_map (fun ie : nat * C => if f ie then [fst ie] else [])
          (combine (seq n (List.length es)) es)).
Proof.
  assert (G : forall es n i, In i (flat_map (fun ie : nat * C => if f ie then [fst ie] else [])
          (combine (seq n (List.length es)) es)) -> n <= i).
  { induction es0 as [|e es0 IH]; cbn; intros m i; [easy|]. rewrite in_app_iff. intros [I|I].
    - destruct (f (m, e)); [destruct I as [<-|[]]; reflexivity|easy].
    - apply IH in I. lia. }
  revert n. induction es as [|e es IH]; cbn; intros n; [constructor|].
  destruct (f (n, e)); cbn; [|apply IH]. constructor; [apply IH|].
  apply Forall_forall. intros i I. apply G in I. lia.
Qed.

(** [matching] returns, in ascending order, the positions of the elements that
    contain all tags of some conjunction of the query. *)
Theorem C47_matching utf8 ti xs q :
  made utf8 ti -> (Nlen (ti_tags ti) <= two32)%N -> ti_as_elements ti = Ok xs ->
  StronglySorted lt (ti_matching ti q)
  /\ forall i, In i (ti_matching ti q) <-> exists x, nth_error xs i = Some x /\ dnf_sat x q.
Proof.
  intros M Z EX.
  assert (K : ti_ok ti).
  { destruct M as [(ys & _ & E)|(bs & r & E)]; [now apply from_ok in E|now apply decode_ok in E]. }
  destruct K as (KT & KE).
  set (q' := flat_map (fun s => match map_to_index_set (ti_tags ti) s with
                              | Some x => [x] | None => [] end) q).
  assert (EM : ti_matching ti q =
    flat_map (fun ie : nat * indexset => if existsb (fun x => is_subset x (snd ie)) q' then [fst ie] else [])
          (combine (seq 0 (List.length (ti_elements ti))) (ti_elements ti))).
  { unfold ti_matching. fold q'. cbv zeta. destruct q'; [|reflexivity].
    induction (combine _ _) as [|c l IH]; cbn; [reflexivity|exact IH]. }
  rewrite EM. split; [apply (matching_sorted (fun ie => existsb (fun x => is_subset x (snd ie)) q'))|].
  intros i. rewrite matching_in.
  assert (Q : forall s, In s q' <-> exists c, In c q /\ incl c (ti_tags ti) /\ s = iset (ti_tags ti) c).
  { intros s. unfold q'. rewrite in_flat_map. split.
    - intros (c & I & J). destruct (incl_dec_tags c (ti_tags ti)) as [H|H].
      + rewrite map_to_index_some in J by assumption. destruct J as [<-|[]]. eauto.
      + rewrite map_to_index_none in J by assumption. destruct J.
    - intros (c & I & H & ->). exists c. split; [assumption|]. rewrite map_to_index_some by assumption. now left. }
  assert (X : forall e, In e (ti_elements ti) -> ti_lookup (ti_tags ti) e = Ok (vs_of (map (tag_at (ti_tags ti)) e))).
  { intros e I. apply lookup_eq. now apply (proj1 (Forall_forall _ _) KE). }
  assert (EX' : xs = map (fun e => vs_of (map (tag_at (ti_tags ti)) e)) (ti_elements ti)).
  { unfold ti_as_elements in EX. rewrite (rmapM_map _ _ _ X) in EX. now injection EX as <-. }
  assert (IE : forall e x, In e (ti_elements ti) -> x = vs_of (map (tag_at (ti_tags ti)) e) ->
             forall c, incl c (ti_tags ti) -> (incl (iset (ti_tags ti) c) e <-> incl c x)).
  { intros e x I -> c H. destruct (proj1 (Forall_forall _ _) KE _ I) as (_ & He). split; intros G t J.
    - rewrite of_in, in_map_iff. exists (pos (ti_tags ti) t). split; [apply tag_at_pos; auto|].
      apply G. apply iset_in. eauto.
    - apply iset_in in J. destruct J as (u & J & ->). apply G in J. rewrite of_in, in_map_iff in J.
      destruct J as (n & <- & J). destruct (pos_tag_at _ _ KT Z (He n J)) as (-> & _). assumption. }
  assert (NE : nth_error xs i = option_map (fun e => vs_of (map (tag_at (ti_tags ti)) e)) (nth_error (ti_elements ti) i)).
  { rewrite EX'. apply nth_error_map. }
  rewrite Nat.sub_0_r, NE. split.
  - intros (e & s & _ & E & I & S). rewrite E. cbn. eexists. split; [reflexivity|].
    apply Q in I. destruct I as (c & I & H & ->). exists c. split; [assumption|].
    apply nth_error_In in E. now apply (IE e _ E eq_refl c H).
  - intros (x & E & (c & I & H)). destruct (nth_error (ti_elements ti) i) as [e|] eqn:E'; [|discriminate].
    cbn in E. injection E as <-. pose proof (nth_error_In _ _ E') as Ie.
    assert (incl c (ti_tags ti)) as J.
    { intros t T. apply H in T. rewrite of_in, in_map_iff in T. destruct T as (n & <- & N).
      destruct (proj1 (Forall_forall _ _) KE _ Ie) as (_ & He). now apply (pos_tag_at _ _ KT Z (He n N)). }
    exists e, (iset (ti_tags ti) c). splits; [lia|reflexivity| |].
    + apply Q. eauto.
    + now apply (IE e _ Ie eq_refl c J).
Qed.

Example C47_case :
  exists ti, ti_from [[ta; tc]; []; [tb]; [ta; tb; tc]] = Ok ti /\ made (fun _ => true) ti
  /\ (Nlen (ti_tags ti) <= two32)%N /\ ti_as_elements ti = Ok [[ta; tc]; []; [tb]; [ta; tb; tc]]
  /\ ti_matching ti [[tb; tc]; [[x7a]]; [ta]] = [0; 3] /\ ti_matching ti [[]] = [0; 1; 2; 3].
Proof.
  eexists. split; [vm_compute; reflexivity|]. splits; try reflexivity.
  - left. exists [[ta; tc]; []; [tb]; [ta; tb; tc]]. split; [repeat constructor|vm_compute; reflexivity].
  - unfold Nlen, two32. cbn. lia.
Qed.

(** * C48 *)

Section ExprInd.
  Variable P : expr -> Prop.
  Hypothesis HL : forall t, P (ELit t).
  Hypothesis HA : forall es, Forall P es -> P (EAnd es).
  Hypothesis HO : forall es, Forall P es -> P (EOr es).
  Fixpoint expr_ind' (e : expr) : P e :=
    match e with
    | ELit t => HL t
    | EAnd es => HA es ((fix go l : Forall P l := match l with [] => Forall_nil _ | x :: l' => Forall_cons _ (expr_ind' x) (go l') end) es)
    | EOr es => HO es ((fix go l : Forall P l := match l with [] => Forall_nil _ | x :: l' => Forall_cons _ (expr_ind' x) (go l') end) es)
    end.
End ExprInd.

Lemma sat_and s es : sat s (EAnd es) <-> forall e, In e es -> sat s e.
Proof.
  cbn. induction es as [|x es IH]; cbn; [intuition|]. rewrite IH. split.
  - intros (A & B) e [->|I]; auto.
  - intros H. split; auto.
Qed.
Lemma sat_or s es : sat s (EOr es) <-> exists e, In e es /\ sat s e.
Proof.
  cbn. induction es as [|x es IH]; cbn; [split; [easy|now intros (e & [] & _)]|]. rewrite IH. split.
  - intros [A|(e & I & A)]; eauto.
  - intros (e & [->|I] & A); eauto.
Qed.
Lemma nonempty_all (P : expr -> Prop) es : fold_right (fun e p => P e /\ p) True es <-> Forall P es.
Proof.
  induction es as [|x es IH]; cbn; [intuition|]. rewrite IH. split.
  - intros (A & B). now constructor.
  - intros H. now inversion H.
Qed.

Lemma scan_none aa b r : iur_scan aa b r = None -> exists a, In a aa /\ incl a b.
Proof.
  revert r. induction aa as [|a aa IH]; cbn; intros r; [discriminate|].
  destruct (is_subset a b) eqn:S.
  - intros _. apply subset_incl in S. eauto.
  - destruct (is_superset a b); intros H; destruct (IH _ H) as (x & I & X); eauto.
Qed.
Lemma scan_some aa b r x : iur_scan aa b r = Some (Some x) -> r = Some x \/ (In x aa /\ incl b x).
Proof.
  revert r. induction aa as [|a aa IH]; cbn; intros r; [intros E; injection E; auto|].
  destruct (is_subset a b) eqn:S; [discriminate|].
  destruct (is_superset a b) eqn:P; intros H; destruct (IH _ H) as [E|(I & X)]; auto.
  injection E as ->. right. split; [auto|]. now apply superset_incl.
Qed.
Lemma dnf_sat_insert s aa b : dnf_sat s (insert_unless_redundant aa b) <-> dnf_sat s aa \/ incl b s.
Proof.
  unfold insert_unless_redundant, dnf_sat. destruct (iur_scan aa b None) as [[r|]|] eqn:E.
  - apply scan_some in E. destruct E as [E|(I & X)]; [discriminate|]. split.
    + intros (c & J & S). apply insert_in in J. destruct J as [->|J]; [auto|].
      apply remove_in in J. left. exists c. intuition.
    + intros [(c & J & S)|S].
      * destruct (eqb c r) eqn:Q.
        -- apply eqb_eq in Q. subst. exists b. split; [apply insert_in; auto|].
           eapply incl_tran; eassumption.
        -- apply eqb_neq in Q. exists c. split; [|assumption]. apply insert_in. right. apply remove_in. auto.
      * exists b. split; [apply insert_in; auto|assumption].
  - split.
    + intros (c & J & S). apply insert_in in J. destruct J as [->|J]; eauto.
    + intros [(c & J & S)|S]; [exists c|exists b]; (split; [apply insert_in; auto|assumption]).
  - apply scan_none in E. destruct E as (a & I & X). split; [auto|].
    intros [H|S]; [assumption|]. exists a. split; [assumption|]. eapply incl_tran; eassumption.
Qed.
Lemma dnf_sat_cons s b y : dnf_sat s (b :: y) <-> incl b s \/ dnf_sat s y.
Proof.
  unfold dnf_sat. cbn. split.
  - intros (c & [->|I] & H); eauto.
  - intros [H|(c & I & H)]; eauto.
Qed.
Lemma dnf_sat_nil s : dnf_sat s [] <-> False.
Proof. split; [now intros (c & [] & _)|easy]. Qed.
Lemma dnf_sat_or s x y : dnf_sat s (dnf_or x y) <-> dnf_sat s x \/ dnf_sat s y.
Proof.
  unfold dnf_or. revert x. induction y as [|b y IH]; cbn; intros x.
  - rewrite dnf_sat_nil. tauto.
  - rewrite IH, dnf_sat_insert, dnf_sat_cons. tauto.
Qed.
Lemma dnf_sat_and s x y : dnf_sat s (dnf_and x y) <-> dnf_sat s x /\ dnf_sat s y.
Proof.
  unfold dnf_and.
  assert (G : forall a y r, dnf_sat s (fold_left (fun rs b => insert_unless_redundant rs (vs_extend (vs_extend [] a) b)) y r)
    <-> dnf_sat s r \/ (incl a s /\ dnf_sat s y)).
  { intros a. clear y. induction y as [|b y IH]; cbn; intros r.
    - rewrite dnf_sat_nil. tauto.
    - rewrite IH, dnf_sat_insert, dnf_sat_cons.
      assert (E : incl (vs_extend (vs_extend [] a) b) s <-> incl a s /\ incl b s).
      { split.
        - intros H. split; intros t I; apply H; rewrite !extend_in; auto.
        - intros (A & B) t I. rewrite !extend_in in I. destruct I as [[[]|I]|I]; auto. }
      rewrite E. tauto. }
  assert (G2 : forall r, dnf_sat s (fold_left (fun rs a =>
      fold_left (fun rs b => insert_unless_redundant rs (vs_extend (vs_extend [] a) b)) y rs) x r)
      <-> dnf_sat s r \/ (dnf_sat s x /\ dnf_sat s y)).
  { induction x as [|a x IH]; cbn; intros r.
    - rewrite dnf_sat_nil. tauto.
    - rewrite IH, G, dnf_sat_cons. tauto. }
  rewrite G2, dnf_sat_nil. tauto.
Qed.

Lemma reduce_inv {A} (P : A -> Prop) f l r :
  (forall a b, P a -> P b -> P (f a b)) -> Forall P l -> reduce f l = Ok r -> P r.
Proof.
  intros H F. destruct l as [|x l]; [discriminate|]. cbn. intros E. injection E as <-.
  inversion F as [|? ? X Y]; subst. clear F. revert x X. induction Y as [|y l Py _ IH]; cbn; intros x X; [assumption|].
  apply IH. auto.
Qed.
Lemma reduce_or {A} (P : A -> Prop) f l r :
  (forall a b, P (f a b) <-> P a \/ P b) -> reduce f l = Ok r -> (P r <-> exists x, In x l /\ P x).
Proof.
  intros H. destruct l as [|x l]; [discriminate|]. cbn. intros E. injection E as <-.
  revert x. induction l as [|y l IH]; cbn; intros x.
  - split; [eauto|]. intros (z & [->|[]] & Z). assumption.
  - rewrite IH. split.
    + intros (z & [<-|I] & Z); [apply H in Z; destruct Z; eauto|eauto].
    + intros (z & [->|[->|I]] & Z); [exists (f z y)|exists (f x z)|exists z]; (split; [auto|rewrite ?H; auto]).
Qed.
Lemma reduce_and {A} (P : A -> Prop) f l r :
  (forall a b, P (f a b) <-> P a /\ P b) -> reduce f l = Ok r -> (P r <-> forall x, In x l -> P x).
Proof.
  intros H. destruct l as [|x l]; [discriminate|]. cbn. intros E. injection E as <-.
  revert x. induction l as [|y l IH]; cbn; intros x.
  - split; [intros X z [->|[]]; assumption|auto].
  - rewrite IH. split.
    + intros X z [->|[->|I]]; [apply (H z y)|apply (H x z)|]; auto.
    + intros X z [<-|I]; [apply H|]; auto.
Qed.

Lemma dnfs_of es : Forall (fun e => exists d, e_dnf e = Ok d) es -> exists ds, rmapM e_dnf es = Ok ds.
Proof.
  induction 1 as [|e es (d & E) _ (ds & IH)]; [exists []; reflexivity|].
  exists (d :: ds). cbn. now rewrite E, IH.
Qed.

(** Every expression without empty conjunctions and disjunctions has a
    disjunctive normal form, with the same meaning. *)
Theorem C48_dnf e :
  nonempty e -> exists d, e_dnf e = Ok d /\ forall s, dnf_sat s d <-> sat s e.
Proof.
  induction e as [t|es IH|es IH] using expr_ind'; intros H.
  - exists [[t]]. split; [reflexivity|]. intros s. unfold dnf_sat. cbn. split.
    + intros (c & [<-|[]] & I). apply I. now left.
    + intros I. exists [t]. split; [auto|]. intros x [->|[]]. assumption.
  - destruct H as (N & H). apply nonempty_all in H.
    destruct (dnfs_of es) as (ds & E).
    { rewrite Forall_forall in *. intros e I. destruct (IH e I (H e I)) as (d & X & _). eauto. }
    cbn [e_dnf]. rewrite E. apply rmapM_ok in E.
    destruct (reduce dnf_and ds) as [d| | |] eqn:R;
      try (destruct ds; [inversion E; subst; contradiction|discriminate]).
    exists d. cbn [rbind]. rewrite R. split; [reflexivity|]. intros s.
    rewrite (reduce_and (dnf_sat s) _ _ _ (dnf_sat_and s) R), sat_and. clear R N.
    induction E as [|e c es ds X _ IHE]; [split; intros ? ? []|].
    apply Forall_cons_iff in IH; destruct IH as (I1 & I2); apply Forall_cons_iff in H; destruct H as (H1 & H2).
    destruct (I1 H1) as (d' & X' & S). rewrite X in X'. injection X' as <-.
    specialize (IHE I2 H2). split; intros Q y [<-|J].
    + apply S, Q. now left.
    + apply IHE; [|assumption]. intros z Z. apply Q. now right.
    + apply S, Q. now left.
    + apply IHE; [|assumption]. intros z Z. apply Q. now right.
  - destruct H as (N & H). apply nonempty_all in H.
    destruct (dnfs_of es) as (ds & E).
    { rewrite Forall_forall in *. intros e I. destruct (IH e I (H e I)) as (d & X & _). eauto. }
    cbn [e_dnf]. rewrite E. apply rmapM_ok in E.
    destruct (reduce dnf_or ds) as [d| | |] eqn:R;
      try (destruct ds; [inversion E; subst; contradiction|discriminate]).
    exists d. cbn [rbind]. rewrite R. split; [reflexivity|]. intros s.
    rewrite (reduce_or (dnf_sat s) _ _ _ (dnf_sat_or s) R), sat_or. clear R N.
    induction E as [|e c es ds X _ IHE]; [split; intros (? & [] & _)|].
    apply Forall_cons_iff in IH; destruct IH as (I1 & I2); apply Forall_cons_iff in H; destruct H as (H1 & H2).
    destruct (I1 H1) as (d' & X' & S). rewrite X in X'. injection X' as <-.
    specialize (IHE I2 H2). split; intros (y & [<-|J] & Q).
    + exists e. split; [now left|now apply S].
    + destruct (proj1 IHE) as (z & Z & W); [eauto|]. exists z. split; [now right|assumption].
    + exists c. split; [now left|now apply S].
    + destruct (proj2 IHE) as (z & Z & W); [eauto|]. exists z. split; [now right|assumption].
Qed.

Definition ok_or_panic {A} (r : res A) : Prop := match r with Ok _ | Panic _ => True | _ => False end.
Lemma rmapM_ok_or_panic {A C} (f : A -> res C) l : Forall (fun x => ok_or_panic (f x)) l -> ok_or_panic (rmapM f l).
Proof.
  induction 1 as [|x l X _ IH]; cbn; [exact Logic.I|]. destruct (f x); cbn; auto.
  destruct (rmapM f l); auto.
Qed.
Lemma e_dnf_ok_or_panic e : ok_or_panic (e_dnf e).
Proof.
  induction e as [t|es IH|es IH] using expr_ind'; cbn [e_dnf]; [exact Logic.I|..];
    apply rmapM_ok_or_panic in IH; destruct (rmapM e_dnf es) as [[|d ds]| | |]; cbn in *; auto.
Qed.
Lemma e_dnf_nonempty e d : e_dnf e = Ok d -> nonempty e.
Proof.
  assert (G : forall es ds, Forall (fun e => forall d, e_dnf e = Ok d -> nonempty e) es ->
    rmapM e_dnf es = Ok ds -> ds <> [] ->
    es <> [] /\ fold_right (fun e p => nonempty e /\ p) True es).
  { intros es ds F R N. apply rmapM_ok in R. split; [destruct R; [contradiction|discriminate]|].
    apply nonempty_all. clear N. induction R as [|e1 c1 es1 ds1 X _ IHR]; [constructor|].
    apply Forall_cons_iff in F. destruct F as (F1 & F2). constructor; eauto. }
  revert d. induction e as [t|es IH|es IH] using expr_ind'; intros d; cbn [e_dnf nonempty]; [easy|..].
  all: destruct (rmapM e_dnf es) as [ds| | |] eqn:R; cbn; try discriminate; intros E;
    apply (G es ds IH R); destruct ds; discriminate.
Qed.

(** With an empty conjunction or disjunction anywhere, the conversion panics. *)
Theorem C48_empty e : ~ nonempty e -> exists p, e_dnf e = Panic p.
Proof.
  intros N. pose proof (e_dnf_ok_or_panic e) as O. destruct (e_dnf e) as [d| |p|] eqn:E; try destruct O.
  - exfalso. apply N. eapply e_dnf_nonempty; eassumption.
  - eauto.
Qed.

(** The conjunctions of a disjunctive normal form: sets of at least one tag; the
    form itself is a set of at least one of them. *)
Definition dnf_ok (d : dnf) : Prop := vs_ok d /\ d <> [] /\ Forall (fun c => vs_ok c /\ c <> []) d.

Lemma insert_nonnil {A} {O : Ord A} x (s : list A) : vs_insert x s <> [].
Proof. destruct s as [|y s]; cbn; [discriminate|]. now destruct (cmp x y). Qed.
Lemma iur_in aa b c : In c (insert_unless_redundant aa b) -> c = b \/ In c aa.
Proof.
  unfold insert_unless_redundant. destruct (iur_scan aa b None) as [[r|]|]; [| |auto].
  - intros I. apply insert_in in I. destruct I as [I|I]; [auto|]. apply remove_in in I. tauto.
  - intros I. now apply insert_in in I.
Qed.
Lemma iur_ok aa b : vs_ok aa -> Forall (fun c : tagset => vs_ok c /\ c <> []) aa -> vs_ok b -> b <> [] ->
  dnf_ok (insert_unless_redundant aa b).
Proof.
  intros K F Kb Nb. split; [|split].
  - unfold insert_unless_redundant. destruct (iur_scan aa b None) as [[r|]|]; [| |assumption].
    + apply insert_ok. now apply remove_ok.
    + now apply insert_ok.
  - unfold insert_unless_redundant. destruct (iur_scan aa b None) as [[r|]|] eqn:E.
    + apply insert_nonnil.
    + apply insert_nonnil.
    + apply scan_none in E. destruct E as (a & I & _). intros ->. destruct I.
  - apply Forall_forall. intros c I. apply iur_in in I. destruct I as [->|I]; [auto|].
    now apply (proj1 (Forall_forall _ _) F).
Qed.
Lemma dnf_or_ok x y : dnf_ok x -> dnf_ok y -> dnf_ok (dnf_or x y).
Proof.
  intros X (_ & _ & Y). unfold dnf_or. revert x X. induction Y as [|b y (Kb & Nb) _ IH]; cbn; intros x X; [assumption|].
  apply IH. destruct X as (K & _ & F). now apply iur_ok.
Qed.
Lemma dnf_and_ok x y : dnf_ok x -> dnf_ok y -> dnf_ok (dnf_and x y).
Proof.
  intros (_ & Nx & X) (_ & Ny & Y). unfold dnf_and.
  set (inner := fun rs (a : tagset) => fold_left (fun rs b => insert_unless_redundant rs (vs_extend (vs_extend [] a) b)) y rs).
  assert (P : forall a, vs_ok a -> a <> [] -> forall b : tagset, vs_ok (vs_extend (vs_extend [] a) b)
    /\ vs_extend (vs_extend [] a) b <> []).
  { intros a Ka Na b. split; [apply extend_ok, extend_ok, nil_ok|]. destruct a as [|t a]; [contradiction|].
    intros H. assert (I : In t (vs_extend (vs_extend [] (t :: a)) b)).
    { apply extend_in. left. apply extend_in. right. now left. }
    now rewrite H in I. }
  assert (G : forall a rs, vs_ok a -> a <> [] -> vs_ok rs -> Forall (fun c => vs_ok c /\ c <> []) rs ->
    dnf_ok (inner rs a)).
  { intros a rs Ka Na K F. unfold inner. destruct y as [|b y]; [contradiction|]. cbn.
    destruct (P a Ka Na b) as (A & B). pose proof (iur_ok rs _ K F A B) as Z. clear K F. revert Z.
    generalize (insert_unless_redundant rs (vs_extend (vs_extend [] a) b)) as r.
    clear Ny Y A B. induction y as [|b' y IH]; cbn; intros r Z; [assumption|].
    apply IH. destruct Z as (K & _ & F). destruct (P a Ka Na b') as (A & B). now apply iur_ok. }
  assert (W : forall l r, Forall (fun c => vs_ok c /\ c <> []) l -> dnf_ok r -> dnf_ok (fold_left inner l r)).
  { clear -G. intros l r F. revert r. induction F as [|b l (Kb & Nb) _ IH]; cbn; intros r Z; [assumption|].
    apply IH. destruct Z as (K & _ & F). now apply G. }
  destruct x as [|a x]; [contradiction|]. apply Forall_cons_iff in X. destruct X as ((Ka & Na) & X').
  change (dnf_ok (fold_left inner x (inner [] a))). apply W; [assumption|].
  apply G; auto; constructor.
Qed.
Lemma e_dnf_ok e d : e_dnf e = Ok d -> dnf_ok d.
Proof.
  revert d. induction e as [t|es IH|es IH] using expr_ind'; intros d; cbn [e_dnf].
  - intros E. injection E as <-. unfold dnf_literal.
    split; [repeat constructor|]. split; [discriminate|]. repeat constructor. discriminate.
  - destruct (rmapM e_dnf es) as [ds| | |] eqn:R; cbn; try discriminate. intros E.
    eapply reduce_inv; [exact dnf_and_ok| |exact E]. apply rmapM_ok in R. clear E.
    induction R as [|e c es ds X _ IHR]; [constructor|].
    apply Forall_cons_iff in IH. destruct IH as (F1 & F2). constructor; auto.
  - destruct (rmapM e_dnf es) as [ds| | |] eqn:R; cbn; try discriminate. intros E.
    eapply reduce_inv; [exact dnf_or_ok| |exact E]. apply rmapM_ok in R. clear E.
    induction R as [|e c es ds X _ IHR]; [constructor|].
    apply Forall_cons_iff in IH. destruct IH as (F1 & F2). constructor; auto.
Qed.

(** The operators on expressions mean what they say. *)
Theorem C48_operators s a b :
  (sat s (e_bitor a b) <-> sat s a \/ sat s b) /\ (sat s (e_bitand a b) <-> sat s a /\ sat s b).
Proof.
  unfold e_bitor, e_bitand, e_or, e_and. rewrite sat_or, sat_and. cbn [flat_map]. split.
  - split.
    + intros (e & I & S). rewrite !in_app_iff in I. destruct I as [I|[I|[]]].
      * left. destruct a; cbn [In] in I; try (destruct I as [<-|[]]; assumption). apply sat_or. eauto.
      * right. destruct b; cbn [In] in I; try (destruct I as [<-|[]]; assumption). apply sat_or. eauto.
    + intros [S|S].
      * destruct a; try (eexists; split; [apply in_or_app; left; now left|assumption]).
        apply sat_or in S. destruct S as (e & I & S). exists e. split; [apply in_or_app; now left|assumption].
      * destruct b; try (eexists; split; [apply in_or_app; right; apply in_or_app; left; now left|assumption]).
        apply sat_or in S. destruct S as (e & I & S). exists e.
        split; [apply in_or_app; right; apply in_or_app; now left|assumption].
  - split.
    + intros H. split.
      * destruct a; try (apply H, in_or_app; left; now left).
        apply sat_and. intros e I. apply H, in_or_app. now left.
      * destruct b; try (apply H, in_or_app; right; apply in_or_app; left; now left).
        apply sat_and. intros e I. apply H, in_or_app. right. apply in_or_app. now left.
    + intros (A & B) e I. rewrite !in_app_iff in I. destruct I as [I|[I|[]]].
      * destruct a; cbn [In] in I; try (destruct I as [<-|[]]; assumption).
        exact (proj1 (sat_and s es) A e I).
      * destruct b; cbn [In] in I; try (destruct I as [<-|[]]; assumption).
        exact (proj1 (sat_and s es) B e I).
Qed.

(** A disjunctive normal form can be converted back, with the same meaning. *)
Theorem C48_back e d :
  e_dnf e = Ok d -> exists e', dnf_expression d = Ok e' /\ nonempty e' /\ forall s, sat s e' <-> sat s e.
Proof.
  intros E. pose proof (e_dnf_ok _ _ E) as (_ & N & F).
  assert (NB : forall a b, nonempty a -> nonempty b -> nonempty (e_bitor a b) /\ nonempty (e_bitand a b)).
  { assert (C : forall (f : expr -> list expr) a b,
      (forall x, nonempty x -> f x <> [] /\ Forall nonempty (f x)) -> nonempty a -> nonempty b ->
      flat_map f [a; b] <> [] /\ fold_right (fun e p => nonempty e /\ p) True (flat_map f [a; b])).
    { intros f a b H A B. destruct (H a A) as (A1 & A2), (H b B) as (B1 & B2). cbn. rewrite app_nil_r. split.
      - intros X. apply app_eq_nil in X. tauto.
      - apply nonempty_all, Forall_app. auto. }
    intros a b A B. split; apply C; try assumption; intros [t|l|l] X; cbn; try (split; [discriminate|constructor; [exact X|constructor]]).
    - destruct X as (X1 & X2). split; [assumption|now apply nonempty_all].
    - destruct X as (X1 & X2). split; [assumption|now apply nonempty_all]. }
  assert (A : Forall (fun c => exists a, and_expr c = Ok a /\ nonempty a /\ forall s, sat s a <-> incl c s) d).
  { eapply Forall_impl; [|exact F]. intros c (_ & Nc). unfold and_expr.
    destruct (reduce e_bitand (map ELit c)) as [a| | |] eqn:R; try (destruct c; [contradiction|discriminate]).
    exists a. split; [reflexivity|]. split.
    - eapply (reduce_inv nonempty); [| |exact R]; [intros; now apply NB|].
      apply Forall_forall. intros x I. apply in_map_iff in I. destruct I as (t & <- & _). exact Logic.I.
    - intros s. rewrite (reduce_and (sat s) _ _ _ (fun a b => proj2 (C48_operators s a b)) R). split.
      + intros H t I. apply (H (ELit t)). now apply in_map.
      + intros H x I. apply in_map_iff in I. destruct I as (t & <- & I). now apply H. }
  assert (Y : exists as_, rmapM and_expr d = Ok as_ /\ as_ <> [] /\ Forall nonempty as_
    /\ forall s, (exists x, In x as_ /\ sat s x) <-> dnf_sat s d).
  { clear -N A. induction A as [|c d (a & X & Na & S) A' IH]; [contradiction|].
    destruct d as [|c' d].
    - exists [a]. cbn. rewrite X. cbn. splits; [reflexivity|discriminate|auto|].
      intros s. rewrite dnf_sat_cons, dnf_sat_nil, <- S. split.
      + intros (x & [<-|[]] & H). auto.
      + intros [H|[]]. eauto.
    - destruct IH as (l & R & Nl & Fl & Sl); [discriminate|]. exists (a :: l). cbn [rmapM] in *. rewrite X.
      cbn [rbind]. rewrite R. cbn. splits; [reflexivity|discriminate|auto|].
      intros s. rewrite dnf_sat_cons, <- Sl, <- S. split.
      + intros (x & [<-|I] & H); eauto.
      + intros [H|(x & I & H)]; eauto. }
  destruct Y as (l & R & Nl & Fl & Sl). unfold dnf_expression. rewrite R. cbn [rbind].
  destruct (reduce e_bitor l) as [e'| | |] eqn:Q; try (destruct l; [contradiction|discriminate]).
  exists e'. splits; [reflexivity| |].
  - eapply (reduce_inv nonempty); [|exact Fl|exact Q]. intros; now apply NB.
  - intros s. rewrite (reduce_or (sat s) _ _ _ (fun a b => proj1 (C48_operators s a b)) Q), Sl.
    destruct (C48_dnf e (e_dnf_nonempty _ _ E)) as (d' & E' & S). rewrite E in E'. injection E' as <-. apply S.
Qed.

(** Simplification preserves the meaning of every expression. *)
Theorem C48_simplify e s : sat s (simplify e) <-> sat s e.
Proof.
  induction e as [t|es IH|es IH] using expr_ind'; cbn [simplify]; [reflexivity|..].
  - set (f := fun e => match simplify e with EAnd inner => inner | e => [e] end).
    assert (G : sat s (EAnd (flat_map f es)) <-> sat s (EAnd es)).
    { rewrite !sat_and. split.
      - intros H e I. apply (proj1 (Forall_forall _ _) IH e I).
        destruct (simplify e) as [t|l|l] eqn:E.
        + apply H. apply in_flat_map. exists e. split; [assumption|]. unfold f. rewrite E. now left.
        + apply sat_and. intros x X. apply H. apply in_flat_map. exists e. split; [assumption|]. unfold f. now rewrite E.
        + apply H. apply in_flat_map. exists e. split; [assumption|]. unfold f. rewrite E. now left.
      - intros H x X. apply in_flat_map in X. destruct X as (e & I & X). unfold f in X.
        pose proof (proj2 (proj1 (Forall_forall _ _) IH e I) (H e I)) as S.
        destruct (simplify e) as [t|l|l]; [destruct X as [<-|[]]; assumption| |destruct X as [<-|[]]; assumption].
        exact (proj1 (sat_and s l) S x X). }
    rewrite <- G. unfold single_or. destruct (flat_map f es) as [|x [|y l]]; try reflexivity.
    rewrite sat_and. split; [intros H e [<-|[]]; assumption|intros H; apply H; now left].
  - set (f := fun e => match simplify e with EOr inner => inner | e => [e] end).
    assert (G : sat s (EOr (flat_map f es)) <-> sat s (EOr es)).
    { rewrite !sat_or. split.
      - intros (x & X & S). apply in_flat_map in X. destruct X as (e & I & X). unfold f in X.
        exists e. split; [assumption|]. apply (proj1 (Forall_forall _ _) IH e I).
        destruct (simplify e) as [t|l|l]; [destruct X as [<-|[]]; assumption|destruct X as [<-|[]]; assumption|].
        apply sat_or. eauto.
      - intros (e & I & S). apply (proj1 (Forall_forall _ _) IH e I) in S.
        destruct (simplify e) as [t|l|l] eqn:E.
        + exists (ELit t). split; [|assumption]. apply in_flat_map. exists e. split; [assumption|]. unfold f. rewrite E. now left.
        + exists (EAnd l). split; [|assumption]. apply in_flat_map. exists e. split; [assumption|]. unfold f. rewrite E. now left.
        + apply sat_or in S. destruct S as (x & X & S). exists x. split; [|assumption].
          apply in_flat_map. exists e. split; [assumption|]. unfold f. now rewrite E. }
    rewrite <- G. unfold single_or. destruct (flat_map f es) as [|x [|y l]]; try reflexivity.
    rewrite sat_or. split; [intros H; exists x; split; [now left|assumption]|intros (e & [<-|[]] & S); assumption].
Qed.

Example C48_case :
  let e := EAnd [EOr [ELit ta; ELit tb]; EAnd [ELit tc]; ELit ta] in
  nonempty e /\ e_dnf e = Ok [[ta; tc]] /\ simplify e = EAnd [EOr [ELit ta; ELit tb]; ELit tc; ELit ta]
  /\ dnf_expression [[ta; tc]; [tb]] = Ok (EOr [EAnd [ELit ta; ELit tc]; ELit tb])
  /\ sat [ta; tc] e /\ ~ sat [tb; tc] e.
Proof.
  cbv zeta. splits; try (vm_compute; reflexivity); cbn; try tauto; try easy.
  intros (_ & _ & H). unfold ta, tb, tc in H. intuition discriminate.
Qed.

(** * C49 *)

Definition tx : tag := [x78].
Definition ty : tag := [x79].
Definition tz : tag := [x7a].

(** [(x & y) | (x & z) | x] and [x] mean the same, but the normal form of the
    first keeps a redundant conjunction. *)
Theorem C49_refuted :
  exists a b da db, nonempty a /\ nonempty b /\ (forall s, sat s a <-> sat s b)
    /\ e_dnf a = Ok da /\ e_dnf b = Ok db /\ da <> db.
Proof.
  exists (EOr [EAnd [ELit tx; ELit ty]; EAnd [ELit tx; ELit tz]; ELit tx]), (ELit tx).
  eexists _, _. splits; try (vm_compute; reflexivity); try (cbn; intuition discriminate).
Qed.

(** Two normal forms with the same meaning are equal if neither contains a
    redundant conjunction. Missing from the full property: that conversion never
    leaves one behind; see [C49_refuted]. *)
Definition irredundant (d : list tagset) : Prop := forall a b, In a d -> In b d -> incl a b -> a = b.

Theorem C49_partial a b da db :
  e_dnf a = Ok da -> e_dnf b = Ok db -> irredundant da -> irredundant db ->
  (forall s, sat s a <-> sat s b) -> da = db.
Proof.
  intros Ea Eb Ia Ib H.
  destruct (C48_dnf a (e_dnf_nonempty _ _ Ea)) as (d & E & Sa). rewrite Ea in E. injection E as <-.
  destruct (C48_dnf b (e_dnf_nonempty _ _ Eb)) as (d & E & Sb). rewrite Eb in E. injection E as <-.
  pose proof (e_dnf_ok _ _ Ea) as (Ka & _ & Fa). pose proof (e_dnf_ok _ _ Eb) as (Kb & _ & Fb).
  assert (G : forall d1 d2 : dnf, irredundant d1 -> Forall (fun c : tagset => vs_ok c /\ c <> []) d1 ->
    Forall (fun c : tagset => vs_ok c /\ c <> []) d2 -> (forall s, dnf_sat s d1 <-> dnf_sat s d2) -> incl d1 d2).
  { intros d1 d2 I1 F1 F2 S c I.
    destruct (proj1 (S c)) as (c2 & I2 & J2); [exists c; split; [assumption|apply incl_refl]|].
    destruct (proj2 (S c2)) as (c1 & I3 & J3); [exists c2; split; [assumption|apply incl_refl]|].
    assert (c1 = c) by (apply I1; auto; eapply incl_tran; eassumption). subst c1.
    assert (c = c2) as ->; [|assumption]. apply ok_ext.
    - now apply (proj1 (Forall_forall _ _) F1).
    - now apply (proj1 (Forall_forall _ _) F2).
    - intros t. split; [apply J3|apply J2]. }
  assert (S : forall s, dnf_sat s da <-> dnf_sat s db) by (intros s; rewrite Sa, Sb; apply H).
  apply ok_ext; [assumption..|]. intros c. split.
  - now apply (G da db).
  - apply (G db da); auto. intros s. symmetry. apply S.
Qed.

(** The tags of an expression, with repetitions. *)
Fixpoint literals (e : expr) : list tag :=
  match e with
  | ELit t => [t]
  | EAnd es | EOr es => flat_map literals es
  end.

(** A normal form without redundancy, over the tags [v]. *)
Definition clean (d : list tagset) (v : list tag) : Prop :=
  irredundant d /\ Forall (fun c : tagset => vs_ok c /\ c <> [] /\ incl c v) d.

Lemma scan_incomparable (aa : list tagset) b :
  (forall a, In a aa -> ~ incl a b) -> (forall a, In a aa -> ~ incl b a) -> iur_scan aa b None = Some None.
Proof.
  induction aa as [|a aa IH]; cbn; intros H1 H2; [reflexivity|].
  destruct (is_subset a b) eqn:S; [apply subset_incl in S; destruct (H1 a); auto|].
  destruct (is_superset a b) eqn:S'; [apply superset_incl in S'; destruct (H2 a); auto|]. apply IH; auto.
Qed.
Lemma iur_irredundant (aa : dnf) (b : tagset) :
  irredundant (b :: aa) -> forall c, In c (insert_unless_redundant aa b) <-> c = b \/ In c aa.
Proof.
  intros I c. destruct (mem b aa) eqn:M.
  - apply mem_in in M. unfold insert_unless_redundant.
    destruct (iur_scan aa b None) as [r|] eqn:E.
    + exfalso. enough (G : forall r0, iur_scan aa b r0 = None) by (rewrite G in E; discriminate).
      clear -M. induction aa as [|a aa IH]; [destruct M|]. intros r0. cbn.
      destruct (is_subset a b) eqn:S; [reflexivity|].
      destruct M as [->|M].
      * assert (is_subset b b = true) by (apply subset_incl, incl_refl). congruence.
      * destruct (is_superset a b); now apply IH.
    + split; [auto|]. intros [->|]; assumption.
  - assert (N : ~ In b aa) by (intros X; apply mem_in in X; congruence).
    unfold insert_unless_redundant. rewrite scan_incomparable.
    + apply insert_in.
    + intros a A S. apply N. assert (a = b) as <-; [|assumption]. apply I; cbn; auto.
    + intros a A S. apply N. assert (b = a) as ->; [|assumption]. apply I; cbn; auto.
Qed.
Lemma fold_iur l : forall aa : dnf, irredundant (aa ++ l) ->
  forall c, In c (fold_left insert_unless_redundant l aa) <-> In c (aa ++ l).
Proof.
  induction l as [|b l IH]; cbn; intros aa H c; [now rewrite app_nil_r|].
  assert (I1 : irredundant (b :: aa)).
  { intros p q P Q. apply H; rewrite in_app_iff; cbn; cbn in P, Q; intuition. }
  rewrite IH.
  - rewrite !in_app_iff, (iur_irredundant _ _ I1). cbn. intuition.
  - intros p q P Q. rewrite in_app_iff, (iur_irredundant _ _ I1) in P, Q.
    apply H; rewrite in_app_iff; cbn; intuition.
Qed.
Lemma clean_ext d d' v : (forall c, In c d <-> In c d') -> clean d v -> clean d' v.
Proof.
  intros E (I & F). split.
  - intros a b A B. apply I; now apply E.
  - rewrite Forall_forall in *. intros c C. apply F. now apply E.
Qed.
Lemma disjoint_incl (c v w : list tag) :
  c <> [] -> incl c v -> incl c w -> (forall t, In t v -> In t w -> False) -> False.
Proof. destruct c as [|t c]; [easy|]. intros _ A B D. apply (D t); [apply A|apply B]; now left. Qed.

Lemma clean_or d1 d2 v1 v2 : clean d1 v1 -> clean d2 v2 -> (forall t, In t v1 -> In t v2 -> False) ->
  clean (dnf_or d1 d2) (v1 ++ v2).
Proof.
  intros (I1 & F1) (I2 & F2) D. rewrite Forall_forall in *.
  assert (I : irredundant (d1 ++ d2)).
  { intros a b A B S. apply in_app_iff in A, B. destruct A as [A|A], B as [B|B]; [now apply I1| | |now apply I2].
    - exfalso. destruct (F1 a A) as (_ & N & V1), (F2 b B) as (_ & _ & V2).
      exact (disjoint_incl a v1 v2 N V1 (incl_tran S V2) D).
    - exfalso. destruct (F2 a A) as (_ & N & V1), (F1 b B) as (_ & _ & V2).
      exact (disjoint_incl a v1 v2 N (incl_tran S V2) V1 D). }
  unfold dnf_or. apply (clean_ext (d1 ++ d2)); [intros c; symmetry; now apply fold_iur|].
  split; [assumption|]. apply Forall_forall. intros c C. apply in_app_iff in C. destruct C as [C|C].
  - destruct (F1 c C) as (A & B & V). splits; auto. now apply incl_appl.
  - destruct (F2 c C) as (A & B & V). splits; auto. now apply incl_appr.
Qed.

Definition union (a b : tagset) : tagset := vs_extend (vs_extend [] a) b.
Lemma union_in a b t : In t (union a b) <-> In t a \/ In t b.
Proof. unfold union. rewrite !extend_in. cbn. intuition. Qed.
Lemma dnf_and_fold d1 d2 : dnf_and d1 d2 =
  fold_left insert_unless_redundant (flat_map (fun a => map (union a) d2) d1) [].
Proof.
  unfold dnf_and. generalize (@nil tagset) as r. induction d1 as [|a d1 IH]; cbn; intros r; [reflexivity|].
  rewrite fold_left_app, <- IH. f_equal. clear. revert r. induction d2 as [|b d2 IH]; cbn; intros r; [reflexivity|].
  apply IH.
Qed.
Lemma clean_and d1 d2 v1 v2 : clean d1 v1 -> clean d2 v2 -> (forall t, In t v1 -> In t v2 -> False) ->
  clean (dnf_and d1 d2) (v1 ++ v2).
Proof.
  intros (I1 & F1) (I2 & F2) D. rewrite Forall_forall in *. rewrite dnf_and_fold.
  set (l := flat_map (fun a => map (union a) d2) d1).
  assert (L : forall c, In c l <-> exists a b, In a d1 /\ In b d2 /\ c = union a b).
  { intros c. unfold l. rewrite in_flat_map. split.
    - intros (a & A & C). apply in_map_iff in C. destruct C as (b & <- & B). eauto.
    - intros (a & b & A & B & ->). exists a. split; [assumption|]. now apply in_map. }
  assert (I : irredundant l).
  { intros c c' C C' S. apply L in C, C'. destruct C as (a & b & A & B & ->), C' as (a' & b' & A' & B' & ->).
    destruct (F1 a A) as (_ & _ & Va), (F2 b B) as (_ & _ & Vb), (F1 a' A') as (_ & _ & Va'), (F2 b' B') as (_ & _ & Vb').
    assert (a = a').
    { apply I1; auto. intros t T. assert (X : In t (union a' b')) by (apply S, union_in; auto).
      apply union_in in X. destruct X as [X|X]; [assumption|]. destruct (D t); auto. }
    assert (b = b').
    { apply I2; auto. intros t T. assert (X : In t (union a' b')) by (apply S, union_in; auto).
      apply union_in in X. destruct X as [X|X]; [|assumption]. destruct (D t); auto. }
    congruence. }
  apply (clean_ext l); [intros c; symmetry; now apply (fold_iur l [])|].
  split; [assumption|]. apply Forall_forall. intros c C. apply L in C. destruct C as (a & b & A & B & ->).
  destruct (F1 a A) as (_ & Na & Va), (F2 b B) as (_ & _ & Vb). splits.
  - apply extend_ok, extend_ok, nil_ok.
  - intros H. destruct a as [|t a]; [contradiction|].
    assert (X : In t (union (t :: a) b)) by (apply union_in; left; now left). rewrite H in X. destruct X.
  - intros t T. apply union_in in T. apply in_or_app. destruct T; auto.
Qed.
Lemma nodup_app_disjoint {A} (a b : list A) : NoDup (a ++ b) -> forall t, In t a -> In t b -> False.
Proof.
  induction a as [|x a IH]; cbn; [easy|]. intros N t. inversion N; subst. intros [->|I] J.
  - apply H1. apply in_or_app. now right.
  - eapply IH; eassumption.
Qed.
Lemma nodup_app_l {A} (a b : list A) : NoDup (a ++ b) -> NoDup a.
Proof.
  induction a as [|x a IH]; cbn; [constructor|]. intros N. inversion N; subst. constructor; [|auto].
  intros I. apply H1. apply in_or_app. now left.
Qed.
Lemma nodup_app_r {A} (a b : list A) : NoDup (a ++ b) -> NoDup b.
Proof. induction a as [|x a IH]; cbn; [auto|]. intros N. inversion N; auto. Qed.

Lemma clean_reduce f es ds r :
  (forall d1 d2 v1 v2, clean d1 v1 -> clean d2 v2 -> (forall t, In t v1 -> In t v2 -> False) -> clean (f d1 d2) (v1 ++ v2)) ->
  Forall2 (fun e d => clean d (literals e)) es ds -> NoDup (flat_map literals es) ->
  reduce f ds = Ok r -> clean r (flat_map literals es).
Proof.
  intros H F. destruct F as [|e d es ds E F]; [discriminate|]. cbn. intros N R. injection R as <-.
  revert d E N. generalize (literals e) as v. induction F as [|e' d' es ds E' F IH]; cbn; intros v d E N.
  - now rewrite app_nil_r.
  - rewrite app_assoc in *. apply IH; [|assumption]. apply H; [assumption..|].
    apply nodup_app_disjoint. now apply nodup_app_l in N.
Qed.
Lemma clean_dnf e d : NoDup (literals e) -> e_dnf e = Ok d -> clean d (literals e).
Proof.
  assert (G : forall es ds, Forall (fun e => forall d, NoDup (literals e) -> e_dnf e = Ok d -> clean d (literals e)) es ->
    NoDup (flat_map literals es) -> rmapM e_dnf es = Ok ds -> Forall2 (fun e d => clean d (literals e)) es ds).
  { intros es ds F N R. apply rmapM_ok in R. induction R as [|e1 d1 es1 ds1 X _ IHR]; [constructor|].
    apply Forall_cons_iff in F. destruct F as (F1 & F2). cbn in N. constructor.
    - apply F1; [now apply nodup_app_l in N|assumption].
    - apply IHR; [assumption|]. now apply nodup_app_r in N. }
  revert d. induction e as [t|es IH|es IH] using expr_ind'; intros d N; cbn [e_dnf literals] in *.
  - intros E. injection E as <-. split.
    + intros a b [<-|[]] [<-|[]] _. reflexivity.
    + constructor; [|constructor]. splits; [repeat constructor|discriminate|apply incl_refl].
  - destruct (rmapM e_dnf es) as [ds| | |] eqn:R; cbn; try discriminate. intros E.
    eapply clean_reduce; [exact clean_and| |assumption|exact E]. now apply G.
  - destruct (rmapM e_dnf es) as [ds| | |] eqn:R; cbn; try discriminate. intros E.
    eapply clean_reduce; [exact clean_or| |assumption|exact E]. now apply G.
Qed.

(** For expressions in which no tag occurs twice, the normal form is unique. *)
Theorem C49_read_once_partial a b :
  nonempty a -> nonempty b -> NoDup (literals a) -> NoDup (literals b) ->
  (forall s, sat s a <-> sat s b) -> e_dnf a = e_dnf b.
Proof.
  intros Na Nb La Lb H. destruct (C48_dnf a Na) as (da & Ea & _), (C48_dnf b Nb) as (db & Eb & _).
  rewrite Ea, Eb. f_equal. eapply C49_partial; try eassumption.
  - now apply (clean_dnf a).
  - now apply (clean_dnf b).
Qed.

Example C49_case :
  let a := EOr [EAnd [ELit tx; EOr [ELit ty]]; ELit tz] in
  let b := EOr [ELit tz; EAnd [ELit ty; ELit tx]] in
  nonempty a /\ nonempty b /\ NoDup (literals a) /\ NoDup (literals b) /\ (forall s, sat s a <-> sat s b)
  /\ e_dnf a = Ok [[tx; ty]; [tz]] /\ irredundant [[tx; ty]; [tz]].
Proof.
  cbv zeta. unfold tx, ty, tz. splits; try (vm_compute; reflexivity); try (cbn; intuition discriminate).
  - repeat (constructor; [cbn; intuition discriminate|]). constructor.
  - repeat (constructor; [cbn; intuition discriminate|]). constructor.
  - intros a b A B S. destruct A as [<-|[<-|[]]], B as [<-|[<-|[]]]; try reflexivity; exfalso.
    + specialize (S _ (or_introl eq_refl)). cbn in S. intuition discriminate.
    + specialize (S _ (or_introl eq_refl)). cbn in S. intuition discriminate.
Qed.

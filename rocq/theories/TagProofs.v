(** Lemmas about sorted sets and the tag index (Tags.v). *)
From Coq Require Import List NArith Arith Lia Bool String Sorted.
From Verif Require Import Base BaseProofs Cbor CborProofs Types Tags.
Import ListNotations.
Open Scope list_scope.

Section VecSet.
  Context {A : Type} {O : Ord A}.
  Implicit Types (x y : A) (s t : list A).

  Definition lt_rel x y := cmp x y = Lt.
  (** A list that is a set: strictly sorted. *)
  Definition vs_ok s := StronglySorted lt_rel s.

  Lemma cmp_refl x : cmp x x = Eq.
  Proof. now apply cmp_eq. Qed.
  Lemma eqb_eq x y : eqb x y = true <-> x = y.
  Proof. unfold eqb. rewrite <- cmp_eq. destruct (cmp x y); split; congruence. Qed.
  Lemma eqb_refl x : eqb x x = true.
  Proof. now apply eqb_eq. Qed.
  Lemma eqb_neq x y : eqb x y = false <-> x <> y.
  Proof. rewrite <- eqb_eq. destruct (eqb x y); intuition congruence. Qed.
  Lemma lt_irrefl x : ~ lt_rel x x.
  Proof. unfold lt_rel. rewrite cmp_refl. discriminate. Qed.
  Lemma gt_lt x y : cmp x y = Gt -> lt_rel y x.
  Proof. intros E. unfold lt_rel. rewrite cmp_sym, E. reflexivity. Qed.

  Lemma mem_in x s : mem x s = true <-> In x s.
  Proof.
    unfold mem. rewrite existsb_exists. split.
    - intros (y & I & E). apply eqb_eq in E. now subst.
    - intros I. exists x. split; [assumption|apply eqb_refl].
  Qed.
  Lemma subset_incl s t : is_subset s t = true <-> incl s t.
  Proof.
    unfold is_subset. rewrite forallb_forall. unfold incl.
    split; intros H x I; apply mem_in; auto.
  Qed.
  Lemma superset_incl s t : is_superset s t = true <-> incl t s.
  Proof. apply subset_incl. Qed.
  Lemma disjoint_false s t : is_disjoint s t = false <-> exists x, In x s /\ In x t.
  Proof.
    unfold is_disjoint. split.
    - intros H. induction s as [|x s IH]; [discriminate|]. cbn in H. apply andb_false_iff in H.
      destruct H as [H|H].
      + exists x. rewrite negb_false_iff in H. apply mem_in in H. split; [now left|assumption].
      + destruct (IH H) as (y & I & J). exists y. split; [now right|assumption].
    - intros (x & I & J). apply not_true_is_false. rewrite forallb_forall. intros H.
      specialize (H _ I). rewrite negb_true_iff in H. apply mem_in in J. congruence.
  Qed.

  Lemma insert_in x s y : In y (vs_insert x s) <-> y = x \/ In y s.
  Proof.
    induction s as [|z s IH]; cbn; [intuition|].
    destruct (cmp x z) eqn:E; cbn.
    - apply cmp_eq in E. subst. intuition.
    - intuition.
    - rewrite IH. intuition.
  Qed.
  Lemma insert_ok x s : vs_ok s -> vs_ok (vs_insert x s).
  Proof.
    unfold vs_ok. induction 1 as [|z s S IH F]; cbn; [repeat constructor|].
    destruct (cmp x z) eqn:E.
    - now constructor.
    - constructor; [now constructor|]. constructor; [exact E|].
      eapply Forall_impl; [|exact F]. intros y Y. cbv beta in Y. eapply cmp_trans; [exact E|exact Y].
    - constructor; [assumption|]. apply Forall_forall. intros y Y. apply insert_in in Y.
      destruct Y as [->|Y]; [now apply gt_lt|]. now apply (proj1 (Forall_forall _ _) F).
  Qed.
  Lemma extend_in l s y : In y (vs_extend s l) <-> In y s \/ In y l.
  Proof.
    unfold vs_extend. revert s. induction l as [|x l IH]; cbn; intros s; [intuition|].
    rewrite IH, insert_in. intuition.
  Qed.
  Lemma extend_ok l s : vs_ok s -> vs_ok (vs_extend s l).
  Proof.
    unfold vs_extend. revert s. induction l as [|x l IH]; cbn; intros s H; [assumption|].
    apply IH. now apply insert_ok.
  Qed.
  Lemma of_in l y : In y (vs_of l) <-> In y l.
  Proof. unfold vs_of. rewrite extend_in. cbn. intuition. Qed.
  Lemma nil_ok : vs_ok [].
  Proof. constructor. Qed.
  Lemma of_ok l : vs_ok (vs_of l).
  Proof. apply extend_ok, nil_ok. Qed.

  Lemma ok_ext s t : vs_ok s -> vs_ok t -> (forall x, In x s <-> In x t) -> s = t.
  Proof.
    unfold vs_ok. intros S. revert t. induction S as [|x s S IH F]; intros t T H.
    - destruct t as [|y t]; [reflexivity|]. exfalso. apply (H y). now left.
    - destruct T as [|y t T G].
      { exfalso. apply (H x). now left. }
      rewrite Forall_forall in F, G.
      assert (x = y).
      { destruct (proj1 (H x) (or_introl eq_refl)) as [E|I]; [congruence|].
        destruct (proj2 (H y) (or_introl eq_refl)) as [E|J]; [congruence|].
        exfalso. apply (lt_irrefl x). eapply cmp_trans; [apply F; exact J|apply G; exact I]. }
      subst y. f_equal. apply IH; [assumption|]. intros z. split; intros Z.
      + destruct (proj1 (H z) (or_intror Z)) as [->|]; [|assumption].
        exfalso. now apply (lt_irrefl z), F.
      + destruct (proj2 (H z) (or_intror Z)) as [->|]; [|assumption].
        exfalso. now apply (lt_irrefl z), G.
  Qed.
  Lemma of_id s : vs_ok s -> vs_of s = s.
  Proof. intros H. apply ok_ext; [apply of_ok|assumption|apply of_in]. Qed.
  Lemma ok_nodup s : vs_ok s -> NoDup s.
  Proof.
    unfold vs_ok. induction 1 as [|x s S IH F]; [constructor|]. constructor; [|assumption].
    intros I. rewrite Forall_forall in F. now apply (lt_irrefl x), F.
  Qed.
  Lemma remove_in x s y : In y (vs_remove x s) <-> In y s /\ y <> x.
  Proof.
    unfold vs_remove. rewrite filter_In, negb_true_iff, eqb_neq. intuition.
  Qed.
  Lemma remove_ok x s : vs_ok s -> vs_ok (vs_remove x s).
  Proof.
    unfold vs_ok. induction 1 as [|z s S IH F]; cbn; [constructor|].
    destruct (negb (eqb x z)); [|assumption]. constructor; [assumption|].
    rewrite Forall_forall in *. intros y Y. apply remove_in in Y. now apply F.
  Qed.

  Lemma position_some x s i : position x s = Some i -> nth_error s i = Some x.
  Proof.
    revert i. induction s as [|y s IH]; cbn; intros i; [discriminate|].
    destruct (eqb x y) eqn:E.
    - intros H. injection H as <-. apply eqb_eq in E. now subst.
    - destruct (position x s); [|discriminate]. intros H. injection H as <-. cbn. now apply IH.
  Qed.
  Lemma position_none x s : position x s = None <-> ~ In x s.
  Proof.
    split.
    - induction s as [|y s IH]; cbn; [easy|]. destruct (eqb x y) eqn:E; [discriminate|].
      apply eqb_neq in E. destruct (position x s); [discriminate|]. intros _ [->|I]; [now apply E|now apply IH].
    - intros N. destruct (position x s) eqn:E; [|reflexivity].
      exfalso. apply N. apply position_some in E. now apply nth_error_In in E.
  Qed.
  Lemma position_in x s : In x s -> exists i, position x s = Some i /\ nth_error s i = Some x.
  Proof.
    intros I. destruct (position x s) as [i|] eqn:E.
    - exists i. split; [reflexivity|now apply position_some].
    - now apply position_none in E.
  Qed.
  Lemma position_nth s i x : NoDup s -> nth_error s i = Some x -> position x s = Some i.
  Proof.
    intros N E. destruct (position_in x s) as (j & P & E'); [now apply nth_error_In in E|].
    rewrite P. f_equal. apply (proj1 (NoDup_nth_error s) N).
    - apply nth_error_Some. congruence.
    - congruence.
  Qed.
End VecSet.

Lemma rmapM_ok {A C} (f : A -> res C) l r :
  rmapM f l = Ok r <-> Forall2 (fun x y => f x = Ok y) l r.
Proof.
  revert r. induction l as [|x l IH]; cbn; intros r.
  - split; [intros E; injection E as <-; constructor|]. intros F. inversion F. reflexivity.
  - split.
    + destruct (f x) eqn:E; cbn; try discriminate. destruct (rmapM f l); cbn; try discriminate.
      intros H. injection H as <-. constructor; [assumption|]. now apply IH.
    + intros F. inversion F; subst. rewrite H1. cbn. apply IH in H3. rewrite H3. reflexivity.
Qed.
Lemma rmapM_map {A C} (f : A -> res C) (g : A -> C) l :
  (forall x, In x l -> f x = Ok (g x)) -> rmapM f l = Ok (map g l).
Proof.
  intros H. induction l as [|x l IH]; [reflexivity|]. cbn. rewrite (H x) by now left.
  cbn. rewrite IH by (intros; apply H; now right). reflexivity.
Qed.
Lemma omapM_map {A C} (f : A -> option C) (g : A -> C) l :
  (forall x, In x l -> f x = Some (g x)) -> omapM f l = Some (map g l).
Proof.
  intros H. induction l as [|x l IH]; [reflexivity|]. cbn. rewrite (H x) by now left.
  rewrite IH by (intros; apply H; now right). reflexivity.
Qed.
Lemma omapM_some {A C} (f : A -> option C) l r :
  omapM f l = Some r <-> Forall2 (fun x y => f x = Some y) l r.
Proof.
  revert r. induction l as [|x l IH]; cbn; intros r.
  - split; [intros E; injection E as <-; constructor|]. intros F. inversion F. reflexivity.
  - split.
    + destruct (f x) eqn:E; cbn; try discriminate. destruct (omapM f l); cbn; try discriminate.
      intros H. injection H as <-. constructor; [assumption|]. now apply IH.
    + intros F. inversion F; subst. rewrite H1. apply IH in H3. rewrite H3. reflexivity.
Qed.
Lemma omapM_none {A C} (f : A -> option C) l :
  omapM f l = None <-> exists x, In x l /\ f x = None.
Proof.
  induction l as [|x l IH]; cbn.
  - split; [discriminate|]. intros (x & [] & _).
  - destruct (f x) eqn:E.
    + destruct (omapM f l); split; try discriminate.
      * intros (y & [->|I] & F); [congruence|]. destruct IH as (_ & IH). discriminate IH. eauto.
      * intros _. destruct IH as (IH & _). destruct (IH eq_refl) as (y & I & F). eauto.
      * reflexivity.
    + split; [|reflexivity]. intros _. eauto.
Qed.

(** * Tag index *)

(** All tags of [xs]. *)
Definition all_tags (xs : list tagset) : tagset := fold_left (fun tags a => vs_extend tags a) xs [].

Lemma all_tags_in xs t : In t (all_tags xs) <-> exists x, In x xs /\ In t x.
Proof.
  enough (G : forall s, In t (fold_left (fun tags a => vs_extend tags a) xs s) <->
    In t s \/ exists x, In x xs /\ In t x).
  { unfold all_tags. rewrite G. cbn. split; [intros [[]|H]; exact H|auto]. }
  induction xs as [|x xs IH]; cbn; intros s.
  - split; [auto|]. intros [H|(x & [] & _)]; exact H.
  - rewrite IH, extend_in. split.
    + intros [[H|H]|(y & I & J)]; eauto.
    + intros [H|(y & [->|I] & J)]; eauto.
Qed.
Lemma all_tags_ok xs : vs_ok (all_tags xs).
Proof.
  unfold all_tags. enough (G : forall s : tagset, vs_ok s -> vs_ok (fold_left (fun tags a => vs_extend tags a) xs s))
    by apply G, nil_ok.
  induction xs as [|x xs IH]; cbn; intros s H; [assumption|]. apply IH. now apply extend_ok.
Qed.

(** The index set of tags that all occur in a table. *)
Definition pos (table : tagset) (t : tag) : N :=
  match position t table with Some i => as_u32 i | None => 0%N end.
Definition iset (table tags : tagset) : indexset := vs_of (map (pos table) tags).

Lemma from_eq xs : ti_from xs = Ok {| ti_tags := all_tags xs; ti_elements := map (iset (all_tags xs)) xs |}.
Proof.
  unfold ti_from. fold (all_tags xs). rewrite (rmapM_map _ (iset (all_tags xs))); [reflexivity|].
  intros x I. rewrite (rmapM_map _ (pos (all_tags xs))); [reflexivity|].
  intros t J. destruct (position_in t (all_tags xs)) as (i & P & _).
  - apply all_tags_in. eauto.
  - unfold pos. now rewrite P.
Qed.

Lemma map_to_index_some table tags :
  incl tags table -> map_to_index_set table tags = Some (iset table tags).
Proof.
  intros H. unfold map_to_index_set, iset. rewrite (omapM_map _ (pos table)); [reflexivity|].
  intros t I. unfold pos. destruct (position_in t table) as (i & P & _); [auto|]. now rewrite P.
Qed.
Lemma map_to_index_none table tags :
  ~ incl tags table -> map_to_index_set table tags = None.
Proof.
  intros H. unfold map_to_index_set. destruct (omapM _ tags) as [r|] eqn:E; [|reflexivity].
  exfalso. apply H. intros t I. destruct (position t table) as [i|] eqn:P.
  - apply position_some in P. now apply nth_error_In in P.
  - assert (X : omapM (fun t => option_map as_u32 (position t table)) tags = None).
    { apply omapM_none. exists t. rewrite P. auto. }
    congruence.
Qed.
Lemma incl_dec_tags (a b : tagset) : {incl a b} + {~ incl a b}.
Proof.
  destruct (is_subset a b) eqn:E; [left|right]; [now apply subset_incl|].
  intros H. apply subset_incl in H. congruence.
Qed.

(** Tables with at most 2^32 tags: positions are not truncated. *)
Lemma pos_nth table t : (Nlen table <= two32)%N -> In t table ->
  nth_error table (N.to_nat (pos table t)) = Some t /\ (pos table t < Nlen table)%N.
Proof.
  intros Z I. destruct (position_in t table I) as (i & P & E). unfold pos. rewrite P.
  assert (i < List.length table) by (apply nth_error_Some; congruence).
  unfold as_u32, Nlen in *. rewrite N.mod_small by lia. rewrite Nat2N.id. split; [assumption|lia].
Qed.
Lemma pos_lt table t : In t table -> (pos table t < Nlen table)%N.
Proof.
  intros I. destruct (position_in t table I) as (i & P & E). unfold pos. rewrite P.
  assert (i < List.length table) by (apply nth_error_Some; congruence).
  unfold as_u32, Nlen in *.
  pose proof (N.mod_le (N.of_nat i) two32 ltac:(unfold two32; lia)). lia.
Qed.
Lemma pos_inj table t u : (Nlen table <= two32)%N -> In t table -> In u table ->
  pos table t = pos table u -> t = u.
Proof.
  intros Z I J E. destruct (pos_nth table t Z I) as (A & _). destruct (pos_nth table u Z J) as (C & _).
  rewrite E in A. congruence.
Qed.
Lemma iset_in table s n : In n (iset table s) <-> exists t, In t s /\ n = pos table t.
Proof.
  unfold iset. rewrite of_in, in_map_iff. split; intros (t & A & C); exists t; auto.
Qed.
Lemma iset_incl table a b : (Nlen table <= two32)%N -> incl a table -> incl b table ->
  (incl (iset table a) (iset table b) <-> incl a b).
Proof.
  intros Z A C. split; intros H t I.
  - assert (J : In (pos table t) (iset table b)).
    { apply H. apply iset_in. eauto. }
    apply iset_in in J. destruct J as (u & J & E). apply pos_inj in E; auto. now subst.
  - apply iset_in in I. destruct I as (u & I & ->). apply iset_in. eauto.
Qed.

(** Every tag index the code can build. *)
Definition ti_ok (ti : tag_index) : Prop :=
  vs_ok (ti_tags ti) /\ Forall (fun e => vs_ok e /\ forall n, In n e -> (n < Nlen (ti_tags ti))%N) (ti_elements ti).

Lemma from_ok xs ti : ti_from xs = Ok ti -> ti_ok ti.
Proof.
  rewrite from_eq. intros E. injection E as <-. split; cbn; [apply all_tags_ok|].
  apply Forall_forall. intros e I. apply in_map_iff in I. destruct I as (x & <- & I).
  split; [apply of_ok|]. intros n J. apply iset_in in J. destruct J as (t & J & ->).
  apply pos_lt. apply all_tags_in. eauto.
Qed.
Lemma decode_ok utf8 bs ti rest : ti_decode utf8 bs = Ok (ti, rest) -> ti_ok ti.
Proof.
  unfold ti_decode. destruct bs as [|b bs]; [discriminate|]. destruct b; try discriminate.
  destruct (checked_prefix bs) as [[c1 bs2]|]; [|discriminate].
  destruct (dec_vec (dec_string utf8) c1); [|discriminate].
  destruct (checked_prefix bs2) as [[c2 bs3]|]; [|discriminate].
  destruct (dec_vec (dec_vec dec_u32) c2) as [es|]; [|discriminate]. cbv zeta.
  destruct (forallb _ _) eqn:F; [|discriminate]. intros E. injection E as <- <-.
  split; cbn; [apply of_ok|]. apply Forall_forall. intros e I.
  rewrite forallb_forall in F. specialize (F _ I). rewrite forallb_forall in F. split.
  - apply in_map_iff in I. destruct I as (x & <- & _). apply of_ok.
  - intros n J. apply N.ltb_lt. now apply F.
Qed.

Definition tag_at (tags : tagset) (n : N) : tag := nth (N.to_nat n) tags [].
Lemma lookup_eq tags e : (forall n, In n e -> (n < Nlen tags)%N) ->
  ti_lookup tags e = Ok (vs_of (map (tag_at tags) e)).
Proof.
  intros H. unfold ti_lookup. rewrite (rmapM_map _ (tag_at tags)); [reflexivity|].
  intros n I. specialize (H n I). unfold tag_at, Nlen in *.
  destruct (nth_error tags (N.to_nat n)) as [t|] eqn:E.
  - f_equal. symmetry. now apply nth_error_nth.
  - apply nth_error_None in E. lia.
Qed.
Lemma tag_at_pos tags t : (Nlen tags <= two32)%N -> In t tags -> tag_at tags (pos tags t) = t.
Proof.
  intros Z I. destruct (pos_nth tags t Z I) as (E & _). unfold tag_at. now apply nth_error_nth.
Qed.
Lemma pos_tag_at tags n : vs_ok tags -> (Nlen tags <= two32)%N -> (n < Nlen tags)%N ->
  pos tags (tag_at tags n) = n /\ In (tag_at tags n) tags.
Proof.
  intros K Z H. unfold tag_at, Nlen in *.
  destruct (nth_error tags (N.to_nat n)) as [t|] eqn:E.
  - rewrite (nth_error_nth _ _ _ E). split; [|now apply nth_error_In in E].
    unfold pos. rewrite (position_nth _ _ _ (ok_nodup _ K) E).
    unfold as_u32. rewrite N2Nat.id. apply N.mod_small. lia.
  - apply nth_error_None in E. lia.
Qed.
Lemma lookup_iset tags x : (Nlen tags <= two32)%N -> vs_ok x -> incl x tags ->
  vs_of (map (tag_at tags) (iset tags x)) = x.
Proof.
  intros Z K H. apply ok_ext; [apply of_ok|assumption|]. intros t. rewrite of_in, in_map_iff. split.
  - intros (n & E & I). apply iset_in in I. destruct I as (u & I & ->).
    rewrite tag_at_pos in E by auto. now subst.
  - intros I. exists (pos tags t). split; [now apply tag_at_pos; auto|]. apply iset_in. eauto.
Qed.

(** Properties of the built-in queries: C36, C37. *)
From Coq Require Import List NArith ZArith Lia Bool Arith.
From Verif Require Import Base BaseProofs Types Query QuerySpec Instance.
Import ListNotations.

Section Props.
  Context {T : Types}.

  Lemma mask_clear_length m : List.length (mask_clear m) = List.length m.
  Proof. apply map_length. Qed.
  Lemma mask_clear_nth m i b : nth_error m i = Some b -> nth_error (mask_clear m) i = Some false.
  Proof. intros H. unfold mask_clear. erewrite map_nth_error; eauto. Qed.
  Lemma mask_clear_not m i : nth_error (mask_clear m) i <> Some true.
  Proof.
    destruct (nth_error m i) eqn:E.
    - now rewrite (mask_clear_nth _ _ _ E).
    - apply nth_error_None in E. rewrite <- mask_clear_length in E. apply nth_error_None in E. now rewrite E.
  Qed.
  Lemma or_with_length a b : List.length (or_with a b) = List.length a.
  Proof. revert b; induction a as [|x a IH]; intros [|y b]; cbn; auto. Qed.
  Lemma or_with_nth a b i x y : nth_error a i = Some x -> nth_error b i = Some y ->
    nth_error (or_with a b) i = Some (x || y).
  Proof.
    revert b i; induction a as [|x0 a IH]; intros [|y0 b] [|i] H1 H2; try discriminate; cbn in *.
    - congruence.
    - eauto.
  Qed.
  Lemma nth_same_length {A C} (a : list A) (b : list C) i x : List.length a = List.length b ->
    nth_error a i = Some x -> exists y, nth_error b i = Some y.
  Proof.
    intros E H. destruct (nth_error b i) eqn:Eb; [eauto|]. apply nth_error_None in Eb.
    assert (i < List.length a) by (apply nth_error_Some; congruence). lia.
  Qed.

  (** ** C36: combinators *)

  Theorem C36_all : query_ok all_query (fun _ _ => true).
  Proof.
    split; cbn; auto. intros off x mask i b k _ H _. now rewrite andb_true_r.
  Qed.

  Theorem C36_empty : query_ok empty_query (fun _ _ => false).
  Proof.
    split; cbn; auto using mask_clear_length.
    - intros off x mask i b k _ H _. rewrite andb_false_r. eapply mask_clear_nth; eauto.
    - intros off x mask i _ H. now apply mask_clear_not in H.
    - discriminate.
  Qed.

  (** Both parts see every bit the other lets through, so the conjunction
      matches exactly where both match. *)
  Theorem C36_and a b ma mb : query_ok a ma -> query_ok b mb ->
    query_ok (and_query a b) (fun o k => ma o k && mb o k).
  Proof.
    intros A C. split; cbn [and_query q_containing q_intersecting].
    - intros off x mask H. rewrite (qo_leaf_length _ _ C); rewrite (qo_leaf_length _ _ A); auto.
    - intros off x mask i bit k H Hm Hk. rewrite andb_assoc. eapply (qo_leaf _ _ C); [|eapply (qo_leaf _ _ A); eauto|exact Hk].
      now rewrite (qo_leaf_length _ _ A).
    - intros off x mask H. rewrite (qo_branch_length _ _ C); rewrite (qo_branch_length _ _ A); auto.
    - intros off x mask i H Hi. eapply (qo_branch_mask _ _ A); [exact H|]. eapply (qo_branch_mask _ _ C); [|exact Hi].
      now rewrite (qo_branch_length _ _ A).
    - intros off x mask kss i j ks k H Hne Hs Hc Hm Hi Hj Hmk. apply andb_prop in Hmk as [H1 H2].
      eapply (qo_branch _ _ C); eauto; [now rewrite (qo_branch_length _ _ A)|]. eapply (qo_branch _ _ A); eauto.
  Qed.

  Theorem C36_or a b ma mb : query_ok a ma -> query_ok b mb ->
    query_ok (or_query a b) (fun o k => ma o k || mb o k).
  Proof.
    intros A C. split; cbn [or_query q_containing q_intersecting].
    - intros off x mask H. rewrite or_with_length. now apply (qo_leaf_length _ _ A).
    - intros off x mask i bit k H Hm Hk. rewrite andb_orb_distrib_r.
      apply or_with_nth; [eapply (qo_leaf _ _ A)|eapply (qo_leaf _ _ C)]; eauto.
    - intros off x mask H. rewrite or_with_length. now apply (qo_branch_length _ _ A).
    - intros off x mask i H Hi.
      assert (La : List.length (q_intersecting a off x mask) = List.length mask) by now apply (qo_branch_length _ _ A).
      assert (Lb : List.length (q_intersecting b off x mask) = List.length mask) by now apply (qo_branch_length _ _ C).
      destruct (nth_same_length _ (q_intersecting a off x mask) _ _ (or_with_length _ _) Hi) as (xa & Ea).
      destruct (nth_same_length _ (q_intersecting b off x mask) _ _ (eq_trans La (eq_sym Lb)) Ea) as (xb & Eb).
      rewrite (or_with_nth _ _ _ _ _ Ea Eb) in Hi. injection Hi as Hi. apply orb_prop in Hi as [-> | ->].
      + eapply (qo_branch_mask _ _ A); eauto.
      + eapply (qo_branch_mask _ _ C); eauto.
    - intros off x mask kss i j ks k H Hne Hs Hc Hm Hi Hj Hmk.
      assert (La : List.length (q_intersecting a off x mask) = List.length mask) by now apply (qo_branch_length _ _ A).
      assert (Lb : List.length (q_intersecting b off x mask) = List.length mask) by now apply (qo_branch_length _ _ C).
      destruct (nth_same_length mask (q_intersecting a off x mask) _ _ (eq_sym La) Hm) as (xa & Ea).
      destruct (nth_same_length mask (q_intersecting b off x mask) _ _ (eq_sym Lb) Hm) as (xb & Eb).
      rewrite (or_with_nth _ _ _ _ _ Ea Eb). f_equal. apply orb_prop in Hmk as [Hmk|Hmk].
      + pose proof (qo_branch _ _ A _ _ _ _ _ _ _ _ H Hne Hs Hc Hm Hi Hj Hmk) as Hq. rewrite Ea in Hq. injection Hq as ->. easy.
      + pose proof (qo_branch _ _ C _ _ _ _ _ _ _ _ H Hne Hs Hc Hm Hi Hj Hmk) as Hq. rewrite Eb in Hq. injection Hq as ->. now destruct xa.
  Qed.

  (** ** C37: offset ranges *)

  (** The set of numbers a range stands for, written with inequalities. *)
  Definition in_range (r : range) (n : nat) : Prop :=
    match r_start r with Unbounded => True | Included a => a <= n | Excluded a => a < n end
    /\ match r_end r with Unbounded => True | Included b => n <= b | Excluded b => n < b end.

  Lemma range_contains_spec r n : range_contains r n = true <-> in_range r n.
  Proof.
    unfold range_contains, in_range. rewrite andb_true_iff.
    destruct (r_start r), (r_end r); rewrite ?Nat.leb_le, ?Nat.ltb_lt; intuition.
  Qed.

  Lemma intersects_window r a n i : i < n -> in_range r (a + i) -> intersects r (range_of a (a + n)) = true.
  Proof.
    unfold in_range, intersects, bound_lt. cbn [r_start r_end range_of]. intros Hi [H1 H2].
    destruct (r_start r) as [|s|s], (r_end r) as [|e|e];
      repeat match goal with |- context [Nat.ltb ?a ?b] => destruct (Nat.ltb_spec a b)
                        | |- context [Nat.leb ?a ?b] => destruct (Nat.leb_spec a b) end;
      cbn [negb andb]; reflexivity || lia.
  Qed.

  Lemma offset_mask_length r off n m : List.length (offset_mask r off n m) = List.length m.
  Proof. revert off m; induction n as [|n IH]; intros off [|b m]; cbn; auto. Qed.
  Lemma offset_mask_nth r n : forall off m i b, i < n -> nth_error m i = Some b ->
    nth_error (offset_mask r off n m) i = Some (b && range_contains r (off + i)).
  Proof.
    induction n as [|n IH]; intros off [|b0 m] [|i] b Hi E; try lia; try discriminate; cbn in *.
    - injection E as ->. rewrite Nat.add_0_r. now destruct b.
    - rewrite (IH (S off) m i b); [|lia|exact E]. now rewrite Nat.add_succ_r.
  Qed.

  Theorem C37_offset_range r : query_ok (offset_range_query r) (fun o _ => range_contains r o).
  Proof.
    split; cbn [offset_range_query q_containing q_intersecting].
    - intros off x mask H. destruct (negb _); [apply mask_clear_length|apply offset_mask_length].
    - intros off x mask i b k H Hm Hk.
      assert (Hi : i < List.length (leaf_keys x)) by (apply nth_error_Some; congruence).
      destruct (intersects r _) eqn:E; cbn [negb].
      + now apply offset_mask_nth.
      + rewrite (mask_clear_nth _ _ _ Hm). f_equal. destruct (range_contains r (off + i)) eqn:Ec; [|now rewrite andb_false_r].
        apply range_contains_spec in Ec. now rewrite (intersects_window _ _ _ _ Hi Ec) in E.
    - intros off x mask H. destruct (negb _); [apply mask_clear_length|easy].
    - intros off x mask i H. destruct (negb _); [|easy]. intros Hi. now apply mask_clear_not in Hi.
    - intros off x mask kss i j ks k H Hne Hs Hc Hm Hi Hj Hmk. apply range_contains_spec in Hmk.
      rewrite (intersects_window r off (bi_count x) (List.length (List.concat (firstn i kss)) + j)); [exact Hm| |].
      + rewrite Hc. assert (j < List.length ks) by (apply nth_error_Some; congruence).
        clear -Hi H0. revert kss Hi. induction i as [|i IH]; intros [|a kss] Hi; try discriminate; cbn in *.
        * injection Hi as ->. rewrite app_length. lia.
        * rewrite !app_length. specialize (IH _ Hi). lia.
      + now rewrite Nat.add_assoc.
  Qed.

  (** In particular: a query for the offsets of a range matches exactly these. *)
  Theorem C37_exact r : forall n (k : K), range_contains r n = true <-> in_range r n.
  Proof. intros n _. apply range_contains_spec. Qed.
End Props.

(** * Concrete cases: the hypotheses of the theorems on combinators are met by
    offset ranges; a combination of them on a leaf with four keys. *)
Example C36_case :
  query_ok (T := ITypes) (or_query (offset_range_query (range_of 2 4)) (and_query (offset_range_query (range_incl 5 9)) all_query))
           (fun o _ => range_contains (range_of 2 4) o || (range_contains (range_incl 5 9) o && true))
  /\ range_contains (range_of 2 4) 3 = true /\ range_contains (range_of 2 4) 4 = false
  /\ range_contains (range_incl 5 9) 9 = true.
Proof.
  splits; try reflexivity. apply C36_or; [apply C37_offset_range|]. apply C36_and; [apply C37_offset_range|apply C36_all].
Qed.

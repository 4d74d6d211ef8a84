(** What a query's masks say about the events of a tree. *)
From Coq Require Import List NArith ZArith Lia Bool String Arith.
From Verif Require Import Base BaseProofs Cbor Types Seq SeqProofs Query QuerySpec World Read Write Ghost Frame ReadProofs.
Import ListNotations.
#[local] Coercion s_now : Setting >-> Config.

Section QueryProofs.
  Context {T : Types} {TL : TypesLaws T} {X : Ext} {XL : ExtLaws X}
          {B : Backend T} {BL : BackendLaws T B}.

  (** ** Keys of a tree, purged events included *)

  Definition key_of (e : option (K * V)) (k : K) : Prop :=
    match e with Some (k', _) => k' = k | None => True end.

  Definition has_keys (t : tree) (ks : list K) : Prop :=
    sum_of (summarize (root_ix t)) ks /\ icount (root_ix t) = List.length ks
    /\ Forall2 key_of (content t) ks.

  Lemma Forall2_repeat {A C} (R : A -> C -> Prop) a l : (forall c, R a c) -> Forall2 R (repeat a (List.length l)) l.
  Proof. intros H. induction l; constructor; auto. Qed.

  Lemma children_keys cs : Forall (fun t => exists ks, has_keys t ks) cs ->
    exists kss, sums_of (map summarize (map root_ix cs)) kss /\ Forall2 has_keys cs kss
      /\ sum_nat (map icount (map root_ix cs)) = List.length (List.concat kss)
      /\ Forall2 key_of (flat_map content cs) (List.concat kss).
  Proof.
    induction 1 as [|t cs (ks & H1 & H2 & H3) _ (kss & G1 & G2 & G3 & G4)].
    - exists []. repeat split; constructor.
    - exists (ks :: kss). cbn [map List.concat flat_map sum_nat fold_right]. split; [now constructor|]. split; [constructor; [split|]; auto|].
      split; [rewrite app_length; unfold sum_nat in G3; lia|]. now apply Forall2_app.
  Qed.

  Lemma tree_keys (cfg : Setting) sec t : forall lim, repr sec lim t -> inv cfg t -> exists ks, has_keys t ks.
  Proof.
    induction t using tree_ind'; intros lim R I.
    - destruct R as (R & _). exists (leaf_keys x). cbn in I. split; [|split].
      + apply sum_leaf. unfold leaf_keys in I. destruct (ks_to (li_keys x)); [cbn in I; lia|discriminate].
      + easy.
      + cbn. clear I. revert vs R. generalize (leaf_keys x). induction l as [|k l IH]; intros [|v vs] E; try discriminate; cbn.
        * constructor.
        * constructor; [easy|]. apply IH. now injection E.
    - exists (leaf_keys x). cbn in I. split; [|split].
      + apply sum_leaf. unfold leaf_keys in I. destruct (ks_to (li_keys x)); [cbn in I; lia|discriminate].
      + easy.
      + now apply Forall2_repeat.
    - apply repr_branch in R as (A1 & A2 & A3 & A4 & blk & r & A5 & A6 & A7 & A8).
      apply invs_branch in I as (I1 & I2 & I3 & I4 & I5).
      destruct (children_keys cs) as (kss & G1 & G2 & G3 & G4).
      { rewrite Forall_forall in *. eauto. }
      exists (List.concat kss). split; [|split].
      + cbn [root_ix summarize]. apply sum_branch.
        * change (ss_to (bi_sums x)) with (branch_sums x). rewrite I3. destruct cs; [congruence|discriminate].
        * change (ss_to (bi_sums x)) with (branch_sums x). now rewrite I3.
      + cbn. congruence.
      + exact G4.
    - destruct I as (_ & (ks & H1 & H2) & _). exists ks. split; [easy|]. split; [easy|]. cbn [content].
      rewrite H2. now apply Forall2_repeat.
  Qed.

  Lemma tree_nonempty (cfg : Setting) sec lim t : repr sec lim t -> inv cfg t -> 1 <= icount (root_ix t).
  Proof.
    intros R I. destruct (tree_keys _ _ _ _ R I) as (ks & H1 & -> & _). apply sum_nonempty in H1.
    destruct ks; [congruence|cbn; lia].
  Qed.

  Lemma branch_keys (cfg : Setting) sec lim x cs : repr sec lim (TBranch x cs) -> inv cfg (TBranch x cs) ->
    exists kss, sums_of (branch_sums x) kss /\ branch_sums x <> []
      /\ Forall2 has_keys cs kss /\ bi_count x = List.length (List.concat kss).
  Proof.
    intros R I. apply repr_branch in R as (A1 & A2 & A3 & A4 & blk & r & A5 & A6 & A7 & A8).
    apply invs_branch in I as (I1 & I2 & I3 & I4 & I5).
    destruct (children_keys cs) as (kss & G1 & G2 & G3 & G4).
    { rewrite Forall_forall in *. intros t Ht. eapply tree_keys; eauto. }
    exists kss. rewrite I3. split; [easy|]. split; [destruct cs; [congruence|discriminate]|].
    split; [easy|]. congruence.
  Qed.

  (** ** Events that do not match *)

  Variable m : nat -> K -> bool.

  Fixpoint nomatch (off : nat) (c : list (option (K * V))) : Prop :=
    match c with
    | [] => True
    | e :: c' => match e with Some (k, _) => m off k = false | None => True end /\ nomatch (S off) c'
    end.

  Lemma nomatch_app off a b : nomatch off (a ++ b) <-> nomatch off a /\ nomatch (off + List.length a) b.
  Proof.
    revert off; induction a as [|e a IH]; intros off; cbn [app nomatch List.length].
    - rewrite Nat.add_0_r. tauto.
    - rewrite IH, Nat.add_succ_comm. tauto.
  Qed.

  Lemma nomatch_nth off c : nomatch off c <->
    forall i k v, nth_error c i = Some (Some (k, v)) -> m (off + i) k = false.
  Proof.
    revert off; induction c as [|e c IH]; intros off; cbn [nomatch].
    - split; [intros _ [|i]; discriminate|auto].
    - rewrite IH. split.
      + intros [H1 H2] [|i] k v E; cbn in E.
        * injection E as ->. now rewrite Nat.add_0_r.
        * rewrite <- Nat.add_succ_comm. now apply H2 with v.
      + intros H. split.
        * destruct e as [[k v]|]; [|easy]. specialize (H 0 k v eq_refl). now rewrite Nat.add_0_r in H.
        * intros i k v E. rewrite Nat.add_succ_comm. now apply H with v.
  Qed.

  (** Each child whose bit is cleared has no matching event. *)
  Fixpoint gates (off : nat) (ms : list bool) (cs : list tree) : Prop :=
    match ms, cs with
    | b :: ms', c :: cs' =>
        (b = false -> nomatch off (content c)) /\ gates (off + icount (root_ix c)) ms' cs'
    | [], [] => True
    | _, _ => False
    end.

  Definition trues {A} (l : list A) : list bool := map (fun _ => true) l.

  Lemma nth_trues {A} (l : list A) i : i < List.length l -> nth_error (trues l) i = Some true.
  Proof. revert i; induction l as [|a l IH]; intros [|i] H; cbn in *; try lia; auto. apply IH. lia. Qed.

  (** The summaries of the branch are those of its children. *)
  Definition keyed_branch (x : BranchIndex) (cs : list tree) : Prop :=
    exists kss, sums_of (branch_sums x) kss /\ branch_sums x <> []
      /\ Forall2 has_keys cs kss /\ bi_count x = List.length (List.concat kss).

  Lemma keyed_gates q x cs off : query_ok q m -> keyed_branch x cs ->
    gates off (q_intersecting q off x (trues (branch_sums x))) cs.
  Proof.
    intros Q (kss & G1 & G2 & G3 & G4).
    set (ms := q_intersecting q off x (trues (branch_sums x))).
    assert (Lm : List.length (trues (branch_sums x)) = List.length (branch_sums x)) by apply map_length.
    assert (Lms : List.length ms = List.length kss).
    { unfold ms. rewrite (qo_branch_length _ _ Q) by easy. rewrite Lm. symmetry. now apply sums_length. }
    assert (H : forall i j ks k, nth_error kss i = Some ks -> nth_error ks j = Some k ->
               nth_error ms i = Some false -> m (off + List.length (List.concat (firstn i kss)) + j) k = false).
    { intros i j ks k E1 E2 E3.
      destruct (m (off + List.length (List.concat (firstn i kss)) + j) k) eqn:E; [|easy]. exfalso.
      assert (Hi : i < List.length kss) by (apply nth_error_Some; congruence).
      rewrite (sums_length _ _ G1) in Hi.
      pose proof (qo_branch _ _ Q off x (trues (branch_sums x)) kss i j ks k Lm G2 G1 G4 (nth_trues _ _ Hi) E1 E2 E) as E4.
      fold ms in E4. congruence. }
    clearbody ms. clear -H Lms G3. revert off ms H Lms.
    induction G3 as [|t ks cs kss (Hk1 & Hk2 & Hk3) G3 IH]; intros off ms H Lms; destruct ms as [|b ms]; try discriminate.
    { exact I. }
    cbn [gates]. split.
    - intros ->. apply nomatch_nth. intros i k v E.
      assert (Hi : exists k', nth_error ks i = Some k' /\ key_of (Some (k, v)) k').
      { clear -Hk3 E. revert i E. induction Hk3; intros [|i] E; cbn in *; try discriminate; eauto.
        injection E as ->. eauto. }
      destruct Hi as (k' & E1 & E2). cbn in E2. subst k'.
      specialize (H 0 i ks k eq_refl E1 eq_refl). cbn in H. now rewrite Nat.add_0_r in H.
    - apply IH; [|now injection Lms]. intros i j ks' k E1 E2 E3.
      specialize (H (S i) j ks' k E1 E2 E3). cbn [firstn List.concat] in H. rewrite app_length, <- Hk2 in H.
      now rewrite Nat.add_assoc in H.
  Qed.

  Lemma query_branch q (cfg : Setting) sec lim x cs off : query_ok q m ->
    repr sec lim (TBranch x cs) -> inv cfg (TBranch x cs) ->
    gates off (q_intersecting q off x (trues (branch_sums x))) cs.
  Proof. intros Q R I. apply keyed_gates; [exact Q|]. eapply branch_keys; eauto. Qed.

  Lemma gates_none ms cs sec lim : Forall (repr sec lim) cs -> forall off, gates off ms cs -> any ms = false ->
    nomatch off (flat_map content cs).
  Proof.
    intros R. revert ms. induction R as [|c cs R1 R IH]; intros [|b ms] off G E; cbn in *; try easy.
    apply orb_false_elim in E as [-> E]. destruct G as [G1 G2]. apply nomatch_app. split; [auto|].
    erewrite length_content by eauto. now apply (IH ms).
  Qed.

  (** The mask of a leaf. *)
  Fixpoint key_mask (off : nat) (ks : list K) : list bool :=
    match ks with [] => [] | k :: ks' => m off k :: key_mask (S off) ks' end.

  Lemma key_mask_length off ks : List.length (key_mask off ks) = List.length ks.
  Proof. revert off; induction ks; intros; cbn; auto. Qed.

  Lemma nth_key_mask off ks i k : nth_error ks i = Some k -> nth_error (key_mask off ks) i = Some (m (off + i) k).
  Proof.
    revert off i; induction ks as [|k0 ks IH]; intros off [|i] E; try discriminate; cbn in *.
    - injection E as ->. now rewrite Nat.add_0_r.
    - rewrite <- Nat.add_succ_comm. auto.
  Qed.

  Lemma nth_error_ext {A} (a b : list A) : (forall i, nth_error a i = nth_error b i) -> a = b.
  Proof.
    revert b; induction a as [|x a IH]; intros [|y b] H; auto; try (specialize (H 0); discriminate).
    f_equal; [specialize (H 0); now injection H|]. apply IH. intros i. apply (H (S i)).
  Qed.

  Lemma query_leaf q off x : query_ok q m ->
    q_containing q off x (trues (leaf_keys x)) = key_mask off (leaf_keys x).
  Proof.
    intros Q. apply nth_error_ext. intros i.
    assert (Lm : List.length (trues (leaf_keys x)) = List.length (leaf_keys x)) by apply map_length.
    destruct (nth_error (leaf_keys x) i) as [k|] eqn:E.
    - rewrite (nth_key_mask _ _ _ _ E). erewrite (qo_leaf _ _ Q) with (b := true) (k := k); auto.
      apply nth_trues. apply nth_error_Some. congruence.
    - apply nth_error_None in E.
      rewrite (proj2 (nth_error_None _ _)) by (rewrite (qo_leaf_length _ _ Q), Lm by easy; easy).
      symmetry. apply nth_error_None. now rewrite key_mask_length.
  Qed.

  Lemma key_mask_none ks vs : forall off, any (key_mask off ks) = false ->
    nomatch off (map Some (combine ks vs)).
  Proof.
    revert vs. induction ks as [|k ks IH]; intros [|v vs] off E; cbn in *; auto.
    apply orb_false_elim in E as [E1 E2]. auto.
  Qed.
End QueryProofs.

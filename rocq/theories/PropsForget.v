(** Properties of what [retain] drops: C61, C62. *)
From Coq Require Import List NArith ZArith Lia Bool String Arith.
From Verif Require Import Base BaseProofs Cbor Types Seq SeqProofs Query QuerySpec World Read Write Api Iter History Spec IterSpec Ghost Frame ReadProofs Packable WriteProofs QueryProofs PackProofs RetainProofs RepairProofs NoPurged ApiProofs SysProofs HistProofs IterProofs IndexProofs Instance Example PropsWrite PropsQuery PropsIter PropsIndex PropsMaintain.
Import ListNotations.

(** ** Specification *)

(** The nodes [is] of a tree, in the order of index iteration: up to the first
    unsealed leaf, every leaf that still has a link has an entry that matches.
    [off] is the offset of the first entry. *)
Fixpoint forgotten {T : Types} (m : nat -> K -> bool) (off : nat) (is : list Index) : Prop :=
  match is with
  | [] => True
  | ILeaf x :: is' =>
      li_sealed x = true ->
      (li_link x = None \/ exists j k, nth_error (leaf_keys x) j = Some k /\ m (off + j) k = true)
      /\ forgotten m (off + List.length (leaf_keys x)) is'
  | IBranch x :: is' =>
      match bi_link x with
      | None => forgotten m (off + bi_count x) is'
      | Some _ => forgotten m off is'
      end
  end.

Section Props.
  Context {T : Types} {TL : TypesLaws T} {X : Ext} {XL : ExtLaws X}
          {B : Backend T} {BL : BackendLaws T B}.
  Variable cfg : Config.
  Variable sec : Secrets.
  Hypothesis Hcfg : config_ok cfg.

  Lemma key_mask_any m off ks : any (key_mask m off ks) = true -> exists j k, nth_error ks j = Some k /\ m (off + j) k = true.
  Proof.
    revert off. induction ks as [|k ks IH]; intros off H; cbn in H; [discriminate|]. apply orb_prop in H as [H|H].
    - exists 0, k. rewrite Nat.add_0_r. auto.
    - destruct (IH _ H) as (j & k' & H1 & H2). exists (S j), k'. rewrite <- Nat.add_succ_comm. auto.
  Qed.

  Lemma nodes_all_branch off x cs : List.length (branch_sums x) = List.length cs ->
    nodes all_query Forward off (TBranch x cs) = IBranch x :: List.concat (parts all_query Forward off (combine (repeat true (List.length cs)) cs)).
  Proof. intros H. rewrite nodes_branch. unfold branch_mask. cbn [all_query q_intersecting ordered]. now rewrite H. Qed.

  Lemma dropped_nodes q m t : query_ok q m -> forall off lim rest, repr sec lim t -> dropped q off t ->
    (no_open t = true -> forgotten m (off + icount (root_ix t)) rest) ->
    forgotten m off (nodes all_query Forward off t ++ rest).
  Proof.
    intros Q. induction t as [x vs|x|x cs IH|x] using tree_ind'; intros off lim rest R D H.
    - cbn [nodes app root_ix forgotten]. intros Hs. cbn [no_open root_ix icount] in H. split; [|auto]. right.
      cbn in D. specialize (D Hs).
      rewrite (query_leaf _ _ _ _ Q) in D. now apply key_mask_any.
    - cbn [nodes app root_ix forgotten]. intros Hs. split; [left; exact R|]. auto.
    - apply repr_branch in R as R'. destruct R' as (_ & _ & Hlen & _ & blk & r & Hl & _ & _ & Hch).
      rewrite nodes_all_branch by easy. cbn [app forgotten]. rewrite Hl. apply dropped_branch in D.
      cbn [root_ix icount no_open] in H.
      assert (Hc : bi_count x = sum_nat (map icount (map root_ix cs))).
      { now apply repr_branch in R as (_ & A2 & _). }
      rewrite Hc in H. clear Hc Hlen Hl R. revert off D H. induction cs as [|c cs IHc]; intros off D H.
      + cbn [map sum_nat] in H. rewrite Nat.add_0_r in H. apply H. reflexivity.
      + inversion IH; inversion Hch; subst. cbn [List.length repeat combine parts List.concat]. unfold ind. cbn [fst snd].
        destruct D as [D1 D2]. rewrite <- app_assoc. eapply H2; eauto. intros Ho. apply IHc; auto.
        intros Ho'. cbn [map sum_nat forallb] in H. rewrite Ho, Ho' in H. rewrite <- Nat.add_assoc. now apply H.
    - cbn [nodes app root_ix forgotten]. cbn in R. rewrite R. apply H. reflexivity.
  Qed.

  (** ** C61: retain forgets the leaves without a match *)

  (** The nodes that index iteration lists after a successful [retain]: up to the
      first unsealed leaf, every leaf that is left has an entry that matches. *)
  Theorem C61_retain_forgets s q m fo' b' :
    reach anything cfg sec s -> query_ok q m ->
    retain (sy_fo s) (sy_b s) q = (Ok tt, fo', b') ->
    exists is, visited sec Forward all_query (snapshot b') is /\ forgotten m 0 is.
  Proof.
    intros R Q E. destruct (reach_b cfg sec Hcfg _ _ R) as (n & I).
    destruct (retain_api cfg sec _ _ _ _ _ _ _ _ _ _ I (query_purge_ok cfg sec q m Q) E) as (_ & (n' & I' & Q' & _) & _).
    destruct (Q' eq_refl) as (_ & _ & D). destruct n' as [t|].
    - pose proof (binv_snap _ _ _ _ _ _ _ I') as (_ & Es & _). destruct I' as (_ & _ & _ & _ & G). destruct G as ((Rp & _) & _).
      exists (nodes all_query Forward 0 t). rewrite Es. cbn [visited]. split.
      + eapply nodes_selected; [eapply query_sized, C36_all|exact Rp].
      + rewrite <- (app_nil_r (nodes _ _ _ _)). eapply dropped_nodes; [exact Q|exact Rp|exact D|]. intros _. exact Logic.I.
    - pose proof (binv_none _ _ _ _ _ _ I') as (_ & Es). exists []. rewrite Es. split; [reflexivity|exact Logic.I].
  Qed.

  Lemma nodes_no_open lim t : forall off, repr sec lim t ->
    Forall (fun i => match i with ILeaf x => li_sealed x = true | IBranch _ => True end) (nodes all_query Forward off t) -> no_open t = true.
  Proof.
    revert lim. induction t as [x vs|x|x cs IH|x] using tree_ind'; intros lim off R H; [now inversion H| now inversion H| |reflexivity].
    apply repr_branch in R as (_ & _ & Hlen & _ & blk & r & _ & _ & _ & Hch).
    rewrite nodes_all_branch in H by easy. inversion H as [|? ? _ H']; subst. cbn [no_open].
    clear H Hlen. revert off H'. induction cs as [|c cs IHc]; intros off H'; [reflexivity|].
    inversion IH; inversion Hch; subst. cbn [List.length repeat combine parts List.concat] in H'. unfold ind in H'. cbn [fst snd] in H'.
    apply Forall_app in H' as [A1 A2]. cbn [forallb]. erewrite H1 by eauto. cbn [andb]. eapply IHc; eauto.
  Qed.

  Lemma dropped_none q m t : query_ok q m -> (forall i k, m i k = false) -> forall off lim, repr sec lim t ->
    dropped q off t -> no_open t = true -> Forall (fun e => e = None) (content t).
  Proof.
    intros Q Hm. induction t as [x vs|x|x cs IH|x] using tree_ind'; intros off lim R D O; cbn [content no_open] in *.
    - cbn in D. specialize (D O). rewrite (query_leaf _ _ _ _ Q) in D. apply key_mask_any in D as (j & k & _ & D). now rewrite Hm in D.
    - apply Forall_forall. intros e He. now apply repeat_spec in He.
    - apply dropped_branch in D. apply repr_branch in R as (_ & _ & _ & _ & blk & r & _ & _ & _ & Hch).
      revert off D O. induction cs as [|c cs IHc]; intros off D O; [constructor|].
      cbn [forallb] in O. apply andb_prop in O as [O1 O2]. destruct D as [D1 D2]. inversion IH; inversion Hch; subst.
      cbn [flat_map]. apply Forall_app. split; [eapply H1; eauto|eapply IHc; eauto].
    - apply Forall_forall. intros e He. now apply repeat_spec in He.
  Qed.

  (** If nothing matches and no leaf is unsealed, nothing is left. *)
  Theorem C61_nothing_left s q m fo' b' is i v :
    reach anything cfg sec s -> query_ok q m -> (forall o k, m o k = false) ->
    retain (sy_fo s) (sy_b s) q = (Ok tt, fo', b') ->
    visited sec Forward all_query (snapshot b') is ->
    (forall x, In (ILeaf x) is -> li_sealed x = true) ->
    gets fo' (snapshot b') i v -> v = None.
  Proof.
    intros R Q Hm E Hv Hs Hg. destruct (reach_b cfg sec Hcfg _ _ R) as (n & I).
    destruct (retain_api cfg sec _ _ _ _ _ _ _ _ _ _ I (query_purge_ok cfg sec q m Q) E) as (_ & (n' & I' & Q' & _) & _).
    destruct (Q' eq_refl) as (_ & _ & D). rewrite (gets_b _ _ _ _ _ _ _ _ _ I' Hg). destruct n' as [t|].
    - pose proof (binv_snap _ _ _ _ _ _ _ I') as (_ & Es & _). destruct I' as (_ & _ & _ & _ & G). destruct G as ((Rp & _) & _).
      rewrite Es in Hv. cbn [visited] in Hv.
      assert (Hn : is = nodes all_query Forward 0 t).
      { refine (proj1 (selected_det sec _ _ _ _ _ _ Hv _ _) eq_refl).
        eapply nodes_selected; [eapply query_sized, C36_all|exact Rp]. }
      assert (O : no_open t = true).
      { eapply (nodes_no_open _ t 0); [exact Rp|]. rewrite <- Hn. apply Forall_forall. intros [x|x] Hx; [now apply Hs|easy]. }
      pose proof (dropped_none q m t Q Hm 0 _ Rp D O) as F. unfold oget, entry. cbn [ocontent]. rewrite <- join_entry.
      destruct (nth_error (content t) i) as [e|] eqn:En; [|reflexivity]. apply nth_error_In in En.
      rewrite Forall_forall in F. rewrite (F _ En). reflexivity.
    - unfold oget, entry. cbn. now destruct i.
  Qed.

  (** ** C62: retain purges a sealed branch without matches as a whole

      This holds for the root; for the branches below it does not, see
      [C62_refuted]. The store is not even read. *)
  Theorem C62_root_partial s q x fo' b' r :
    reach anything cfg sec s ->
    b_root (sy_b s) = Some (IBranch x) -> bi_sealed x = true ->
    any (q_intersecting q 0 x (map (fun _ => true) (branch_sums x))) = false ->
    retain (sy_fo s) (sy_b s) q = (r, fo', b') ->
    r = Ok tt /\ fo' = sy_fo s /\ exists y, b_root b' = Some (IBranch y) /\ bi_link y = None /\ bi_count y = bi_count x.
  Proof.
    intros _ Er Hs Hq. unfold retain. rewrite Er. unfold run.
    assert (E : forall d w, retain0 (b_cfg (sy_b s)) (b_sec (sy_b s)) q d 0 (IBranch x) None w = (Ok (IBranch (branch_set_link x None), Some (Z.of_nat (bi_level x))), w)).
    { intros d w. assert (Hc : retain_cursor (IBranch x) None = Some (Z.of_nat (bi_level x))) by (unfold retain_cursor; cbn [isealed ilevel cur_le]; now rewrite Hs).
      assert (Hl : cur_le (bi_level x) (Some (Z.of_nat (bi_level x))) = true) by (cbn [cur_le]; lia).
      destruct d; cbn [retain0]; rewrite Hc, Hq, Hs, Hl; destruct (bi_link x) eqn:El; cbn [andb negb branch_set_link bi_link]; try reflexivity.
      all: rewrite El; unfold ret; destruct x; cbn in *; subst; reflexivity. }
    rewrite E. intros H. injection H as <- <- <-. splits; [reflexivity|destruct (sy_fo s); reflexivity|].
    exists (branch_set_link x None). cbn [set_root b_root]. auto.
  Qed.
End Props.

(** * Concrete cases *)

Definition shape_of (rs : list (res (@Index ITypes))) : list (option (nat * nat * bool * bool)) :=
  map (fun r => match r with
                | Ok i => Some (ilevel i, icount i, isealed i, match ilink i with Some _ => true | None => false end)
                | _ => None
                end) rs.
Definition listing (x : res unit * @Forest ITypes IBackend * Builder) :=
  shape_of (ixs 100 (mid3 x) (iter_index (snapshot (snd x)) all_query)).

(** Offsets 5 to 7 of the packed tree of twelve entries. Level, number of
    entries, sealed and has a link, of each node: two of six leaves are left. *)
Example C61_case :
  reach anything ecfg esec st2 /\ query_ok rq (fun o _ => range_contains (range_of 5 8) o)
  /\ fst3 st2r = Ok tt
  /\ listing st2r =
     [Some (3, 12, false, true); Some (2, 8, true, true);
      Some (1, 4, true, false);
      Some (1, 4, true, true); Some (0, 2, true, true); Some (0, 2, true, true);
      Some (2, 4, false, true);
      Some (1, 4, true, true); Some (0, 2, true, false); Some (0, 2, true, false)].
Proof. splits; [apply no_loss_any, st2_ok|apply C37_offset_range|vm_compute; reflexivity|vm_compute; reflexivity]. Qed.

(** The query without matches. *)
Definition nq : @Query ITypes := empty_query.
Definition st2n := retain (sy_fo st2) (sy_b st2) nq.
Example C61_nothing_case :
  reach anything ecfg esec st2 /\ query_ok nq (fun _ _ => false)
  /\ fst3 st2n = Ok tt
  /\ listing st2n = [Some (3, 12, false, true); Some (2, 8, true, false); Some (2, 4, false, true); Some (1, 4, true, false)]
  /\ gets (sy_fo st2) (snapshot (sy_b st2)) 10 (Some (10%N, 110%N))
  /\ gets (mid3 st2n) (snapshot (snd st2n)) 10 None.
Proof.
  splits; [apply no_loss_any, st2_ok|apply C36_empty|vm_compute; reflexivity|vm_compute; reflexivity
          |apply gets_c; vm_compute; reflexivity|apply gets_c; vm_compute; reflexivity].
Qed.

(** A sealed root: eight entries. *)
Definition st8 : sys := state no_loss 1000000 [OExtend (pairs 0 8)].
Lemma st8_ok : reach no_loss ecfg esec st8. Proof. reached. Qed.
Example C62_root_case :
  reach anything ecfg esec st8
  /\ (match b_root (sy_b st8) with
      | Some (IBranch x) => bi_sealed x = true /\ any (q_intersecting nq 0 x (map (fun _ => true) (branch_sums x))) = false
      | _ => False
      end)
  /\ listing (retain (sy_fo st8) (sy_b st8) all_query) =
     [Some (2, 8, true, true); Some (1, 4, true, true); Some (0, 2, true, true); Some (0, 2, true, true);
      Some (1, 4, true, true); Some (0, 2, true, true); Some (0, 2, true, true)]
  /\ listing (retain (sy_fo st8) (sy_b st8) nq) = [Some (2, 8, true, false)].
Proof. splits; [apply no_loss_any, st8_ok|vm_compute; now split|vm_compute; reflexivity|vm_compute; reflexivity]. Qed.

(** In a packed tree, [retain] with a query for the first leaf only: the second
    and the third branch of level 1 are sealed, none of their entries match, and
    yet both are rewritten with purged leaves instead of purged as a whole. The
    reason: once a node of level 0 was visited, no branch can be purged. *)
Theorem C62_refuted :
  exists (s : sys) (q : @Query ITypes) (m : nat -> K -> bool) (fo' : Forest) (b' : Builder),
    reach anything ecfg esec s /\ says_packed (sy_fo s) (snapshot (sy_b s)) true
    /\ query_ok q m /\ (forall o k, 2 <= o -> m o k = false)
    /\ (forall o x, 2 <= o -> any (q_intersecting q o x (map (fun _ => true) (branch_sums x))) = false)
    /\ retain (sy_fo s) (sy_b s) q = (Ok tt, fo', b')
    /\ shape_of (ixs 100 fo' (iter_index (snapshot b') all_query)) =
       [Some (3, 12, false, true); Some (2, 8, true, true);
        Some (1, 4, true, true); Some (0, 2, true, true); Some (0, 2, true, false);
        Some (1, 4, true, true); Some (0, 2, true, false); Some (0, 2, true, false);
        Some (2, 4, false, true);
        Some (1, 4, true, true); Some (0, 2, true, false); Some (0, 2, true, false)].
Proof.
  pose (x := retain (sy_fo st2) (sy_b st2) (offset_range_query (range_of 0 2))).
  exists st2, (offset_range_query (range_of 0 2)), (fun o _ => range_contains (range_of 0 2) o), (mid3 x), (snd x).
  splits; [apply no_loss_any, st2_ok|apply packed_c; vm_compute; reflexivity|apply C37_offset_range| | |apply triple; vm_compute; reflexivity|vm_compute; reflexivity].
  - intros o k Ho. unfold range_contains, range_of. cbn [r_start r_end]. destruct (Nat.ltb_spec o 2); [lia|]. now rewrite andb_false_r.
  - intros o y Ho. cbn [offset_range_query q_intersecting]. unfold intersects. cbn [range_of r_start r_end bound_lt].
    replace (Nat.leb 2 o) with true by (symmetry; now apply Nat.leb_le). cbn [negb andb]. induction (branch_sums y); cbn; auto.
Qed.

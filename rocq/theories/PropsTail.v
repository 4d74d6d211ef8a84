(** Reading the end of a tree, and asking whether it is packed, with only part of
    the blocks: more of C63. *)
From Coq Require Import List NArith ZArith Lia Bool String Arith.
From Verif Require Import Base BaseProofs Cbor Types Seq SeqProofs Query QuerySpec World Read Write Api Iter History Spec Ghost Frame ReadProofs Packable WriteProofs QueryProofs PackProofs RetainProofs RepairProofs NoPurged ApiProofs SysProofs HistProofs IterProofs IndexProofs Instance Example PropsWrite PropsRead PropsQuery PropsMaintain PropsIter PropsLocal PropsCheck.
Import ListNotations.

(** ** Specification *)
Section Spec.
  Context {T : Types} {X : Ext} {B : Backend T}.
  Variable sec : Secrets.
  Variable s : Store.

  (** From the node [i] down, always to the last child, the blocks of unsealed
      branches are in the store. *)
  Inductive right_edge : Index -> Prop :=
  | edge_leaf x : right_edge (ILeaf x)
  | edge_purged x : bi_link x = None -> right_edge (IBranch x)
  | edge_sealed x : bi_sealed x = true -> right_edge (IBranch x)
  | edge_branch x pre c : opens sec s x (pre ++ [c]) -> right_edge c -> right_edge (IBranch x).
End Spec.

Section Props.
  Context {T : Types} {TL : TypesLaws T} {X : Ext} {XL : ExtLaws X}
          {B : Backend T} {BL : BackendLaws T B}.
  Variable cfg : Config.
  Variable sec : Secrets.
  Hypothesis Hcfg : config_ok cfg.
  Notation key := (index_key sec).

  Definition tail_needs (t : tree) (off : nat) (s : Store) : Prop :=
    forall k, off <= k < icount (root_ix t) -> way_to sec s (root_ix t) k.
  Lemma stable_tail_needs t off : stable (tail_needs t off).
  Proof. intros s s' H W k Hk. apply (way_ext sec s); auto. Qed.

  Definition forest_needs (is : list Index) (off : nat) (s : Store) : Prop :=
    forall k, off <= k < total is -> exists pre c post, is = pre ++ c :: post
      /\ total pre <= k < total pre + icount c /\ way_to sec s c (k - total pre).
  Lemma stable_forest_needs is off : stable (forest_needs is off).
  Proof.
    intros s s' H W k Hk. destruct (W k Hk) as (pre & c & post & E1 & E2 & E3). exists pre, c, post. splits; auto; try lia.
    now apply (way_ext sec s).
  Qed.
  Lemma forest_needs_head c cs off s : forest_needs (c :: cs) off s -> forall k, off <= k < icount c -> way_to sec s c k.
  Proof.
    intros H k Hk. destruct (H k) as (pre & c0 & post & E1 & E2 & E3).
    { change (total (c :: cs)) with (icount c + total cs). lia. }
    destruct pre as [|p pre]; cbn in E1; injection E1 as <- E1.
    - cbn in E3. now rewrite Nat.sub_0_r in E3.
    - change (total (c :: pre)) with (icount c + total pre) in E2. lia.
  Qed.
  Lemma forest_needs_tail c cs off s : forest_needs (c :: cs) off s -> forest_needs cs (off - icount c) s.
  Proof.
    intros H k Hk. destruct (H (icount c + k)) as (pre & c0 & post & E1 & E2 & E3).
    { change (total (c :: cs)) with (icount c + total cs). lia. }
    destruct pre as [|p pre]; cbn in E1; injection E1 as <- E1.
    - cbn in E2. lia.
    - change (total (c :: pre)) with (icount c + total pre) in *. exists pre, c0, post. splits; [exact E1|lia|lia|].
      replace (icount c + k - (icount c + total pre)) with (k - total pre) in E3 by lia. exact E3.
  Qed.

  Lemma collect0_way lim d : forall t off, repr sec lim t -> lfits t -> ilevel (root_ix t) < d ->
    rd sec (collect0 sec d (root_ix t) off) (tail_needs t off) (skipn off (content t)).
  Proof.
    revert lim. induction d as [|d IH]; intros lim t off R F Hd; [lia|].
    cbn [collect0]. destruct (Nat.leb_spec (icount (root_ix t)) off) as [Hc|Hc].
    { erewrite content_skip by eauto. apply rd_ret. }
    destruct t as [x vs|x|x cs|x]; cbn [root_ix node_info_of] in *.
    - pose proof R as (R1 & blk & r & R2 & R3 & R4). apply rd_load_leaf_from_link in R3 as (z & Z1 & Z2 & Z3 & Z4). rewrite R2.
      eapply rd_bind; [apply rf_load_leaf_from_link|apply (stable_tail_needs (TLeaf x vs) off)| |].
      + eapply rd_weaken; [|exact Z1]. intros s H. specialize (H off (conj (le_n _) Hc)). cbn [root_ix] in H. inversion H; subst; cbn in *; [lia|congruence|]. exists d0. congruence.
      + rewrite (zs_items_spec _ vs Z2 Z4), (F _ _ (sub_refl _)). cbn [content]. rewrite skipn_map.
        eapply rd_mbind_lift with (a := vs); [now left|reflexivity|apply rd_ret].
    - cbn in R. rewrite R. cbn [content]. rewrite skipn_repeat. apply rd_ret.
    - pose proof R as R'. apply repr_branch in R as (Hne & Hcnt & _ & Hlv & blk & r & Hl & Hb & _ & Hch). rewrite Hl.
      assert (Hne' : map root_ix cs <> []) by (destruct cs; [congruence|discriminate]).
      eapply rd_bind; [apply rf_load_branch_cached|apply (stable_tail_needs (TBranch x cs) off)|eapply rd_weaken_ok; [|apply rd_load_branch_cached; eassumption]|].
      { intros s W Hs. specialize (Hs off (conj (le_n _) Hc)). cbn [root_ix] in Hs.
        inversion Hs; subst; cbn in *; [lia|congruence|].
        destruct (opens_children sec _ _ _ _ _ W R' H0) as [_ H]. now apply H. }
      cbn [br_children content].
      assert (G : forall off,
        rd sec ((fix go (cs : list Index) (offset : nat) : M (list (option (K * V))) :=
                 match cs with
                 | [] => ret []
                 | c :: cs' =>
                     mbind (if Nat.ltb offset (icount c) then collect0 sec d c offset else ret [])
                     (fun r1 => mbind (go cs' (offset - icount c)) (fun r2 => ret (r1 ++ r2)))
                 end) (map root_ix cs) off)
           (forest_needs (map root_ix cs) off) (skipn off (flat_map content cs))).
      { cbn in Hd. rewrite Forall_map in Hlv. assert (F' : Forall lfits cs) by (apply Forall_forall; intros c Hi; eapply lfits_child; eauto).
        clear -IH Hch Hlv Hd F' TL XL BL.
        induction cs as [|c cs IHcs]; intros off; [cbn; rewrite skipn_nil; apply rd_ret|].
        apply Forall_inv in Hch as Hc1. apply Forall_inv_tail in Hch.
        apply Forall_inv in Hlv as Hl1. apply Forall_inv_tail in Hlv.
        apply Forall_inv in F' as F1. apply Forall_inv_tail in F'.
        pose proof (length_content _ _ _ Hc1) as Hlen. cbn [map flat_map].
        rewrite skipn_app, Hlen.
        eapply rd_bind with (a := skipn off (content c)).
        - destruct (Nat.ltb off (icount (root_ix c))); [apply rf_collect0|apply rf_ret].
        - apply stable_forest_needs.
        - destruct (Nat.ltb_spec off (icount (root_ix c))) as [Hlt|Hge].
          + eapply rd_weaken; [|eapply (IH _ c); [exact Hc1|exact F1|lia]]. intros s Hs k Hk. eapply forest_needs_head; eauto.
          + erewrite content_skip by eauto. apply rd_ret.
        - eapply rd_bind; [|apply stable_forest_needs| |apply rd_ret].
          + generalize (off - icount (root_ix c)). clear -TL XL BL. induction (map root_ix cs) as [|i is IH]; intros o; [apply rf_ret|].
            apply rf_bind; [destruct (Nat.ltb o (icount i)); [apply rf_collect0|apply rf_ret]|]. intros.
            apply rf_bind; [apply IH|]. intros. apply rf_ret.
          + eapply rd_weaken; [|apply IHcs; auto]. intros s Hs. eapply forest_needs_tail; eauto. }
      eapply rd_weaken_ok; [|apply G]. intros s W H k Hk.
      specialize (H k). cbn [root_ix] in H.
      assert (Hk' : k < icount (IBranch x)).
      { cbn [icount]. unfold total in Hk. rewrite Hcnt. lia. }
      specialize (H (conj (proj1 Hk) Hk')). inversion H; subst; cbn in *; [lia|congruence|].
      destruct (opens_children sec _ _ _ _ _ W R' H1) as [E _]. exists pre, c, post. splits; auto; try lia.
    - cbn in R. rewrite R. cbn [content]. rewrite skipn_repeat. apply rd_ret.
  Qed.

  Definition edge_needs (t : tree) (s : Store) : Prop := right_edge sec s (root_ix t).
  Lemma stable_edge_needs t : stable (edge_needs t).
  Proof.
    intros s s' H E. unfold edge_needs in *. induction E; [apply edge_leaf|now apply edge_purged|now apply edge_sealed|].
    eapply edge_branch; [eapply opens_grow; eauto|assumption].
  Qed.

  Lemma is_packed0_edge lim d : forall t, repr sec lim t -> ilevel (root_ix t) < d ->
    rd sec (is_packed0 sec d (root_ix t)) (edge_needs t) (packed t).
  Proof.
    revert lim. induction d as [|d IH]; intros lim t R Hd; [lia|].
    destruct t as [x vs|x|x cs|x]; cbn [root_ix is_packed0 node_info_of].
    - destruct (li_link x); apply rd_ret.
    - destruct (li_link x); apply rd_ret.
    - pose proof R as R'. apply repr_branch in R as (Hne & Hcnt & _ & Hlv & blk & r & Hl & Hb & _ & Hch). rewrite Hl.
      assert (Hne' : map root_ix cs <> []) by (destruct cs; [congruence|discriminate]).
      destruct (bi_sealed x) eqn:Es.
      { replace (packed (TBranch x cs)) with true by (cbn [packed]; now rewrite Es). apply rd_ret. }
      assert (Hin : forall s, edge_needs (TBranch x cs) s -> exists pre c, opens sec s x (pre ++ [c]) /\ right_edge sec s c).
      { intros s H. unfold edge_needs in H. cbn [root_ix] in H. inversion H; subst; [congruence|congruence|eauto]. }
      eapply rd_bind; [apply rf_load_branch_cached|apply (stable_edge_needs (TBranch x cs))|eapply rd_weaken_ok; [|apply rd_load_branch_cached; eassumption]|].
      { intros s W Hs. destruct (Hin s Hs) as (pre & c & Ho & _). destruct (opens_children sec _ _ _ _ _ W R' Ho) as [_ H]. now apply H. }
      cbn [br_children]. destruct (exists_last Hne) as (cs0 & last & ->).
      rewrite map_app, rev_app_distr. cbn [map rev app]. rewrite packed_branch, Es, rev_involutive.
      rewrite map_app, !Forall_app in *. destruct Hch as [_ Hch], Hlv as [_ Hlv].
      apply Forall_inv in Hch. apply Forall_inv in Hlv. cbn in Hd.
      eapply rd_bind; [apply rf_is_packed0|apply (stable_edge_needs (TBranch x (cs0 ++ [last])))| |].
      + eapply rd_weaken_ok; [|eapply (IH _ last); [exact Hch|lia]]. intros s W Hs. destruct (Hin s Hs) as (pre & c & Ho & Hr).
        destruct (opens_children sec _ _ _ _ _ W R' Ho) as [E _]. rewrite map_app in E. cbn in E. apply app_inj_tail in E as [_ ->]. exact Hr.
      + replace (forallb (fun c : Index => isealed c && (ilevel c =? bi_level x - 1)) (map root_ix cs0))
          with (forallb (fun c => isealed (root_ix c) && (ilevel (root_ix c) =? bi_level x - 1)) cs0).
        * cbn [orb]. rewrite andb_assoc. apply rd_ret.
        * clear. induction cs0 as [|c cs IH]; cbn; [easy|]. now rewrite IH.
    - cbn in R. rewrite R. apply rd_ret.
  Qed.

  (** ** Theorems *)

  (** Whatever else was lost, [collect_from] succeeds if the blocks on the way to
      each of the entries from the offset on are there; C05 says that the result
      is the right one. *)
  Theorem C63_collect_from s i sec' o off (RR : ReliableReads T B) :
    reach anything cfg sec s -> known s (Some (i, sec', o)) ->
    (forall k, off <= k < icount i -> way_to sec (fo_store (sy_fo s)) i k) ->
    exists c fo', answers (sy_fo s) (Some (i, sec', o)) c
      /\ collect_from (sy_fo s) (Some (i, sec', o)) off = (Ok (skipn off c), fo').
  Proof.
    intros R K H. destruct (known_good cfg sec Hcfg _ _ _ R K) as [F G].
    destruct (snap_local cfg sec _ _ _ _ _ _ _ G eq_refl) as (-> & lim & g & <- & Rg & _ & _ & Lg).
    assert (Bh : behind sec (Some (root_ix g, sec, o)) (Some g)) by (cbn; eauto).
    pose proof (behind_answers sec _ _ _ F Bh) as An. exists (ocontent (Some g)).
    destruct (collect_from _ _ off) as [r fo'] eqn:E. exists fo'. split; [exact An|]. unfold collect_from in E.
    eapply (read_rd sec) with (P := tail_needs g off) in E; [|exact F|apply rf_collect0|eapply collect0_way; [exact Rg|exact Lg|apply depth_ok]].
    destruct E as (_ & _ & E). now rewrite (E RR H).
  Qed.

  (** [is_packed] needs only unsealed branches at the right edge, and says the
      same in every forest. *)
  Theorem C63_is_packed s i sec' o (RR : ReliableReads T B) :
    reach anything cfg sec s -> known s (Some (i, sec', o)) ->
    right_edge sec (fo_store (sy_fo s)) i ->
    exists x, says_packed (sy_fo s) (Some (i, sec', o)) x
      /\ forall fo x', faithful sec fo -> says_packed fo (Some (i, sec', o)) x' -> x' = x.
  Proof.
    intros R K H. destruct (known_good cfg sec Hcfg _ _ _ R K) as [F G].
    destruct (snap_local cfg sec _ _ _ _ _ _ _ G eq_refl) as (-> & lim & g & <- & Rg & _ & _ & _).
    exists (packed g). split.
    - destruct (is_packed (sy_fo s) (Some (root_ix g, sec, o))) as [r fo'] eqn:E. exists fo'. rewrite E. unfold is_packed in E.
      eapply (read_rd sec) with (P := edge_needs g) in E; [|exact F|apply rf_is_packed0|eapply is_packed0_edge; [exact Rg|apply depth_ok]].
      destruct E as (_ & _ & E). now rewrite (E RR H).
    - intros fo x' Ff (fo' & E). unfold is_packed in E.
      eapply (read_rd sec) with (P := edge_needs g) in E; [|exact Ff|apply rf_is_packed0|eapply is_packed0_edge; [exact Rg|apply depth_ok]].
      destruct E as (_ & [E|(e & E)] & _); congruence.
  Qed.
End Props.

(** * A concrete case *)
Section Tests.
  Variable sec : Secrets.
  Variable s : @Store ITypes IBackend.
  Fixpoint edgeb (n : nat) (i : Index) : bool :=
    match i with
    | ILeaf _ => true
    | IBranch x =>
        match bi_link x with None => true | Some _ => bi_sealed x ||
          match n, PropsLocal.openb sec s x with
          | S n', Some cs => match rev cs with c :: _ => edgeb n' c | [] => false end
          | _, _ => false
          end
        end
    end.
  Lemma edgeb_ok n : forall i, edgeb n i = true -> right_edge sec s i.
  Proof.
    induction n as [|n IH]; intros [x|x] H; cbn [edgeb] in H; try apply edge_leaf;
      (destruct (bi_link x) as [l|] eqn:El; [|now apply edge_purged]); apply orb_prop in H as [H|H]; try now apply edge_sealed.
    destruct (PropsLocal.openb sec s x) as [cs|] eqn:Eo; [|discriminate]. apply PropsLocal.openb_ok in Eo.
    destruct (rev cs) as [|c rest] eqn:Er; [discriminate|]. rewrite <- (rev_involutive cs), Er in Eo. cbn in Eo.
    eapply edge_branch; [exact Eo|now apply IH].
  Qed.
End Tests.

Lemma C63_tail_case_of s off : reach anything ecfg esec s ->
  on_root (fun i => forallb (wayb esec (fo_store (sy_fo s)) 10 i) (seq off (icount i - off)) && edgeb esec (fo_store (sy_fo s)) 10 i) s = true ->
  exists i sec o, known s (Some (i, sec, o)) /\ right_edge esec (fo_store (sy_fo s)) i
    /\ forall k, off <= k < icount i -> way_to esec (fo_store (sy_fo s)) i k.
Proof.
  intros R H. apply on_root_ok in H as (i & sec & o & E & H). apply andb_prop in H as [H1 H2]. exists i, sec, o.
  split; [left; now symmetry|]. split; [exact (edgeb_ok _ _ _ _ H2)|]. intros k Hk. rewrite forallb_forall in H1.
  apply (wayb_ok _ _ 10). apply H1, in_seq. lia.
Qed.
(** In the state of [C63_case] the entries from 6 on can be collected, those from
    5 on cannot; the root is not sealed, and [is_packed] answers. *)
Example C63_tail_case :
  reach anything ecfg esec st5
  /\ (exists i sec o, known st5 (Some (i, sec, o)) /\ right_edge esec (fo_store (sy_fo st5)) i
        /\ forall k, 6 <= k < icount i -> way_to esec (fo_store (sy_fo st5)) i k)
  /\ on_root isealed st5 = false
  /\ rmap (@List.length _) (fst (collect_from (sy_fo st5) (snapshot (sy_b st5)) 6)) = Ok 6
  /\ isErr (fst (collect_from (sy_fo st5) (snapshot (sy_b st5)) 5)) = true
  /\ fst (is_packed (sy_fo st5) (snapshot (sy_b st5))) = Ok true.
Proof.
  splits; [exact st5_ok|apply C63_tail_case_of; [exact st5_ok|]|..]; vm_compute; reflexivity.
Qed.

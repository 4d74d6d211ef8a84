(** Properties of reading with only part of the blocks: C63. *)
From Coq Require Import List NArith ZArith Lia Bool String Arith.
From Verif Require Import Base BaseProofs Cbor Types Seq SeqProofs Query QuerySpec World Read Write Api Iter IterFrame History Spec IterSpec Ghost Frame ReadProofs Packable WriteProofs QueryProofs PackProofs RetainProofs RepairProofs NoPurged ApiProofs SysProofs HistProofs IterProofs IndexProofs Instance Example PropsWrite PropsRead PropsQuery PropsMaintain PropsIter.
Import ListNotations.

(** ** Specification *)

Section Spec.
  Context {T : Types} {X : Ext} {B : Backend T}.
  Variable sec : Secrets.
  Variable s : Store.

  (** The store holds the block of the branch [x]; it decodes to the children
      [cs]. *)
  Definition opens (x : BranchIndex) (cs : list Index) : Prop :=
    exists l d r, bi_link x = Some l /\ sblocks s l = Some d
      /\ deserialize_compressed (index_key sec) d = Ok (cs, r).

  (** Number of entries of a list of nodes. *)
  Definition total (cs : list Index) : nat := sum_nat (map icount cs).

  (** The blocks on the way from the node [i] down to its entry [off] are in the
      store. *)
  Inductive way_to : Index -> nat -> Prop :=
  | way_none i off : icount i <= off -> way_to i off
  | way_purged i off : ilink i = None -> way_to i off
  | way_leaf x l d off : li_link x = Some l -> sblocks s l = Some d -> way_to (ILeaf x) off
  | way_branch x pre c post off :
      opens x (pre ++ c :: post) -> total pre <= off < total pre + icount c ->
      way_to c (off - total pre) -> way_to (IBranch x) off.

  (** The blocks that a query needs to see below the node [i], whose first entry
      is at [off], are in the store: the leaves with a match, and the branches
      with a child that the query selects. *)
  Inductive in_view (q : Query) : nat -> Index -> Prop :=
  | view_purged off i : ilink i = None -> in_view q off i
  | view_leaf off x l d : li_link x = Some l -> sblocks s l = Some d -> in_view q off (ILeaf x)
  | view_leaf_none off x :
      any (q_containing q off x (repeat true (List.length (leaf_keys x)))) = false -> in_view q off (ILeaf x)
  | view_branch_none off x :
      any (q_intersecting q off x (repeat true (List.length (branch_sums x)))) = false -> in_view q off (IBranch x)
  | view_branch off x cs :
      opens x cs ->
      (forall pre c post, cs = pre ++ c :: post ->
         nth_error (q_intersecting q off x (repeat true (List.length (branch_sums x)))) (List.length pre) = Some true ->
         in_view q (off + total pre) c) ->
      in_view q off (IBranch x).
End Spec.

Section Props.
  Context {T : Types} {TL : TypesLaws T} {X : Ext} {XL : ExtLaws X}
          {B : Backend T} {BL : BackendLaws T B}.
  Variable cfg : Config.
  Variable sec : Secrets.
  Hypothesis Hcfg : config_ok cfg.
  Notation key := (index_key sec).

  Lemma opens_ext s s' x cs : (forall l, sblocks s' l = sblocks s l) -> opens sec s x cs -> opens sec s' x cs.
  Proof. intros H (l & d & r & H1 & H2 & H3). exists l, d, r. rewrite H. auto. Qed.
  Lemma opens_grow s s' x cs : (forall l d, sblocks s l = Some d -> sblocks s' l = Some d) -> opens sec s x cs -> opens sec s' x cs.
  Proof. intros H (l & d & r & H1 & H2 & H3). exists l, d, r. auto. Qed.
  Lemma way_ext s s' i off : (forall l d, sblocks s l = Some d -> sblocks s' l = Some d) -> way_to sec s i off -> way_to sec s' i off.
  Proof.
    intros H. induction 1; [now apply way_none|now apply way_purged|eapply way_leaf; [eassumption|apply H; eassumption]|].
    eapply way_branch; eauto using opens_grow.
  Qed.

  (** The block of a branch decodes to its children. *)
  Lemma opens_children lim s x cs cs' : store_ok s -> repr sec lim (TBranch x cs) -> opens sec s x cs' ->
    cs' = map root_ix cs /\ forall l, bi_link x = Some l -> branch_avail (map root_ix cs) l s.
  Proof.
    intros W R (l & d & r & H1 & H2 & H3). apply repr_branch in R as (_ & _ & _ & _ & blk & r' & A1 & A2 & _).
    rewrite A1 in H1. injection H1 as <-. pose proof (W _ _ H2) as E. apply digest_inj in E as <-.
    rewrite (deserialize_spec _ _ _ _ A2) in H3. destruct (fits _) eqn:F; [|discriminate]. injection H3 as <- <-.
    split; [easy|]. intros l E. rewrite A1 in E. injection E as <-. split; [eauto|easy].
  Qed.

  (** Leaves that can be decompressed. *)
  Definition lfits (t : tree) : Prop := forall x vs, sub t (TLeaf x vs) -> fits (vals_raw vs) = true.
  Lemma inv_lfits t lim : repr sec lim t -> inv cfg t -> lfits t.
  Proof. intros R I x vs H. pose proof (sub_inv _ _ _ I H) as I'. apply I'. Qed.
  Lemma relabel_lfits t t' : relabel t t' -> lfits t -> lfits t'.
  Proof.
    intros Hr F x vs Hs. apply sub_children in Hs as [E|(y & cs & c & -> & Hin & Hs)].
    - subst t'. destruct t; cbn in Hr; try discriminate; try easy. injection Hr as <- <-. apply (F _ _ (sub_refl _)).
    - destruct t; cbn in Hr; try discriminate; try (injection Hr as -> ->).
      destruct Hr as [_ ->]. apply (F x vs). clear F. induction Hs as [|x' cs' c' Hs IH Hin']; [eapply sub_step; [apply sub_refl|exact Hin]|]. eapply sub_step; eauto.
  Qed.
  Lemma lfits_child x cs c : lfits (TBranch x cs) -> In c cs -> lfits c.
  Proof.
    intros F Hin y vs Hs. apply (F y vs). clear F. induction Hs as [|x' cs' c' Hs IH Hin']; [eapply sub_step; [apply sub_refl|exact Hin]|]. eapply sub_step; eauto.
  Qed.

  Lemma snap_local Av Ps fo t i sec' o : snap_good cfg sec Av Ps fo t -> t = Some (i, sec', o) ->
    sec' = sec /\ exists lim g, root_ix g = i /\ repr sec lim g /\ keyed g /\ fullt g /\ lfits g.
  Proof.
    intros G ->. destruct G as (-> & lim & g & E & t0 & ((R & I & _) & _) & Hr). split; [easy|]. exists lim, g.
    splits; [exact E|eapply relabel_repr; eauto| | |].
    - eapply relabel_keyed; [exact Hr|]. eapply inv_keyed; eauto.
    - eapply relabel_full; [exact Hr|]. eapply inv_full; eauto.
    - eapply relabel_lfits; [exact Hr|]. eapply inv_lfits; eauto.
  Qed.

  Lemma rd_weaken_ok {A} (m : M A) (P Q : Store -> Prop) a :
    (forall s, store_ok s -> Q s -> P s) -> rd sec m P a -> rd sec m Q a.
  Proof. intros H Hm w r w' W E. destruct (Hm _ _ _ W E) as [H1 H2]. split; [exact H1|]. intros Rel HQ. apply H2; [exact Rel|]. apply H; [apply W|exact HQ]. Qed.

  Definition get_needs (t : tree) (off : nat) (s : Store) : Prop := way_to sec s (root_ix t) off.
  Lemma stable_get_needs t off : stable (get_needs t off).
  Proof. intros s s' H W. now apply (way_ext s). Qed.

  Lemma get0_way lim d : forall t off, repr sec lim t -> lfits t -> ilevel (root_ix t) < d ->
    rd sec (get0 sec d (root_ix t) off) (get_needs t off) (join (nth_error (content t) off)).
  Proof.
    revert lim. induction d as [|d IH]; intros lim t off R F Hd; [lia|].
    pose proof (length_content _ _ _ R) as Hlen.
    cbn [get0]. destruct (Nat.leb_spec (icount (root_ix t)) off) as [Hc|Hc].
    { replace (nth_error (content t) off) with (@None (option (K * V))) by (symmetry; apply nth_error_None; lia).
      apply rd_ret. }
    destruct t as [x vs|x|x cs|x]; cbn [root_ix node_info_of] in *.
    - pose proof R as (R1 & blk & r & R2 & R3 & R4). apply rd_load_leaf_from_link in R3 as (z & Z1 & Z2 & Z3 & Z4). rewrite R2.
      cbn in Hc.
      destruct (nth_error (leaf_keys x) off) as [k|] eqn:Ek; [|apply nth_error_None in Ek; lia].
      destruct (nth_error vs off) as [v|] eqn:Ev; [|apply nth_error_None in Ev; lia].
      assert (Hn : nth_error (content (TLeaf x vs)) off = Some (Some (k, v))).
      { cbn. rewrite nth_error_map. clear -Ek Ev. revert vs off Ek Ev. generalize (leaf_keys x).
        induction l as [|a l IH]; intros [|b vs] [|o] E1 E2; try discriminate; cbn in *;
          [congruence|auto]. }
      rewrite Hn. eapply rd_bind; [apply rf_load_leaf_from_link|apply stable_get_needs| |].
      + eapply rd_weaken; [|exact Z1]. intros s H. inversion H; subst; cbn in *; [lia|congruence|]. exists d0. congruence.
      + unfold child_at. rewrite (zs_get_spec _ vs off Z2 Z4), Ev, (F _ _ (sub_refl _)). cbn.
        eapply rd_mbind_lift with (a := v); [now left|reflexivity|apply rd_ret].
    - cbn in R. rewrite R. cbn [content]. rewrite nth_error_repeat by assumption. apply rd_ret.
    - pose proof R as R'. apply repr_branch in R as (Hne & Hcnt & _ & Hlv & blk & r & Hl & Hb & _ & Hch). rewrite Hl.
      assert (Hne' : map root_ix cs <> []) by (destruct cs; [congruence|discriminate]).
      assert (Hin : forall s, get_needs (TBranch x cs) off s -> exists cs', opens sec s x cs').
      { intros s H. unfold get_needs in H. cbn [root_ix] in H. inversion H; subst; cbn in *; [lia|congruence|eauto]. }
      eapply rd_bind; [apply rf_load_branch_cached|apply stable_get_needs|eapply rd_weaken_ok; [|apply rd_load_branch_cached; eassumption]|].
      { intros s W Hs. destruct (Hin s Hs) as (cs' & Ho).
        destruct (opens_children _ _ _ _ _ W R' Ho) as [_ H]. now apply H. }
      assert (Hc' : off < List.length (flat_map content cs)) by (cbn in Hlen, Hc; lia).
      cbn [br_children content].
      assert (G : forall off, off < List.length (flat_map content cs) ->
        rd sec ((fix go (cs : list Index) (offset : nat) : M (option (K * V)) :=
                 match cs with
                 | [] => fail EIndex
                 | c :: cs' =>
                     if Nat.ltb offset (icount c) then get0 sec d c offset
                     else go cs' (offset - icount c)
                 end) (map root_ix cs) off)
           (fun s => exists pre c post, map root_ix cs = pre ++ c :: post
                       /\ total pre <= off < total pre + icount c /\ way_to sec s c (off - total pre))
           (join (nth_error (flat_map content cs) off))).
      { cbn in Hd. rewrite Forall_map in Hlv. assert (F' : Forall lfits cs) by (apply Forall_forall; intros c Hi; eapply lfits_child; eauto).
        clear -IH Hch Hlv Hd F' TL XL BL.
        induction cs as [|c cs IHcs]; intros off Hoff; [cbn in Hoff; lia|].
        apply Forall_inv in Hch as Hc1. apply Forall_inv_tail in Hch.
        apply Forall_inv in Hlv as Hl1. apply Forall_inv_tail in Hlv.
        apply Forall_inv in F' as F1. apply Forall_inv_tail in F'.
        pose proof (length_content _ _ _ Hc1) as Hlen. cbn [map].
        destruct (Nat.ltb_spec off (icount (root_ix c))) as [Hlt|Hge].
        - cbn. rewrite nth_error_app1 by lia. eapply rd_weaken; [|eapply (IH _ c); [exact Hc1|exact F1|lia]].
          intros s (pre & c0 & post & E1 & E2 & E3). unfold get_needs. destruct pre as [|p pre].
          + cbn in E1, E3. injection E1 as <- _. rewrite Nat.sub_0_r in E3. exact E3.
          + cbn in E1. injection E1 as <- _. unfold total, sum_nat in E2. cbn in E2. lia.
        - rewrite nth_error_flat_map_skip by lia. rewrite Hlen.
          eapply rd_weaken; [|apply IHcs; auto].
          + intros s (pre & c0 & post & E1 & E2 & E3). destruct pre as [|p pre].
            * cbn in E1, E2. injection E1 as <- _. lia.
            * cbn in E1. injection E1 as <- E1. exists pre, c0, post. splits; [exact E1|..];
              change (total (root_ix c :: pre)) with (icount (root_ix c) + total pre) in *; [lia|lia|].
              rewrite Nat.sub_add_distr in E3. exact E3.
          + cbn in Hoff. rewrite app_length in Hoff. lia. }
      eapply rd_weaken_ok; [|apply G; lia]. intros s W H. unfold get_needs in H. cbn [root_ix] in H. inversion H; subst; cbn in *; [lia|congruence|].
      destruct (opens_children _ _ _ _ _ W R' H1) as [E _]. exists pre, c, post. splits; auto; try lia.
    - cbn in R. rewrite R. cbn [content]. rewrite nth_error_repeat by assumption. apply rd_ret.
  Qed.

  (** ** C63: reads need only the blocks on the way *)

  (** Whatever else was lost, [get] succeeds if the blocks on the way to the
      entry are there; C05 says that the result is the right one. *)
  Theorem C63_get s i sec' o off (RR : ReliableReads T B) :
    reach anything cfg sec s -> known s (Some (i, sec', o)) ->
    way_to sec (fo_store (sy_fo s)) i off ->
    exists c, answers (sy_fo s) (Some (i, sec', o)) c
      /\ gets (sy_fo s) (Some (i, sec', o)) off (entry c off).
  Proof.
    intros R K H. destruct (known_good cfg sec Hcfg _ _ _ R K) as [F G].
    destruct (snap_local _ _ _ _ _ _ _ G eq_refl) as (-> & lim & g & <- & Rg & _ & _ & Lg).
    assert (Bh : behind sec (Some (root_ix g, sec, o)) (Some g)) by (cbn; eauto).
    pose proof (behind_answers sec _ _ _ F Bh) as An. exists (ocontent (Some g)). split; [exact An|].
    destruct An as (_ & _ & An). unfold gets. destruct (get _ _ off) as [r fo'] eqn:E. specialize (An _ _ _ E). unfold get in E.
    eapply (read_rd sec) with (P := get_needs g off) in E; [|exact F|apply rf_get0|eapply get0_way; [exact Rg|exact Lg|apply depth_ok]].
    destruct E as (_ & _ & E). destruct An as [->|(e & ->)]; [eauto|].
    discriminate (E RR H).
  Qed.

  (** ** Iteration *)

  Section Need.
    Context {E : Type}.
    Variable q : Query.
    Variable mk : node_info -> E.
    Hypothesis Hq : q_sized q.
    Variable g : tree.
    Variable lim : N.
    Hypothesis Rg : repr sec lim g.
    Hypothesis Lg : lfits g.

    Definition pre (n : nat) (cs : list tree) : nat := sum_nat (map cnt (firstn n cs)).

    (** The nodes that the query selects, with their offsets. *)
    Inductive nsub : nat -> tree -> Prop :=
    | nsub_refl : nsub 0 g
    | nsub_step o x cs j c : nsub o (TBranch x cs) -> nth_error cs j = Some c ->
        nth_error (branch_mask q o x) j = Some true -> nsub (o + pre j cs) c.

    Lemma nsub_sub o t : nsub o t -> sub g t.
    Proof. induction 1 as [|o x cs j c H IH Hc Hm]; [constructor|]. eapply sub_step; [exact IH|]. eapply nth_error_In; eauto. Qed.

    Definition has (s : Store) (o : nat) (t : tree) : Prop :=
      match t with
      | TLeaf x _ => any (leaf_mask q o x) = true -> exists l d, li_link x = Some l /\ sblocks s l = Some d
      | TBranch x cs => any (branch_mask q o x) = true -> forall l, bi_link x = Some l -> branch_avail (map root_ix cs) l s
      | _ => True
      end.
    Definition have (s : Store) : Prop := forall o t, nsub o t -> has s o t.

    Lemma stable_have : stable have.
    Proof.
      intros s s' H Hv o t Ht. specialize (Hv _ _ Ht). destruct t; cbn in *; auto.
      - intros Ha. destruct (Hv Ha) as (l & d & H1 & H2). exists l, d. split; [exact H1|now apply H].
      - intros Ha l Hl. eapply stable_branch_avail; [exact H|auto].
    Qed.

    Lemma total_roots cs : total (map root_ix cs) = sum_nat (map cnt cs).
    Proof. unfold total. f_equal. rewrite map_map. reflexivity. Qed.

    Lemma any_nth f j : nth_error f j = Some true -> any f = true.
    Proof. intros H. apply existsb_exists. exists true. split; [eapply nth_error_In; eauto|easy]. Qed.

    Lemma view_nsub s : store_ok s -> in_view sec s q 0 (root_ix g) -> forall o t, nsub o t -> in_view sec s q o (root_ix t).
    Proof.
      intros W H. induction 1 as [|o x cs j c Hs IH Hc Hm]; [exact H|]. cbn [root_ix] in IH.
      pose proof (sub_repr _ _ _ _ Rg (nsub_sub _ _ Hs)) as R. pose proof (any_nth _ _ Hm) as Ha. unfold branch_mask in Ha, Hm.
      inversion IH; subst; cbn in *.
      - apply repr_branch in R as (_ & _ & _ & _ & blk & r & Hl & _). congruence.
      - congruence.
      - match goal with Ho : opens _ _ _ _, Hc : forall _ _ _, _ |- _ => rename Ho into H2; rename Hc into H3 end.
        destruct (opens_children _ _ _ _ _ W R H2) as [-> _].
        pose proof (nth_error_split _ _ Hc) as (p1 & p2 & -> & Hl).
        replace (pre j (p1 ++ c :: p2)) with (total (map root_ix p1)).
        + eapply H3; [rewrite map_app; reflexivity|]. now rewrite map_length, Hl.
        + rewrite total_roots. unfold pre. rewrite <- Hl, firstn_app, Nat.sub_diag, firstn_all. now rewrite app_nil_r.
    Qed.

    Lemma view_have s : store_ok s -> in_view sec s q 0 (root_ix g) -> have s.
    Proof.
      intros W H o t Ht. pose proof (view_nsub s W H _ _ Ht) as Hv. pose proof (sub_repr _ _ _ _ Rg (nsub_sub _ _ Ht)) as R.
      destruct t as [x vs|x|x cs|x]; cbn [has root_ix] in *; auto; intros Ha.
      - unfold leaf_mask in Ha. inversion Hv; subst; cbn in *; [|eauto|congruence].
        destruct R as (_ & blk & r & R & _). congruence.
      - unfold branch_mask in Ha. intros l Hl. inversion Hv; subst; cbn in *; [congruence|congruence|].
        match goal with Ho : opens _ _ _ _ |- _ => destruct (opens_children _ _ _ _ _ W R Ho) as [_ K]; now apply K end.
    Qed.

    Section Mode.
      Variable m : mode.
      Definition done_off (o : nat) (t : tree) : nat := match m with Forward => o + cnt t | Backward => o end.
      Definition start_off (o : nat) (t : tree) : nat := match m with Forward => o | Backward => o + cnt t end.

      Inductive nbelow : list tstate -> nat -> Prop :=
      | nb_nil off : nbelow [] off
      | nb_cons o x cs n st :
          nsub o (TBranch x cs) -> any (branch_mask q o x) = true -> live m n (List.length cs) ->
          nbelow st (done_off o (TBranch x cs)) ->
          nbelow (frame_at x (pos m n) (branch_mask q o x) :: st) (o + pre (adv m n) cs).
      Inductive ntop : list tstate -> nat -> Prop :=
      | nt_nil off : ntop [] off
      | nt_fresh o t st : nsub o t -> nbelow st (done_off o t) -> ntop (ts_new (root_ix t) :: st) (start_off o t)
      | nt_frame o x cs n st :
          nsub o (TBranch x cs) -> any (branch_mask q o x) = true -> n <= List.length cs ->
          nbelow st (done_off o (TBranch x cs)) ->
          ntop (frame_at x (pos m n) (branch_mask q o x) :: st) (o + pre n cs).

      Lemma branch_facts o x cs : nsub o (TBranch x cs) ->
        cs <> [] /\ cnt (TBranch x cs) = pre (List.length cs) cs /\ List.length (branch_mask q o x) = List.length cs.
      Proof.
        intros H. pose proof (sub_repr _ _ _ _ Rg (nsub_sub _ _ H)) as R. apply repr_branch in R as (H1 & H2 & H3 & _).
        split; [exact H1|]. split.
        - unfold cnt, pre. cbn [root_ix icount]. rewrite H2, firstn_all, map_map. reflexivity.
        - rewrite branch_mask_length by exact Hq. exact H3.
      Qed.

      Lemma ascend_ntop h st off : nbelow st off -> ntop (ascend m (h :: st)) off.
      Proof.
        intros H. destruct H as [|o x cs n st H1 H2 H3 H4]; [constructor|]. cbn [ascend].
        destruct (branch_facts _ _ _ H1) as (F1 & F2 & F3).
        destruct (next_pos_frame m x _ _ _ F3 H3) as [-> H5]. now constructor.
      Qed.

      Definition it_need (it : titer E) : Prop :=
        ti_sec it = sec /\ ti_mode it = m /\ ti_query it = q /\ ntop (ti_stack it) (ti_off it).

      Lemma move_off_inv off n w r w' : move_off m off n w = (r, w') ->
        (exists p, r = Panic p) \/ (r = Ok (moved m off n) /\ w' = w).
      Proof.
        destruct m; cbn [move_off moved]; [intros [= <- <-]; auto|]. destruct (Nat.ltb _ _); intros [= <- <-]; eauto.
      Qed.
      Lemma at_pos_inv {A} (l : list A) p a w : (0 <= p)%Z -> nth_error l (Z.to_nat p) = Some a -> at_pos l p w = (Ok a, w).
      Proof. intros H En. unfold at_pos. destruct (Z.ltb_spec p 0); [lia|]. now rewrite En. Qed.

      Definition fine {A} (r : res A) (P : A -> Prop) : Prop :=
        match r with Ok a => P a | Err _ => False | _ => True end.

      Lemma it_need_set it off st : it_need it -> ntop st off -> it_need (ti_set it off st).
      Proof. intros (H1 & H2 & H3 & _) H. unfold it_need. cbn. splits; auto. Qed.

      Lemma moved_start o t : moved m (start_off o t) (cnt t) = done_off o t.
      Proof. unfold moved, start_off, done_off. destruct m; lia. Qed.

      Lemma skip_need it h st o t r w w' (c : chunk E) : it_need it -> ti_off it = start_off o t -> nbelow st (done_off o t) ->
        mbind (move_off m (ti_off it) (cnt t)) (fun off => ret (ti_set it off (ascend m (h :: st)), Some (Some c))) w = (r, w') ->
        fine r (fun p => it_need (fst p)).
      Proof.
        intros Ho Eo Hb. unfold mbind. destruct (move_off m _ _ w) as [r1 w1] eqn:Em.
        apply move_off_inv in Em as [(p & ->)|[-> ->]]; [intros [= <- <-]; exact Logic.I|].
        intros [= <- <-]. cbn [fine fst]. apply it_need_set; [exact Ho|]. rewrite Eo, moved_start. now apply (ascend_ntop h).
      Qed.

      (** A turn at a branch in progress, or at one that was just entered. *)
      Lemma frame_need it o x cs n st l w r w' : it_need it -> nsub o (TBranch x cs) -> any (branch_mask q o x) = true ->
        live m n (List.length cs) -> nbelow st (done_off o (TBranch x cs)) -> ti_off it = o + pre n cs -> bi_link x = Some l ->
        wok key w -> ReliableReads T B -> have (w_store w) ->
        mbind (load_branch_cached (ti_sec it) l) (fun b =>
          mbind (at_pos (branch_mask q o x) (pos m n)) (fun bit =>
          mbind (at_pos (br_children b) (pos m n)) (fun c =>
            let head' := {| ts_index := IBranch x; ts_pos := pos m n; ts_filter := branch_mask q o x |} in
            if bit then ret (ti_set it (ti_off it) (ts_new c :: head' :: st), None)
            else mbind (move_off m (ti_off it) (icount c)) (fun off =>
                   ret (ti_set it off (next_pos m head' :: st),
                        Some (Some (visit_skip it (range_at m (ti_off it) (icount c)) (node_info_of c)))))))) w = (r, w') ->
        fine r (fun p => it_need (fst p)).
      Proof.
        intros Ho Hn Ha Hlive Hb Eo El W RR Hv. pose proof Ho as (-> & _).
        pose proof (sub_repr _ _ _ _ Rg (nsub_sub _ _ Hn)) as R. destruct (branch_facts _ _ _ Hn) as (F1 & F2 & F3).
        apply repr_branch in R as (_ & _ & _ & _ & blk & rr & Hl & Hbb & _). rewrite El in Hl. injection Hl as ->.
        assert (Hne' : map root_ix cs <> []) by (destruct cs; [congruence|discriminate]).
        unfold mbind at 1. destruct (load_branch_cached sec (digest blk) w) as [rb w1] eqn:Elb.
        destruct (rd_load_branch_cached sec _ _ _ Hbb Hne' _ _ _ W Elb) as [_ Hok].
        rewrite Hok; [|exact RR|exact (Hv _ _ Hn Ha _ El)]. cbn [br_children].
        destruct (pend_cons m n _ cs F3 Hlive) as (b & c & P1 & P2 & P3 & _ & _ & P6 & P7).
        unfold mbind at 1. rewrite (at_pos_inv _ _ _ _ P1 P2). unfold mbind at 1.
        rewrite (at_pos_inv _ _ (root_ix c) _ P1) by now apply map_nth_error. cbn zeta.
        fold (frame_at x (pos m n) (branch_mask q o x)).
        assert (Hpre : forall j c', nth_error cs j = Some c' -> pre (S j) cs = pre j cs + cnt c').
        { intros j c' Hj. unfold pre. rewrite (firstn_nth _ _ _ Hj), map_app, sum_nat_app. unfold sum_nat at 2. cbn. lia. }
        assert (Hs : start_off (o + pre (Z.to_nat (pos m n)) cs) c = o + pre n cs
                     /\ done_off (o + pre (Z.to_nat (pos m n)) cs) c = o + pre (adv m n) cs).
        { clear -P3 Hlive Hpre. pose proof (Hpre _ _ P3) as Hp. unfold start_off, done_off; destruct m; cbn [pos adv live] in *.
          - rewrite Nat2Z.id in *. rewrite Hp. split; lia.
          - destruct n as [|n]; [lia|]. replace (Z.to_nat (Z.of_nat (S n) - 1)) with n in * by lia. replace (S n - 1) with n by lia. split; lia. }
        destruct Hs as [Hs1 Hs2]. destruct b.
        - intros [= <- <-]. cbn [fine fst]. apply it_need_set; [exact Ho|]. rewrite Eo, <- Hs1. constructor.
          + eapply nsub_step; eauto.
          + rewrite Hs2. now constructor.
        - unfold mbind at 1. destruct (move_off m _ _ w1) as [r1 w2] eqn:Em.
          apply move_off_inv in Em as [(p & ->)|[-> ->]]; [intros [= <- <-]; exact Logic.I|].
          intros [= <- <-]. cbn [fine fst]. apply it_need_set; [exact Ho|].
          destruct (next_pos_frame m x _ _ _ F3 Hlive) as [-> H5].
          rewrite Eo, <- Hs1. fold (cnt c). rewrite moved_start, Hs2. now constructor.
      Qed.

      Lemma tstep_need it w r w' : it_need it -> wok key w -> ReliableReads T B -> have (w_store w) ->
        tstep it w = (r, w') -> fine r (fun p => it_need (fst p)).
      Proof.
        intros Ho W RR Hv. pose proof Ho as (E1 & E2 & E3 & Ht). unfold tstep. rewrite E2.
        inversion Ht as [off Es Eo|o t st Hn Hb Es Eo|o x cs n st Hn Ha Hle Hb Es Eo].
        - intros [= <- <-]. exact Ho.
        - rewrite Eo, new_not_exhausted. cbn [ts_index ts_new ts_filter ts_pos is_nil andb].
          pose proof (sub_repr _ _ _ _ Rg (nsub_sub _ _ Hn)) as R. symmetry in Eo.
          change (icount (root_ix t)) with (cnt t).
          assert (Hr : fst (range_at m (ti_off it) (cnt t)) = o) by (rewrite Eo; unfold start_off; destruct m; cbn [range_at fst]; lia).
          destruct t as [x vs|x|x cs|x]; cbn [root_ix node_info_of].
          + destruct R as (Hlen & blk & rr & Hl & Hb' & _). rewrite Hl, Hr, E3. fold (leaf_mask q o x).
            unfold mbind at 1. destruct (visit_leaf it _ x _ _ w) as [rv w1] eqn:Ev.
            assert (Hrv : exists c, rv = Ok c).
            { unfold visit_leaf, mbind at 1 in Ev. rewrite E1 in Ev. destruct (any (leaf_mask q o x)) eqn:Ea.
              - unfold mbind at 1 in Ev. destruct (load_leaf_from_link sec (digest blk) w) as [rl w2] eqn:Ell.
                apply rd_load_leaf_from_link in Hb' as (z & Z1 & Z2 & Z3 & Z4).
                destruct (Z1 _ _ _ W Ell) as [_ Z5]. rewrite Z5 in Ev.
                + unfold mbind at 1, lift in Ev. pose proof (zs_select_spec z vs (leaf_mask q o x) Z2 Z4) as Hsel.
                  rewrite (Lg _ _ (nsub_sub _ _ Hn)) in Hsel. rewrite Hsel in Ev. injection Ev as <- <-. eauto.
                + exact RR.
                + destruct (Hv _ _ Hn Ea) as (l & d & H1 & H2). rewrite Hl in H1. injection H1 as <-. eauto.
              - injection Ev as <- <-. eauto. }
            destruct Hrv as (c & ->). change (List.length (leaf_keys x)) with (cnt (TLeaf x vs)). now apply skip_need with (o := o).
          + cbn in R. rewrite R. change (icount (ILeaf x)) with (cnt (TLeafP x)). now apply skip_need with (o := o).
          + destruct (branch_facts _ _ _ Hn) as (F1 & F2 & F3).
            assert (Hl : exists l, bi_link x = Some l) by (apply repr_branch in R as (_ & _ & _ & _ & blk & rr & Hl & _); eauto).
            destruct Hl as (l & Hl). rewrite Hl, Hr, E3. fold (branch_mask q o x).
            destruct (any (branch_mask q o x)) eqn:Ea; cbn [negb].
            * assert (Hlive : live m (first m (List.length cs)) (List.length cs)).
              { destruct cs; [congruence|]. destruct m; cbn; lia. }
              apply repr_branch in R as (_ & _ & Hlen & _).
              replace (first_pos m (List.length (branch_sums x))) with (pos m (first m (List.length cs))) by (rewrite Hlen; now destruct m).
              eapply frame_need; eauto. rewrite Eo. unfold start_off. rewrite F2. destruct m; cbn [first]; [|easy]. unfold pre. cbn. lia.
            * change (icount (IBranch x)) with (cnt (TBranch x cs)). now apply skip_need with (o := o).
          + cbn in R. rewrite R. change (icount (IBranch x)) with (cnt (TBranchP x)). now apply skip_need with (o := o).
        - rewrite Eo. destruct (branch_facts _ _ _ Hn) as (F1 & F2 & F3). destruct (exhausted m _) eqn:Hx.
          + intros [= <- <-]. cbn [fine fst]. apply it_need_set; [exact Ho|]. apply (ascend_ntop (frame_at x (pos m n) (branch_mask q o x))). rewrite <- Eo.
            replace (o + pre n cs) with (done_off o (TBranch x cs)); [exact Hb|].
            unfold exhausted, frame_at in Hx. cbn [ts_filter ts_pos] in Hx. unfold done_off. destruct m; cbn [pos] in Hx.
            * apply andb_prop in Hx as [_ Hx]. apply Z.leb_le in Hx. rewrite F2. replace n with (List.length cs) by lia. reflexivity.
            * apply Z.ltb_lt in Hx. replace n with 0 by lia. unfold pre. cbn. lia.
          + pose proof (not_exhausted m x _ cs n F3 F1 Hle Hx) as Hlive.
            assert (Hl : exists l, bi_link x = Some l).
            { pose proof (sub_repr _ _ _ _ Rg (nsub_sub _ _ Hn)) as R. apply repr_branch in R as (_ & _ & _ & _ & blk & rr & Hl & _). eauto. }
            destruct Hl as (l & Hl). cbn [ts_index frame_at ts_filter ts_pos node_info_of]. rewrite Hl.
            assert (Hnil : is_nil (branch_mask q o x) = false) by (destruct (branch_mask q o x); [discriminate|easy]).
            rewrite Hnil. cbn [andb]. eapply frame_need; eauto.
      Qed.

      Lemma tloop_need fuel : forall it w r it' w', it_need it -> wok key w -> ReliableReads T B -> have (w_store w) ->
        tloop fuel it w = (r, it', w') -> (forall e, r <> Err e) /\ it_need it'.
      Proof.
        induction fuel as [|fuel IH]; intros it w r it' w' Ho W RR Hv; cbn [tloop]; [intros [= <- <- <-]; easy|].
        destruct (tstep it w) as [r1 w1] eqn:Et. pose proof (tstep_need _ _ _ _ Ho W RR Hv Et) as Hf.
        pose proof (rf_tstep sec it (proj1 Ho) _ _ _ Et) as Fr.
        destruct r1 as [[it1 [o|]]|e|p|]; cbn [fine fst] in Hf; try easy.
        - intros [= <- <- <-]. easy.
        - apply IH; auto; [now apply Fr|]. eapply stable_have; [apply Fr|exact Hv].
        - intros [= <- <- <-]. easy.
        - intros [= <- <- <-]. easy.
      Qed.

      Definition oit_need (it : chunk_iter E) : Prop := match it with Some it => it_need it | None => True end.

      Lemma take_need n : forall fo (it : chunk_iter E) rs fo' it', oit_need it -> fok sec fo -> ReliableReads T B -> have (fo_store fo) ->
        take_chunks n fo it = (rs, fo', it') -> Forall (fun r => forall e, r <> Err e) rs.
      Proof.
        induction n as [|n IH]; intros fo it rs fo' it' Ho W RR Hv; cbn [take_chunks]; [intros [= <- _ _]; constructor|].
        destruct it as [it|]; [|cbn; intros [= <- _ _]; constructor].
        destruct (next_chunk fo (Some it)) as [[r fo1] it1] eqn:En. pose proof En as En'.
        apply (next_chunk_rext sec) in En' as [Fr _]; [|apply Ho].
        cbn [next_chunk] in En. destruct (tnext it _) as [[r2 it2] w2] eqn:Et. injection En as <- <- <-. unfold tnext in Et.
        destruct (tloop _ it _) as [[r3 it3] w3] eqn:El. apply tloop_need in El as [H1 H2]; [|exact Ho|exact W|exact RR|exact Hv].
        destruct r3 as [[c|]|e|p|]; injection Et as <- <- <-.
        - destruct (take_chunks n _ (Some it3)) as [[rs1 fo2] it4] eqn:Ec. intros [= <- _ _]. constructor; [easy|].
          eapply IH; [| | | |exact Ec]; [exact H2|now apply Fr|exact RR|]. eapply stable_have; [apply Fr|exact Hv].
        - intros [= <- _ _]. constructor.
        - now destruct (H1 e).
        - destruct (take_chunks n _ _) as [[rs1 fo2] it4] eqn:Ec. intros [= <- _ _]. constructor; [easy|].
          eapply IH; [| | | |exact Ec]; [|now apply Fr|exact RR|]; [|eapply stable_have; [apply Fr|exact Hv]].
          apply it_need_set; [exact H2|constructor].
        - destruct (take_chunks n _ _) as [[rs1 fo2] it4] eqn:Ec. intros [= <- _ _]. constructor; [easy|].
          eapply IH; [| | | |exact Ec]; [|now apply Fr|exact RR|]; [|eapply stable_have; [apply Fr|exact Hv]].
          apply it_need_set; [exact H2|constructor].
      Qed.
    End Mode.

    Lemma need_fw : oit_need Forward (Some (ti_new sec q mk (root_ix g))).
    Proof.
      unfold oit_need, it_need. cbn. splits; auto. apply (nt_fresh Forward 0 g); [constructor|constructor].
    Qed.
    Lemma need_bw : oit_need Backward (Some (ti_new_rev sec q mk (root_ix g))).
    Proof.
      unfold oit_need, it_need. cbn. splits; auto. apply (nt_fresh Backward 0 g); [constructor|constructor].
    Qed.
  End Need.

  Lemma follows_fine {A} (cs : list A) rs tl : follows cs (map Some rs ++ tl) -> (tl = [] \/ tl = [None]) ->
    Forall (fun r => forall e, r <> Err e) rs -> follows_ok cs (map Some rs ++ tl).
  Proof.
    intros H Ht. remember (map Some rs ++ tl) as l. revert rs Heql.
    induction H as [cs|c cs l H IH|cs e l H|l H]; intros rs El F.
    - constructor.
    - destruct rs as [|r rs]; cbn in El; [destruct Ht as [->| ->]; discriminate|]. injection El as <- El. inversion F; subst. constructor. eauto.
    - destruct rs as [|r rs]; cbn in El; [destruct Ht as [->| ->]; discriminate|]. injection El as <- El. inversion F; subst. now destruct (H2 e).
    - now constructor.
  Qed.

  (** Filtered iteration, in either direction, succeeds if the blocks that the
      query needs are there. The chunks are those of C06. *)
  Theorem C63_filtered {E} s i sec' o q m (mk : node_info -> E) (RR : ReliableReads T B) :
    reach anything cfg sec s -> known s (Some (i, sec', o)) -> query_ok q m ->
    in_view sec (fo_store (sy_fo s)) q 0 i ->
    exists c cs, answers (sy_fo s) (Some (i, sec', o)) c
      /\ flat_map c_data cs = matches m 0 c
      /\ forall n rs fo' it',
           (take_chunks n (sy_fo s) (iter_filtered_chunked (Some (i, sec', o)) q mk) = (rs, fo', it') -> rs = map Ok (firstn n cs))
           /\ (take_chunks n (sy_fo s) (iter_filtered_chunked_reverse (Some (i, sec', o)) q mk) = (rs, fo', it') ->
               rs = map Ok (firstn n (rev cs))).
  Proof.
    intros R K Q Hv. destruct (known_good cfg sec Hcfg _ _ _ R K) as [F G]. apply (reach_ok cfg sec Hcfg) in R as S.
    pose proof (query_sized _ _ Q) as Hq.
    destruct (snap_local _ _ _ _ _ _ _ G eq_refl) as (-> & lim & g & <- & Rg & Kg & Fg & Lg).
    assert (Bh : behind sec (Some (root_ix g, sec, o)) (Some g)) by (cbn; eauto).
    pose proof (view_have q g lim Rg (fo_store (sy_fo s)) (proj1 F) Hv) as Hh.
    exists (content g), (chunks q mk 0 g). split; [exact (behind_answers sec _ _ _ F Bh)|].
    split; [apply (expected_matches sec q m mk (Some g) _ Q Bh); now split|].
    cbn [iter_filtered_chunked iter_filtered_chunked_reverse].
    pose proof (start_fw sec q mk g) as [Hf1 Hf2]. pose proof (start_bw sec q mk g) as [Hb1 Hb2].
    intros n rs fo' it'. split; intros H.
    - pose proof (take_need q Hq g lim Rg Lg Forward _ _ _ _ _ _ (need_fw q mk g) F RR Hh H) as Hn. pose proof (take_len _ _ _ _ _ _ H) as Hlen.
      destruct (take_pulls anything _ _ _ _ _ _ H) as (tl & T1 & T2 & T3).
      eapply pulls_follow in T3 as [T3 _]; eauto. rewrite Hf2 in T3. eapply follows_ok_firstn; eauto. now apply follows_fine.
    - pose proof (take_need q Hq g lim Rg Lg Backward _ _ _ _ _ _ (need_bw q mk g) F RR Hh H) as Hn. pose proof (take_len _ _ _ _ _ _ H) as Hlen.
      destruct (take_pulls anything _ _ _ _ _ _ H) as (tl & T1 & T2 & T3).
      eapply pulls_follow in T3 as [T3 _]; eauto. rewrite Hb2 in T3. eapply follows_ok_firstn; eauto. now apply follows_fine.
  Qed.
End Props.

(** * Concrete cases *)

(** Tests of the two premises. *)
Section Tests.
  Context {T : Types} {X : Ext} {B : Backend T}.
  Variable sec : Secrets.
  Variable s : Store.

  Definition openb (x : BranchIndex) : option (list Index) :=
    match bi_link x with
    | Some l =>
        match sblocks s l with
        | Some d => match deserialize_compressed (index_key sec) d with Ok (cs, _) => Some cs | _ => None end
        | None => None
        end
    | None => None
    end.
  Lemma openb_ok x cs : openb x = Some cs -> opens sec s x cs.
  Proof.
    unfold openb, opens. destruct (bi_link x) as [l|]; [|discriminate]. destruct (sblocks s l) as [d|] eqn:Es; [|discriminate].
    destruct (deserialize_compressed _ d) as [[cs' r]|e|p|] eqn:Ed; try discriminate. intros [= <-]. exists l, d, r. auto.
  Qed.

  Fixpoint wayb (n : nat) (i : Index) (off : nat) : bool :=
    match i with
    | ILeaf x => match li_link x with Some l => match sblocks s l with Some _ => true | None => false end | None => true end
    | IBranch x =>
        match n, openb x with
        | S n', Some cs =>
            (fix go (cs : list Index) (off : nat) : bool :=
               match cs with
               | [] => false
               | c :: cs' => if Nat.ltb off (icount c) then wayb n' c off else go cs' (off - icount c)
               end) cs off
        | _, _ => match bi_link x with None => true | Some _ => false end
        end
    end.
  Lemma wayb_ok n : forall i off, wayb n i off = true -> way_to sec s i off.
  Proof.
    assert (Hp : forall x off, match bi_link x with None => true | Some _ => false end = true -> way_to sec s (IBranch x) off).
    { intros x off H. apply way_purged. cbn. now destruct (bi_link x). }
    induction n as [|n IH]; intros [x|x] off H; cbn [wayb] in H.
    1,3: destruct (li_link x) as [l|] eqn:El; [destruct (sblocks s l) as [d|] eqn:Es; [eapply way_leaf; eauto|discriminate]|now apply way_purged].
    - now apply Hp.
    - destruct (openb x) as [cs|] eqn:Eo; [|now apply Hp]. apply openb_ok in Eo.
      assert (G : forall cs off, (fix go (cs : list Index) (off : nat) : bool :=
               match cs with
               | [] => false
               | c :: cs' => if Nat.ltb off (icount c) then wayb n c off else go cs' (off - icount c)
               end) cs off = true ->
               exists pre c post, cs = pre ++ c :: post /\ total pre <= off < total pre + icount c /\ way_to sec s c (off - total pre)).
      { clear -IH. induction cs as [|c cs IHcs]; intros off H; [discriminate|]. destruct (Nat.ltb_spec off (icount c)) as [Hl|Hl].
        - exists [], c, cs. cbn. rewrite Nat.sub_0_r. splits; auto; lia.
        - destruct (IHcs _ H) as (pre & c' & post & -> & H1 & H2). exists (c :: pre), c', post.
          change (total (c :: pre)) with (icount c + total pre). rewrite Nat.sub_add_distr. splits; auto; lia. }
      destruct (G _ _ H) as (pre & c & post & -> & H1 & H2). eapply way_branch; eauto.
  Qed.

  Variable q : Query.
  Fixpoint viewb (n : nat) (off : nat) (i : Index) : bool :=
    match i with
    | ILeaf x =>
        match li_link x with Some l => match sblocks s l with Some _ => true | None => false end | None => true end
        || negb (any (q_containing q off x (repeat true (List.length (leaf_keys x)))))
    | IBranch x =>
        let f := q_intersecting q off x (repeat true (List.length (branch_sums x))) in
        negb (any f) ||
        match n, openb x with
        | S n', Some cs =>
            (fix go (off : nat) (f : list bool) (cs : list Index) {struct cs} : bool :=
               match cs with
               | [] => true
               | c :: cs' =>
                   (match f with true :: _ => viewb n' off c | _ => true end) && go (off + icount c) (tl f) cs'
               end) off f cs
        | _, _ => match bi_link x with None => true | Some _ => false end
        end
    end.
  Lemma viewb_ok n : forall off i, viewb n off i = true -> in_view sec s q off i.
  Proof.
    assert (Hp : forall x off, match bi_link x with None => true | Some _ => false end = true -> in_view sec s q off (IBranch x)).
    { intros x off H. apply view_purged. cbn. now destruct (bi_link x). }
    induction n as [|n IH]; intros off [x|x] H; cbn [viewb] in H; apply orb_prop in H as [H|H].
    1,5: destruct (li_link x) as [l|] eqn:El; [destruct (sblocks s l) as [d|] eqn:Es; [eapply view_leaf; eauto|discriminate]|now apply view_purged].
    1,4: apply view_leaf_none; now apply negb_true_iff.
    1,3: apply view_branch_none; now apply negb_true_iff.
    - now apply Hp.
    - destruct (openb x) as [cs|] eqn:Eo; [|now apply Hp]. apply openb_ok in Eo. eapply view_branch; [exact Eo|].
      revert H. generalize (q_intersecting q off x (repeat true (List.length (branch_sums x)))). clear Eo. revert off.
      induction cs as [|c cs IHcs]; intros off f H pre c' post E Hn; [destruct pre; discriminate|].
      apply andb_prop in H as [H1 H2]. destruct pre as [|p pre]; cbn in E; injection E as <- E.
      + unfold total, sum_nat. cbn. rewrite Nat.add_0_r. destruct f as [|[|] f]; try discriminate. now apply IH.
      + change (total (c :: pre)) with (icount c + total pre). rewrite Nat.add_assoc. eapply IHcs; eauto.
        destruct f as [|b f]; [now destruct pre|exact Hn].
  Qed.
End Tests.

(** The store lost all but the twelve newest blocks of the packed tree of twelve
    entries, and the cache is empty: entry 7 can still be read, and so can the
    entries 6 to 9 by a query, while entry 2 and the whole tree cannot. *)
Definition q69 : @Query ITypes := offset_range_query (range_of 6 9).
Definition on_root (f : @Index ITypes -> bool) (s : @sys ITypes IBackend) : bool :=
  match snapshot (sy_b s) with Some (i, _, _) => f i | None => false end.
Lemma on_root_ok f s : on_root f s = true -> exists i sec o, snapshot (sy_b s) = Some (i, sec, o) /\ f i = true.
Proof. unfold on_root. destruct (snapshot (sy_b s)) as [[[i sec] o]|]; [eauto|discriminate]. Qed.

Lemma C63_case_of s off q : reach anything ecfg esec s ->
  on_root (fun i => wayb esec (fo_store (sy_fo s)) 10 i off && viewb esec (fo_store (sy_fo s)) q 10 0 i) s = true ->
  exists i sec o, known s (Some (i, sec, o)) /\ way_to esec (fo_store (sy_fo s)) i off
    /\ in_view esec (fo_store (sy_fo s)) q 0 i.
Proof.
  intros R H. apply on_root_ok in H as (i & sec & o & E & H). apply andb_prop in H as [H1 H2]. exists i, sec, o.
  split; [left; now symmetry|]. split; [exact (wayb_ok _ _ _ _ _ H1)|exact (viewb_ok _ _ _ _ _ _ H2)].
Qed.
Example C63_case :
  reach anything ecfg esec st5 /\ query_ok q69 (fun o _ => range_contains (range_of 6 9) o)
  /\ (exists i sec o, known st5 (Some (i, sec, o)) /\ way_to esec (fo_store (sy_fo st5)) i 7
        /\ in_view esec (fo_store (sy_fo st5)) q69 0 i)
  /\ isErr (fst (get (sy_fo st5) (snapshot (sy_b st5)) 2)) = true
  /\ isErr (fst (collect (sy_fo st5) (snapshot (sy_b st5)))) = true
  /\ gets (sy_fo st5) (snapshot (sy_b st5)) 7 (Some (7%N, 107%N))
  /\ flatten_chunks (items 100 (sy_fo st5) (iter_filtered_chunked (snapshot (sy_b st5)) q69 unit_of))
     = map Ok (map (fun i => (i, N.of_nat i, N.of_nat (100 + i))) [6; 7; 8]).
Proof.
  splits; [exact st5_ok|apply C37_offset_range|apply C63_case_of; [exact st5_ok|]|..|apply gets_c|]; vm_compute; reflexivity.
Qed.

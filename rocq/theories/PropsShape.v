(** Properties of the written blocks and of the shape of trees: C13, C14, C33. *)
From Coq Require Import List NArith ZArith Lia Bool String Arith.
From Verif Require Import Base BaseProofs Cbor CborProofs Types Seq SeqProofs Query QuerySpec World Read Write Api Iter History Spec Ghost Frame ReadProofs Packable WriteProofs QueryProofs PackProofs RetainProofs RepairProofs NoPurged ApiProofs SysProofs HistProofs Instance Example PropsRead PropsIndex.
Import ListNotations.

Section Props.
  Context {T : Types} {TL : TypesLaws T} {X : Ext} {XL : ExtLaws X}
          {B : Backend T} {BL : BackendLaws T B}.
  Variable cfg : Config.
  Variable sec : Secrets.
  Hypothesis Hcfg : config_ok cfg.

  (** The keystream range recorded in a block: where it starts, and where it
      ends according to the number of encrypted bytes. *)
  Definition block_range (blk : bytes) (r : N * N) : Prop :=
    exists ls d rest,
      checked_prefix blk = Some (CArr [CUint (fst r); ls; CBytes d], rest)
      /\ snd r = (fst r + Nlen d)%N.

  Lemma block_range_det blk r r' : block_range blk r -> block_range blk r' -> r = r'.
  Proof.
    destruct r as [a b], r' as [a' b']. intros (ls & d & rest & E & H) (ls' & d' & rest' & E' & H'). cbn in *.
    rewrite E in E'. injection E' as <- _ <- _. congruence.
  Qed.

  Lemma payload_range key blk raw r : block_payload key blk raw r -> block_range blk r.
  Proof.
    intros (off & ls & d & H & _ & -> & _). unfold decode_block in H.
    destruct (checked_prefix blk) as [[c rest]|] eqn:E; [|discriminate].
    repeat match type of H with (match ?x with _ => _ end) = _ => destruct x; try discriminate H end.
    injection H as <- _ <-. eexists _, _, _. split; [exact E|reflexivity].
  Qed.

  Lemma ev_wf_range e : ev_wf e -> block_range (ev_block e) (ev_off e, ev_end e).
  Proof.
    intros (ls & p & E & Ok & Hl & _). rewrite <- (app_nil_r (ev_block e)), E.
    exists (CArr (map ccid ls)), (apply_keystream (ev_key e) nonce (ev_off e) p), []. rewrite checked_prefix_enc by exact Ok.
    split; [reflexivity|]. cbn. unfold ev_end. rewrite <- Hl. unfold Nlen. now rewrite apply_keystream_length.
  Qed.

  (** ** C13: keystream bytes are never used twice by a builder *)

  (** [e] was written before [e'], and ends where [e'] starts, or before. *)
  Definition before (e e' : event) : Prop := (ev_end e <= ev_off e')%N.

  Lemma ranges_pairs es : forall lo hi, ranges lo hi es ->
    Forall (fun e => block_range (ev_block e) (ev_off e, ev_end e) /\ (lo <= ev_off e)%N /\ (ev_off e < ev_end e)%N /\ (ev_end e <= hi)%N) es
    /\ ForallOrdPairs before es.
  Proof.
    induction es as [|e es IH]; intros lo hi H; [split; constructor|].
    cbn [ranges] in H. destruct H as (H1 & H2 & H3 & H4). pose proof (ranges_le _ _ _ H4) as H5.
    apply IH in H4 as [A1 A2]. unfold ev_end in *. split.
    - constructor; [splits; auto; try lia; now apply ev_wf_range|]. eapply Forall_impl; [|exact A1].
      cbn beta. intros e'. unfold ev_end. intuition lia.
    - constructor; [|exact A2]. eapply Forall_impl; [|exact A1]. cbn beta. intros e'. unfold before, ev_end. intuition lia.
  Qed.

  Section Kind.
    Variable k : kind.
    Notation sys_ok := (sys_good cfg sec (k_lose k = false) (k_repair k = false)).

    (** What a step that keeps the builder adds to log and, if nobody else
        writes to it, to the store. *)
    Definition logs (o : op) (s s' : sys) : Prop :=
      exists new, fo_log (sy_fo s') = fo_log (sy_fo s) ++ new
        /\ ranges (b_off (sy_b s)) (b_off (sy_b s')) new
        /\ (match o with OOthers _ _ => True | _ =>
              Alone T B -> forall l d, sblocks (fo_store (sy_fo s')) l = Some d ->
                sblocks (fo_store (sy_fo s)) l = Some d \/ exists e, In e new /\ ev_block e = d /\ l = digest d end).

    Lemma fext_logs o s s' : fext sec (sy_fo s) (b_off (sy_b s)) (sy_fo s') (b_off (sy_b s')) -> logs o s s'.
    Proof.
      intros (_ & _ & new & H1 & H2 & H3). exists new. splits; auto. destruct o; auto; intros Al l d H; apply H3 in H as [H|(e & G1 & G2 & G3)]; eauto.
    Qed.
    Lemma same_logs o s s' : fsame sec (sy_fo s) (sy_fo s') -> b_off (sy_b s') = b_off (sy_b s) -> logs o s s'.
    Proof. intros W E. apply fext_logs. rewrite E. now apply fsame_fext. Qed.
    Lemma quiet_logs o s s' : fo_log (sy_fo s') = fo_log (sy_fo s) -> b_off (sy_b s') = b_off (sy_b s) ->
      (match o with OOthers _ _ => True | _ =>
         forall l d, sblocks (fo_store (sy_fo s')) l = Some d -> sblocks (fo_store (sy_fo s)) l = Some d end) -> logs o s s'.
    Proof.
      intros H1 H2 H3. exists []. rewrite app_nil_r, H2. splits; auto; [cbn; lia|]. destruct o; auto.
    Qed.

    Lemma step_logs o s r s' : sys_ok s -> op_ok o s -> (forall n, o <> OReload n) -> exec o s = (r, s') -> logs o s s'.
    Proof.
      intros S Hok Hr E. pose proof S as ((n & I) & Hsaved & Hsnaps).
      pose proof (sys_b_eqs cfg sec k _ S) as [Es Ec]. pose proof (sys_fok cfg sec k _ S) as F.
      destruct o; cbn [exec] in E.
      - destruct (extend _ _ _) as [[r0 fo] b] eqn:E0. injection E as <- <-.
        destruct (extend_api cfg sec Hcfg _ _ _ _ _ _ _ _ _ I E0) as (W & _). now apply fext_logs.
      - destruct (push _ _ _ _) as [[r0 fo] b] eqn:E0. injection E as <- <-.
        destruct (extend_api cfg sec Hcfg _ _ _ _ _ _ _ _ _ I E0) as (W & _). now apply fext_logs.
      - destruct (extend_unpacked _ _ _) as [[r0 fo] b] eqn:E0. injection E as <- <-.
        destruct (extend_unpacked_api cfg sec Hcfg _ _ _ _ _ _ _ _ _ I E0) as (W & _). now apply fext_logs.
      - destruct (pack _ _) as [[r0 fo] b] eqn:E0. injection E as <- <-.
        destruct (pack_api cfg sec Hcfg _ _ _ _ _ _ _ _ I E0) as (W & _). now apply fext_logs.
      - destruct (retain _ _ _) as [[r0 fo] b] eqn:E0. injection E as <- <-.
        destruct (retain_api cfg sec _ _ _ _ _ _ _ _ _ _ I (any_purge_ok cfg sec q) E0) as (W & _). now apply fext_logs.
      - destruct (repair _ _) as [[r0 fo] b] eqn:E0. injection E as <- <-.
        destruct (repair_api cfg sec _ _ _ _ _ _ _ _ I E0) as (W & _). now apply fext_logs.
      - injection E as <- <-. apply quiet_logs; auto.
      - injection E as <- <-. apply quiet_logs; auto.
      - injection E as <- <-. apply quiet_logs; auto. unfold sy_b, tx_drop. cbn. now destruct (se_saved (sy_se s)).
      - injection E as <- <-. apply quiet_logs; auto.
      - now destruct (Hr n0).
      - destruct (obind _ _) as [l|] eqn:El; [|injection E as <- <-; now apply quiet_logs].
        destruct (nth_error (sy_snaps s) n0) as [t|] eqn:En; [|discriminate]. cbn in El.
        pose proof (Hok _ En) as Hbr. cbn in Hbr. pose proof (nth_error_Forall _ _ _ _ Hsnaps En) as Hg.
        destruct t as [[[i sec'] o]|]; [|discriminate]. destruct Hg as (-> & lim & t & Hg). cbn in El. rewrite Es in E.
        destruct (load_tree _ _ _) as [r0 fo] eqn:E0.
        destruct (load_tree_ok _ _ _ _ _ _ _ _ _ _ _ F Hg Hbr El E0) as (W & H1 & H2 & _).
        destruct H2 as [(b' & ->)|(e & ->)]; injection E as <- <-; now apply same_logs.
      - destruct (nth_error (sy_snaps s) n0) as [t|] eqn:En; [|injection E as <- <-; now apply quiet_logs].
        destruct (do_read _ _ _) as [r1 fo] eqn:E0. injection E as <- <-.
        pose proof (nth_error_Forall _ _ _ _ Hsnaps En) as Hg. apply (do_read_same _ _ _ _ _ _ _ _ _ Hg) in E0 as W. now apply same_logs.
      - destruct (check_invariants _ _) as [r1 fo] eqn:E0. injection E as <- <-.
        assert (W : fsame sec (sy_fo s) fo).
        { unfold check_invariants in E0. rewrite Es in E0. destruct (b_root (sy_b s)).
          - eapply (read_fsame sec); [|exact E0]. apply rf_check_invariants0.
          - injection E0 as <- <-. apply fsame_refl. }
        now apply same_logs.
      - injection E as <- <-. apply quiet_logs; auto.
      - injection E as <- <-. apply quiet_logs; auto.
      - injection E as <- <-. apply quiet_logs; auto.
    Qed.
  End Kind.

  (** One operation, whatever its outcome, other than continuing with a new
      builder: all blocks it hands to the store have a keystream range of their
      own, between the builder's offsets before and after; and if nobody else
      writes to the store, no other blocks are added. *)
  Theorem C13_step s o r s' :
    reach anything cfg sec s -> op_ok o s -> (forall n, o <> OReload n) -> exec o s = (r, s') ->
    exists new, fo_log (sy_fo s') = fo_log (sy_fo s) ++ new
      /\ Forall (fun e => block_range (ev_block e) (ev_off e, ev_end e)
                  /\ (b_off (sy_b s) <= ev_off e)%N /\ (ev_off e < ev_end e)%N /\ (ev_end e <= b_off (sy_b s'))%N) new
      /\ ForallOrdPairs before new
      /\ (b_off (sy_b s) <= b_off (sy_b s'))%N
      /\ (Alone T B -> (forall st c, o <> OOthers st c) -> forall l d, sblocks (fo_store (sy_fo s')) l = Some d ->
            sblocks (fo_store (sy_fo s)) l = Some d \/ exists e, In e new /\ ev_block e = d).
  Proof.
    intros R Hok Hr E. apply (reach_ok cfg sec Hcfg) in R.
    destruct (step_logs _ _ _ _ _ R Hok Hr E) as (new & H1 & H2 & H3).
    exists new. destruct (ranges_pairs _ _ _ H2) as [A1 A2]. apply ranges_le in H2. splits; auto.
    intros Al Ho l d Hd. destruct o; try now destruct (Ho s0 c).
    all: apply H3 in Hd as [Hd|(e & G1 & G2 & _)]; eauto.
  Qed.

  Lemma C13_ranges s0 s : reach anything cfg sec s0 -> hist no_reload s0 s ->
    exists new, fo_log (sy_fo s) = fo_log (sy_fo s0) ++ new /\ ranges (b_off (sy_b s0)) (b_off (sy_b s)) new.
  Proof.
    intros R H.
    assert (Hs : reach anything cfg sec s).
    { destruct R as (s1 & H1 & H2). exists s1. split; [exact H1|]. induction H; auto. econstructor; eauto. now destruct o. }
    induction H as [|s1 o r s2 H IH Hok Hin E].
    - exists []. rewrite app_nil_r. split; [easy|]. cbn. lia.
    - assert (R1 : reach anything cfg sec s1).
      { destruct R as (s3 & H1 & H2). exists s3. split; [exact H1|]. clear - H H2. induction H; auto. econstructor; eauto. now destruct o. }
      destruct (IH R1) as (n1 & E1 & L1). apply (reach_ok cfg sec Hcfg) in R1.
      assert (Hn : forall n, o <> OReload n) by (intros n ->; discriminate).
      destruct (step_logs _ _ _ _ _ R1 Hok Hn E) as (n2 & E2 & L2 & _).
      exists (n1 ++ n2). rewrite E2, E1, app_assoc. split; [easy|]. eapply ranges_app; eauto.
  Qed.

  (** During the life of a builder (from [s0] on, new or loaded from a link)
      no two blocks use a keystream byte twice, and none uses one that is not
      below the current offset. *)
  Theorem C13_disjoint s0 s :
    reach anything cfg sec s0 -> hist no_reload s0 s ->
    exists new, fo_log (sy_fo s) = fo_log (sy_fo s0) ++ new
      /\ Forall (fun e => block_range (ev_block e) (ev_off e, ev_end e)
                  /\ (b_off (sy_b s0) <= ev_off e)%N /\ (ev_off e < ev_end e)%N /\ (ev_end e <= b_off (sy_b s))%N) new
      /\ ForallOrdPairs before new.
  Proof.
    intros R H. destruct (C13_ranges _ _ R H) as (new & E & Hr). exists new. split; [exact E|]. now apply ranges_pairs.
  Qed.
  (** ** C14, C33: the nodes of a tree *)

  (** The nodes below [i], [i] included: the children recorded in its block,
      their children, and so on. *)
  Inductive at_or_below (i : Index) : Index -> Prop :=
  | below_root : at_or_below i i
  | below_child j cs c : at_or_below i j -> block_children sec j cs -> In c cs -> at_or_below i c.

  (** What every node of the trees of [cfg] is like. *)
  Definition node_ok (i : Index) : Prop :=
    match i with
    | ILeaf x => 1 <= List.length (leaf_keys x) <= max_leaf_count cfg
    | IBranch x =>
        forall l cs, bi_link x = Some l -> block_children sec i cs ->
          1 <= List.length cs
          /\ (bi_level x = 1 -> List.length cs <= max_key_branches cfg)
          /\ (1 < bi_level x -> List.length cs <= max_summary_branches cfg)
          /\ bi_level x = S (fold_right Nat.max 0 (map ilevel cs))
          /\ bi_count x = fold_right Nat.add 0 (map icount cs)
          /\ branch_sums x = map summarize cs
          /\ bi_vbytes x = fold_right N.add 0%N (map ivbytes cs)
    end.

  Inductive sub (t : tree) : tree -> Prop :=
  | sub_self : sub t t
  | sub_child x cs c : sub t (TBranch x cs) -> In c cs -> sub t c.

  Lemma below_sub t lim : repr sec lim t -> forall i, at_or_below (root_ix t) i ->
    exists u, sub t u /\ root_ix u = i /\ (exists lim', repr sec lim' u /\ (lim' <= lim)%N)
      /\ (u = t \/ exists x cs blk r lim', t = TBranch x cs /\ bi_link x = Some (digest blk) /\ branch_block (index_key sec) blk (map root_ix cs) r
                    /\ repr sec lim' u /\ (lim' <= fst r)%N).
  Proof.
    intros R i H. induction H as [|j cs c H IH Hc Hin].
    - exists t. splits; [constructor|easy| |now left]. exists lim. split; [exact R|lia].
    - destruct IH as (u & U1 & <- & (l1 & R1 & L1) & D). destruct u as [x vs|x|x us|x]; cbn [root_ix block_children] in Hc.
      1, 2: subst cs; easy.
      2: { cbn in R1. rewrite R1 in Hc. subst cs. easy. }
      pose proof R1 as R2. apply repr_branch in R2 as (_ & _ & _ & _ & blk & r & Hl & Hb & Hr & Hu).
      assert (E : map root_ix us = cs).
      { eapply (block_children_det sec (IBranch x)); [cbn; rewrite Hl; eauto|exact Hc]. }
      rewrite <- E in Hin. apply in_map_iff in Hin as (v & <- & Hv). rewrite Forall_forall in Hu. pose proof (Hu _ Hv) as Rv.
      exists v. pose proof (proj1 Hb) as Hp. destruct Hp as (o & ls & d & _ & _ & Ep & _).
      assert (Hfr : (fst r <= snd r)%N) by (rewrite Ep; cbn; lia).
      splits; [econstructor; eauto|easy|exists (fst r); split; [exact Rv|lia]|right].
      destruct D as [<-|(x0 & cs0 & blk0 & r0 & l0 & -> & D2 & D3 & D4 & D5)].
      + exists x, us, blk, r, (fst r). splits; auto. lia.
      + exists x0, cs0, blk0, r0, (fst r). splits; auto.
        apply repr_branch in D4 as (_ & _ & _ & _ & blk1 & r1 & Hl1 & Hb1 & Hr1 & _). rewrite Hl in Hl1. injection Hl1 as E1. apply digest_inj in E1 as <-.
        pose proof (block_range_det _ _ _ (payload_range _ _ _ _ (proj1 Hb)) (payload_range _ _ _ _ (proj1 Hb1))) as <-. lia.
  Qed.

  Lemma repr_range lim u l : repr sec lim u -> ilink (root_ix u) = Some l ->
    exists blk r, l = digest blk /\ block_range blk r /\ (snd r <= lim)%N.
  Proof.
    destruct u as [x vs|x|x cs|x]; cbn [root_ix ilink].
    - cbn. intros (_ & blk & r & H1 & H2 & H3) E. rewrite H1 in E. injection E as <-. exists blk, r. splits; auto.
      eapply payload_range. apply H2.
    - cbn. congruence.
    - intros R. apply repr_branch in R as (_ & _ & _ & _ & blk & r & Hl & Hb & Hr & _). rewrite Hl. intros [= <-].
      exists blk, r. splits; auto. eapply payload_range. apply Hb.
    - cbn. congruence.
  Qed.

  (** A builder loaded from the link of a known branch continues where the range
      recorded in the block of that branch ends; the blocks of all nodes below
      it end before that range starts. Loaded from the link of the live builder, it does
      not continue beyond the offset of the live one. *)
  Theorem C14_reload_offset s x sec' o l b' fo' :
    reach anything cfg sec s -> known s (Some (IBranch x, sec', o)) -> bi_link x = Some l ->
    load_stream_builder (sy_fo s) sec cfg l = (Ok b', fo') ->
    exists blk r, l = digest blk /\ block_range blk r /\ b_off b' = snd r
      /\ (forall i blk' r', at_or_below (IBranch x) i -> i <> IBranch x -> ilink i = Some (digest blk') -> block_range blk' r' ->
             (snd r' <= fst r)%N)
      /\ (b_root (sy_b s) = Some (IBranch x) -> (b_off b' <= b_off (sy_b s))%N).
  Proof.
    intros R K El E. destruct (known_good cfg sec Hcfg _ _ _ R K) as [F (_ & lim & g & G)].
    pose proof (snap_repr _ _ _ _ _ _ _ _ G) as Rg.
    destruct (load_builder cfg sec Hcfg _ _ _ _ _ _ _ _ _ F G Logic.I El E) as (_ & E2 & _ & _).
    destruct (E2 _ eq_refl) as (t' & _ & Hr & _ & blk & cs & rg & -> & Hb & Eo).
    exists blk, rg. pose proof (payload_range _ _ _ _ (proj1 Hb)) as Hrg. splits; auto.
    - intros i blk' r' Hi Hne Hl Hbr. destruct G as [Eg _]. rewrite <- Eg in Hi.
      destruct (below_sub _ _ Rg _ Hi) as (u & _ & <- & _ & [->|(x0 & cs0 & blk0 & r0 & l0 & -> & D2 & D3 & D4 & D5)]); [easy|].
      cbn in Eg. injection Eg as ->. rewrite El in D2. injection D2 as Ed. apply digest_inj in Ed as <-.
      pose proof (block_range_det _ _ _ Hrg (payload_range _ _ _ _ (proj1 D3))) as <-.
      destruct (repr_range _ _ _ D4 Hl) as (blk2 & r2 & Ed & Hr2 & Hle). apply digest_inj in Ed as <-.
      pose proof (block_range_det _ _ _ Hbr Hr2) as <-. lia.
    - intros Er. clear G Rg E2 t' Hr. destruct (reach_b cfg sec Hcfg _ _ R) as (n & I). pose proof I as (_ & _ & _ & Er' & Gn).
      destruct n as [h|]; [|rewrite Er in Er'; discriminate]. apply binv_snap in I as (_ & _ & G).
      rewrite Er in Er'. injection Er' as Ei. rewrite <- Ei in G.
      destruct (load_builder cfg sec Hcfg _ _ _ _ _ _ _ _ _ F G Logic.I El E) as (_ & E2 & _ & _).
      destruct (E2 _ eq_refl) as (t' & _ & _ & H & _). exact H.
  Qed.

  Lemma sub_inv t u : inv cfg t -> sub t u -> inv cfg u.
  Proof.
    intros I. induction 1 as [|x cs c H IH Hin]; [easy|]. apply inv_branch in IH as (_ & _ & _ & _ & IH).
    rewrite Forall_forall in IH. auto.
  Qed.
  Lemma sub_relabel t t' u : relabel t t' -> sub t' u -> u = t' \/ sub t u.
  Proof.
    intros Hr. induction 1 as [|x cs c H IH Hin]; [now left|right]. destruct IH as [IH|IH]; [|econstructor; eauto].
    subst t'. destruct t as [| |x0 cs0|]; try discriminate Hr. cbn in Hr. destruct Hr as [_ ->]. eapply sub_child; [apply sub_self|exact Hin].
  Qed.

  Lemma max_nat_fold l : max_nat l = fold_right Nat.max 0 l.
  Proof. reflexivity. Qed.

  Lemma inv_node t lim : repr sec lim t -> inv cfg t -> node_ok (root_ix t).
  Proof.
    intros R I. destruct t as [x vs|x|x us|x]; cbn [root_ix node_ok].
    - apply I.
    - exact I.
    - intros l cs Hl Hc.
      pose proof R as R2. apply repr_branch in R2 as (Hne & Hcnt & _ & _ & blk & r & Hl2 & Hb & Hr & Hu).
      assert (E : map root_ix us = cs).
      { eapply (block_children_det sec (IBranch x)); [cbn; rewrite Hl2; eauto|exact Hc]. }
      apply inv_branch in I as (I1 & I2 & I3 & (I4 & I5) & _). rewrite E in *.
      assert (El : List.length cs = List.length us) by (rewrite <- E; apply map_length).
      unfold max_branches in I4. splits; auto.
      + destruct us; [easy|]. cbn in El. lia.
      + intros H1. rewrite H1 in I4. cbn in I4. lia.
      + intros H1. destruct (Nat.eqb_spec (bi_level x) 1); lia.
    - cbn in R. congruence.
  Qed.

  (** In every tree known to a history, all nodes respect the configured sizes;
      and the record of a branch agrees with the records of its children. *)
  Theorem C33_fan_out s i sec' o j :
    reach anything cfg sec s -> known s (Some (i, sec', o)) -> at_or_below i j -> node_ok j.
  Proof.
    intros R K Hb. destruct (known_good cfg sec Hcfg _ _ _ R K) as [F (_ & lim & g & G)].
    pose proof (snap_repr _ _ _ _ _ _ _ _ G) as Rg. destruct G as (<- & t0 & G & Hr).
    destruct G as ((R0 & I0 & _) & _).
    destruct (below_sub _ _ Rg _ Hb) as (u & U & <- & (lim' & Ru & _) & _).
    destruct (sub_relabel _ _ _ Hr U) as [->|U0].
    - pose proof (inv_node _ _ R0 I0) as H. destruct t0 as [| |x cs|]; try (cbn in Hr; subst; exact H).
      destruct g as [| |x' cs'|]; try discriminate Hr. cbn in Hr. destruct Hr as [(A1 & A2 & A3 & A4 & A5) ->].
      cbn [root_ix node_ok block_children] in *. rewrite A1, A2, A3, A4, A5. exact H.
    - eapply inv_node; [exact Ru|]. eapply sub_inv; eauto.
  Qed.

  (** Below the root of the live builder, a branch counts as full exactly when it
      has as many children as its level may have, all of them full and one
      level below. *)
  Theorem C33_sealed s i x l cs :
    reach anything cfg sec s -> b_root (sy_b s) = Some i -> at_or_below i (IBranch x) ->
    bi_link x = Some l -> block_children sec (IBranch x) cs ->
    (bi_sealed x = true <->
     List.length cs = (if Nat.eqb (bi_level x) 1 then max_key_branches cfg else max_summary_branches cfg)
     /\ Forall (fun c => isealed c = true /\ S (ilevel c) = bi_level x) cs).
  Proof.
    intros R Er Hb Hl Hc. destruct (reach_b cfg sec Hcfg _ _ R) as (n & I). pose proof I as (_ & _ & _ & Er' & Gn).
    destruct n as [h|]; [|rewrite Er in Er'; discriminate]. rewrite Er in Er'. injection Er' as ->. cbn in Gn.
    destruct Gn as ((Rh & Ih & _) & _). destruct (below_sub _ _ Rh _ Hb) as (u & U & Eu & (lim' & Ru & _) & _).
    pose proof (sub_inv _ _ Ih U) as Iu. destruct u as [| |x' us|x']; try discriminate Eu; injection Eu as ->.
    2: { cbn in Ru. congruence. }
    pose proof Ru as R2. apply repr_branch in R2 as (Hne & _ & _ & Hlev & blk & r & Hl2 & Hbb & Hr & Hu).
    assert (E : map root_ix us = cs).
    { eapply (block_children_det sec (IBranch x)); [cbn; rewrite Hl2; eauto|exact Hc]. }
    apply inv_branch in Iu as (I1 & I2 & I3 & (I4 & I5) & _). rewrite E in *.
    assert (El : List.length cs = List.length us) by (rewrite <- E; apply map_length).
    rewrite I2. split.
    - intros H. apply branch_sealed_true in H as [H1 H2]. unfold max_branches in *. split; [lia|]. eapply Forall_impl; [|exact H1].
      cbn beta. intros c [H3 H4]. split; [easy|]. lia.
    - intros [H1 H2]. unfold branch_sealed. destruct (existsb _ cs) eqn:E1.
      { apply existsb_exists in E1 as (c & Hin & E1). rewrite Forall_forall in H2. apply H2 in Hin as [H3 _]. now rewrite H3 in E1. }
      destruct (existsb (fun c => negb (Nat.eqb (ilevel c) (bi_level x - 1))) cs) eqn:E2.
      { apply existsb_exists in E2 as (c & Hin & E2). rewrite Forall_forall in H2. apply H2 in Hin as [_ H3].
        apply negb_true_iff, Nat.eqb_neq in E2. lia. }
      apply Nat.leb_le. unfold max_branches. lia.
  Qed.

  (** *** The root written by a successful operation is written last *)

  Lemma bind_ok {A C} (m : M A) (f : A -> M C) w c w' : mbind m f w = (Ok c, w') ->
    exists a w1, m w = (Ok a, w1) /\ f a w1 = (Ok c, w').
  Proof. unfold mbind. destruct (m w) as [[a|e|p|] w1] eqn:E; try discriminate. eauto. Qed.
  Lemma assert_ok {A} b msg (f : unit -> M A) w c w' : mbind (massert b msg) f w = (Ok c, w') ->
    b = true /\ f tt w = (Ok c, w').
  Proof. destruct b; cbn; [auto|discriminate]. Qed.

  (** [i] is a branch whose block is there, and the last one written. *)
  Definition fresh_root (w : world) (i : Index) : Prop :=
    exists x blk r, i = IBranch x /\ bi_link x = Some (digest blk) /\ block_range blk r /\ snd r = w_off w.

  Lemma fresh_new_branch cs mode w x w' : new_branch cfg sec cs mode w = (Ok x, w') ->
    fresh_root w' (IBranch x) /\ bi_level x = S (max_nat (map ilevel cs)).
  Proof.
    unfold new_branch. intros E. apply assert_ok in E as [_ E]. apply assert_ok in E as [_ E].
    apply bind_ok in E as ([l n] & w1 & E1 & E2). injection E2 as <- <-. split; [|reflexivity].
    unfold persist_branch in E1. apply bind_ok in E1 as (z & w2 & E1 & E2). injection E1 as E1 <-.
    apply bind_ok in E2 as (e & w3 & E2 & E3). apply bind_ok in E3 as (l' & w4 & E3 & E4). injection E4 as <- <- <-.
    unfold encrypt_block in E2. destruct (reserve (w_off w) (Nlen (zs_data z))) as [[o o']|?|?|] eqn:Er; try discriminate.
    unfold reserve in Er. destruct (_ <? _)%N; [|discriminate]. injection Er as <- <-.
    unfold cbor_bytes in E2. remember (block_cbor _ _ _) as c eqn:Ec in E2. destruct (cbor_ok c) eqn:Eok; [|discriminate]. cbn [rmap rbind] in E2. injection E2 as <- <-.
    unfold put_block in E3. cbn [ev_block w_store add_event set_off] in E3.
    destruct (sput _ _) as [[l2|] st] eqn:Ep; [|discriminate]. injection E3 as <- <-. apply sput_link in Ep as [-> _].
    eexists _, _, (w_off w, w_off w + Nlen (zs_data z))%N. split; [reflexivity|]. split; [reflexivity|]. split; [|reflexivity].
    red. rewrite <- (app_nil_r (enc c)), checked_prefix_enc by exact Eok. rewrite Ec. eexists _, _, []. split; [reflexivity|].
    cbn. unfold Nlen. now rewrite apply_keystream_length.
  Qed.

  Lemma fresh_extend_branch cs level from mode w x from' w' :
    extend_branch cfg sec cs level from mode w = (Ok (x, from'), w') ->
    fresh_root w' (IBranch x) /\ 1 <= bi_level x.
  Proof.
    unfold extend_branch, extend_branch_with. intros E. do 3 apply assert_ok in E as [_ E].
    apply bind_ok in E as ([cs' f'] & w1 & _ & E). apply bind_ok in E as (x' & w2 & E1 & E).
    apply assert_ok in E as [_ E]. injection E as <- <- <-. apply fresh_new_branch in E1 as [H ->]. split; [exact H|lia].
  Qed.

  Lemma fresh_climb fuel : forall node bnd from w i from' w',
    climb cfg sec fuel node bnd from w = (Ok (i, from'), w') ->
    (w' = w /\ i = node /\ from' = from /\ (negb (Write.is_nil from) || Nat.eqb (ilevel node) 0) && Write.below (ilevel node) bnd = false)
    \/ fresh_root w' i.
  Proof.
    induction fuel as [|f IH]; intros node bnd from w i from' w' E; cbn [climb] in E;
      destruct (_ && _) eqn:Ec; try discriminate; try (injection E as <- <- <-; left; auto).
    apply bind_ok in E as ([x f1] & w1 & E1 & E). apply fresh_extend_branch in E1 as [H _].
    apply IH in E as [(-> & -> & _)|E]; right; auto.
  Qed.

  Lemma fresh_extend0 rec node from w i from' w' : from <> [] ->
    extend0 cfg sec rec node from w = (Ok (i, from'), w') ->
    from' = [] -> ilevel i <> 0 -> fresh_root w' i.
  Proof.
    intros Hne E Hf Hl. unfold extend0 in E. destruct (isealed node || Write.is_nil from).
    { injection E as <- <- <-. congruence. }
    destruct (node_info_of node) as [x l|x l|x|x].
    - apply bind_ok in E as (b & w1 & _ & E). apply bind_ok in E as ([cs f1] & w2 & _ & E).
      apply bind_ok in E as ([x' f2] & w3 & E1 & E). injection E as <- <- <-. eapply fresh_extend_branch; eauto.
    - apply bind_ok in E as (z & w1 & _ & E). apply bind_ok in E as ([x' f1] & w2 & _ & E). injection E as <- <- <-. now destruct Hl.
    - injection E as <- <- <-. congruence.
    - injection E as <- <- <-. congruence.
  Qed.

  Lemma fresh_extend_above d node from w i from' w' :
    extend_above cfg sec d node None from w = (Ok (i, from'), w') -> fresh_root w' i /\ from' = [].
  Proof.
    destruct d as [|d]; cbn [extend_above]; [discriminate|]. destruct from as [|a from]; [discriminate|]. cbn [Write.is_nil].
    intros E. apply assert_ok in E as [_ E]. apply bind_ok in E as ([n1 f1] & w1 & E1 & E).
    apply bind_ok in E as ([n2 f2] & w2 & E2 & E). apply assert_ok in E as [Ha E]. injection E as <- <- <-.
    destruct f2 as [|? ?]; [|discriminate Ha]. split; [|easy].
    apply fresh_climb in E2 as [(-> & -> & <- & Ec)|H]; [|exact H].
    cbn [Write.is_nil negb orb Write.below] in Ec. rewrite andb_true_r in Ec. apply Nat.eqb_neq in Ec.
    destruct node as [n|].
    - eapply fresh_extend0; [|exact E1|reflexivity|exact Ec]. discriminate.
    - apply bind_ok in E1 as ([x f] & w3 & _ & E1). injection E1 as <- _ <-. now destruct Ec.
  Qed.

  Definition fresh_builder (b : Builder) : Prop :=
    exists x blk r, b_root b = Some (IBranch x) /\ bi_link x = Some (digest blk) /\ block_range blk r /\ snd r = b_off b.

  Lemma fresh_extend fo b items fo' b' : b_sec b = sec -> b_cfg b = cfg -> items <> [] ->
    extend fo b items = (Ok tt, fo', b') -> fresh_builder b'.
  Proof.
    intros Es Ec Hne E. unfold extend in E. destruct items as [|a items]; [easy|]. rewrite Es, Ec in E.
    destruct (run fo b _) as [[r fo1] b1] eqn:Er. apply run_inv in Er as (Er & E1 & E2 & E3).
    destruct r as [[i f]|?|?|]; try discriminate. injection E as <- <-. apply fresh_extend_above in Er as [(x & blk & r & -> & H1 & H2 & H3) _].
    exists x, blk, r. splits; auto.
  Qed.
  Lemma fresh_extend_unpacked fo b items fo' b' : b_sec b = sec -> b_cfg b = cfg -> items <> [] ->
    extend_unpacked fo b items = (Ok tt, fo', b') -> fresh_builder b'.
  Proof.
    intros Es Ec Hne E. unfold extend_unpacked, extend_unpacked0 in E. destruct items as [|a items]; [easy|]. rewrite Es, Ec in E. cbn [Write.is_nil] in E.
    destruct (run fo b _) as [[r fo1] b1] eqn:Er. apply run_inv in Er as (Er & E1 & E2 & E3).
    destruct r as [i|?|?|]; try discriminate. injection E as <- <-.
    apply bind_ok in Er as ([n f] & w1 & H1 & Er). apply fresh_extend_above in H1 as [H1 _].
    assert (Hi : exists j, i = Some j /\ fresh_root (wof fo1 (b_off b1)) j).
    { destruct (b_root b) as [a0|].
      - apply bind_ok in Er as ([x f1] & w2 & H2 & Er). injection Er as <- <-. apply fresh_extend_branch in H2 as [H2 _]. eauto.
      - injection Er as <- <-. eauto. }
    destruct Hi as (j & -> & x & blk & r & -> & G1 & G2 & G3). exists x, blk, r. splits; auto.
  Qed.

  (** Appending something, in either way. *)
  Definition appends (o : op) : Prop :=
    match o with OExtend items | OExtendUnpacked items => items <> [] | OPush _ _ => True | _ => False end.

  Lemma fresh_appends s o s' : reach anything cfg sec s -> appends o -> exec o s = (Ok tt, s') -> fresh_builder (sy_b s').
  Proof.
    intros R Ho E. apply (reach_ok cfg sec Hcfg) in R. destruct (sys_b_eqs _ _ _ _ R) as [Es Ec].
    destruct o; cbn [appends] in Ho; try easy; cbn [exec] in E.
    - destruct (extend _ _ _) as [[r fo] b] eqn:E0. injection E as -> <-. cbn. eapply fresh_extend; eauto.
    - destruct (push _ _ _ _) as [[r fo] b] eqn:E0. injection E as -> <-. cbn. eapply (fresh_extend (sy_fo s)); [| | |exact E0]; auto. discriminate.
    - destruct (extend_unpacked _ _ _) as [[r fo] b] eqn:E0. injection E as -> <-. cbn. eapply fresh_extend_unpacked; eauto.
  Qed.

  (** After appending, the builder's root is a branch with a link; a builder
      loaded from it continues exactly where the live one is. *)
  Theorem C14_current s o s' :
    reach anything cfg sec s -> appends o -> exec o s = (Ok tt, s') ->
    exists x l, b_root (sy_b s') = Some (IBranch x) /\ bi_link x = Some l
      /\ forall b' fo', load_stream_builder (sy_fo s') sec cfg l = (Ok b', fo') -> b_off b' = b_off (sy_b s').
  Proof.
    intros R Ho E. destruct (fresh_appends _ _ _ R Ho E) as (x & blk & r & Er & El & Hb & Hr).
    exists x, (digest blk). splits; auto. intros b' fo' Eb.
    assert (R' : reach anything cfg sec s').
    { destruct R as (s0 & R0 & H). exists s0. split; [exact R0|]. eapply hist_step; [exact H| | |exact E]; now destruct o. }
    assert (K : known s' (Some (IBranch x, sec, b_off (sy_b s')))).
    { left. unfold snapshot. rewrite Er. destruct (reach_b cfg sec Hcfg _ _ R') as (n & _ & -> & _). reflexivity. }
    destruct (C14_reload_offset _ _ _ _ _ _ _ R' K El Eb) as (blk' & r' & Ed & Hb' & Ho' & _). apply digest_inj in Ed as <-.
    rewrite (block_range_det _ _ _ Hb Hb') in Hr. congruence.
  Qed.

  (** ** C17: what was appended can be loaded *)
  Theorem C17_appended_partial s o s' (RR : ReliableReads T B) :
    reach no_loss cfg sec s -> appends o -> exec o s = (Ok tt, s') -> small_branches (sy_fo s') ->
    exists l, builder_link (sy_b s') = Some l
      /\ (exists b' fo', load_stream_builder (sy_fo s') sec cfg l = (Ok b', fo'))
      /\ (exists t fo', load_tree (sy_fo s') sec l = (Ok t, fo')).
  Proof.
    intros R Ho E Hs.
    assert (Ra : forall s, reach no_loss cfg sec s -> reach anything cfg sec s).
    { intros s1 (s0 & H0 & H). exists s0. split; [exact H0|]. clear - H. induction H; [constructor|eapply hist_step; eauto]. now destruct o. }
    destruct (fresh_appends _ _ _ (Ra _ R) Ho E) as (x & blk & r & Er & El & Hb & Hr).
    assert (R' : reach no_loss cfg sec s').
    { destruct R as (s0 & R0 & H). exists s0. split; [exact R0|]. eapply hist_step; [exact H| | |exact E]; now destruct o. }
    assert (K : known s' (Some (IBranch x, sec, b_off (sy_b s')))).
    { left. unfold snapshot. rewrite Er. destruct (reach_b cfg sec Hcfg _ _ R') as (n & _ & -> & _). reflexivity. }
    exists (digest blk). split; [|split].
    - unfold builder_link. now rewrite Er.
    - eapply C16_load_builder_total; eauto.
    - destruct (C16_load_tree_total cfg sec Hcfg s' _ x _ _ RR R' K Hs eq_refl El) as (t & fo' & c & H & _). eauto.
  Qed.

  (** ** C15: restarting without reuse *)

  (** If the builder is restarted from the link of what a successful append
      gave, no block written later uses keystream bytes of a block written before. *)
  Theorem C15_restart_partial s o s1 r2 s2 s3 s4 :
    reach no_reload cfg sec s -> appends o -> exec o s = (Ok tt, s1) ->
    exec OSnapshot s1 = (r2, s2) -> exec (OReload (List.length (sy_snaps s1))) s2 = (Ok tt, s3) ->
    hist no_reload s3 s4 ->
    ForallOrdPairs before (fo_log (sy_fo s4)).
  Proof.
    intros R Ho E E2 E3 H.
    assert (Ra : forall s, reach no_reload cfg sec s -> reach anything cfg sec s).
    { intros s5 (s0 & H0 & H3). exists s0. split; [exact H0|]. clear - H3. induction H3; [constructor|eapply hist_step; eauto]. now destruct o. }
    assert (R1 : reach no_reload cfg sec s1).
    { destruct R as (s0 & R0 & H0). exists s0. split; [exact R0|]. eapply hist_step; [exact H0| | |exact E]; now destruct o. }
    assert (R2 : reach anything cfg sec s2).
    { destruct (Ra _ R1) as (s0 & R0 & H0). exists s0. split; [exact R0|]. eapply hist_step; [exact H0| | |exact E2]; easy. }
    destruct (C14_current _ _ _ (Ra _ R) Ho E) as (x & l & Er & El & Hoff).
    injection E2 as _ <-.
    assert (Hn : nth_error (sy_snaps s1 ++ [snapshot (sy_b s1)]) (List.length (sy_snaps s1)) = Some (snapshot (sy_b s1))).
    { rewrite nth_error_app2 by lia. now rewrite Nat.sub_diag. }
    assert (R3 : reach anything cfg sec s3).
    { destruct R2 as (s0 & R0 & H0). exists s0. split; [exact R0|]. eapply hist_step; [exact H0| | |exact E3]; [|easy].
      cbn [op_ok sy_snaps]. rewrite Hn. intros t [= <-]. unfold snapshot. now rewrite Er. }
    cbn [exec sy_snaps sy_fo sy_b sy_se] in E3. rewrite Hn in E3. unfold snapshot in E3. rewrite Er in E3. cbn [obind tree_link ilink] in E3. rewrite El in E3.
    destruct (reach_b cfg sec Hcfg _ _ (Ra _ R1)) as (n & I). pose proof I as (F & Es & Ec & Er' & Gn).
    change (se_b (sy_se s1)) with (sy_b s1) in E3. change (sy_b {| sy_fo := sy_fo s1; sy_se := sy_se s1; sy_snaps := _ |}) with (sy_b s1) in E3.
    cbn [s_now only] in Ec. rewrite Es, Ec in E3.
    destruct (load_stream_builder (sy_fo s1) sec cfg l) as [[b'|e|p|] fo'] eqn:Eb; try discriminate. injection E3 as <-.
    specialize (Hoff _ _ eq_refl).
    destruct n as [h|]; [|rewrite Er in Er'; discriminate]. apply binv_snap in I as (_ & _ & G).
    rewrite Er in Er'. injection Er' as Ei. rewrite <- Ei in G.
    destruct (load_builder cfg sec Hcfg _ _ _ _ _ _ _ _ _ F G Logic.I El Eb) as (W & _).
    destruct R1 as (s0 & H0 & H1). pose proof H0 as (Es0 & _ & _ & Hlog).
    assert (R0 : reach anything cfg sec s0) by (exists s0; split; [exact H0|constructor]).
    destruct (C13_ranges _ _ R0 H1) as (n1 & E1 & L1). rewrite Hlog in E1. cbn [app] in E1.
    destruct (C13_ranges _ _ R3 H) as (n2 & E2 & L2). cbn [sy_fo sy_b sy_se se_b] in E2, L2.
    destruct W as (_ & _ & _ & Hl). cbn in Hl. rewrite E2, Hl, E1. unfold sy_b in L2 at 1. cbn [sy_se se_b] in L2. rewrite Hoff in L2.
    exact (proj2 (ranges_pairs _ _ _ (ranges_app _ _ _ _ _ L1 L2))).
  Qed.
End Props.

(** * Concrete cases *)

(** A history with a rolled back [extend], and a store that becomes full. *)
Definition ops5 : list (@op ITypes IBackend) :=
  [OBegin; OExtend (pairs 0 5); ODrop; OExtendUnpacked (pairs 5 4); OPack; OExtend (pairs 9 30); OExtend (pairs 9 1)].
Definition st5 : sys := state no_reload 4000 ops5.

Lemma fresh_reach n : reach anything ecfg esec (efresh n).
Proof. exists (efresh n). split; [apply efresh_start|constructor]. Qed.

Example C13_case :
  reach anything ecfg esec (efresh 4000) /\ hist no_reload (efresh 4000) st5
  /\ isErr (fst (exec (OExtend (pairs 9 30)) (state no_reload 4000 (firstn 5 ops5)))) = true
  /\ builder_count (sy_b st5) = 5
  /\ List.length (fo_log (sy_fo st5)) = 24.
Proof.
  split; [apply fresh_reach|]. split; [|vm_compute; auto].
  unfold st5, state. destruct (run_ops no_reload ops5 (efresh 4000)) as [s|] eqn:E; [|constructor].
  eapply run_ops_hist; [constructor|exact E].
Qed.

(** The root of the eleven entries is a branch of level 4; a builder is loaded
    from its link. *)
Definition load3 : res (@Builder ITypes) * Forest :=
  match b_root (sy_b st3) with
  | Some (IBranch x) => match bi_link x with Some l => load_stream_builder (sy_fo st3) esec ecfg l | None => (Err EOther, sy_fo st3) end
  | _ => (Err EOther, sy_fo st3)
  end.
Example C14_C33_case :
  reach anything ecfg esec st3
  /\ (exists x, b_root (sy_b st3) = Some (IBranch x) /\ bi_level x = 4 /\ bi_count x = 11)
  /\ (match fst load3 with Ok b => N.eqb (b_off b) (b_off (sy_b st3)) | _ => false end) = true.
Proof.
  split; [apply no_loss_any, st3_ok|]. split; [|vm_compute; reflexivity].
  destruct (b_root (sy_b st3)) as [[x|x]|] eqn:E.
  1, 3: exfalso; apply (f_equal (fun r => match r with Some (IBranch _) => true | _ => false end)) in E; vm_compute in E; discriminate.
  exists x. split; [easy|].
  apply (f_equal (fun r => match r with Some (IBranch x) => (bi_level x, bi_count x) | _ => (0, 0) end)) in E.
  vm_compute in E. injection E. auto.
Qed.

(** A builder that wrote and rolled a transaction back, then appends again: the
    link of its root is loaded, and two more batches are written. *)
Definition isOk {A} (r : res A) : bool := match r with Ok _ => true | _ => false end.
Definition ops6 : list (@op ITypes IBackend) :=
  [OExtend (pairs 0 3); OBegin; OExtend (pairs 3 2); ODrop; OExtend (pairs 3 2)].
Definition st6 : sys := state no_reload 1000000 (firstn 4 ops6).
Definition st6' : sys := snd (exec (OExtend (pairs 3 2)) st6).
Definition st6r : sys := snd (exec (OReload 0) (snd (exec OSnapshot st6'))).
Definition st6e : sys := snd (exec (OExtend (pairs 7 2)) (snd (exec (OExtend (pairs 5 2)) st6r))).
Example C15_case :
  reach no_reload ecfg esec st6 /\ appends (@OExtend ITypes IBackend (pairs 3 2))
  /\ isOk (fst (exec (OExtend (pairs 3 2)) st6)) = true
  /\ List.length (sy_snaps st6') = 0
  /\ isOk (fst (exec (OReload 0) (snd (exec OSnapshot st6')))) = true
  /\ hist no_reload st6r st6e
  /\ List.length (fo_log (sy_fo st6)) < List.length (fo_log (sy_fo st6r)) < List.length (fo_log (sy_fo st6e))
  /\ smallb (sy_fo st6') = true.
Proof.
  split; [reached|]. split; [discriminate|]. split; [vm_compute; reflexivity|]. split; [vm_compute; reflexivity|].
  split; [vm_compute; reflexivity|]. split.
  - eapply hist_step; [eapply hist_step; [constructor| | |apply surjective_pairing]| | |apply surjective_pairing]; exact Logic.I.
  - split; [split; apply Nat.ltb_lt; vm_compute; reflexivity|vm_compute; reflexivity].
Qed.

Example C17_case :
  let s := state no_loss 1000000 (firstn 4 ops6) in let o := @OExtend ITypes IBackend (pairs 3 2) in
  reach no_loss ecfg esec s /\ appends o /\ isOk (fst (exec o s)) = true
  /\ small_branches (sy_fo (snd (exec o s))).
Proof.
  split; [reached|]. split; [discriminate|]. split; [vm_compute; reflexivity|]. apply smallb_ok. vm_compute. reflexivity.
Qed.

(** The invariant of all histories of a stream. *)
From Coq Require Import List NArith ZArith Lia Bool String Arith.
From Verif Require Import Base BaseProofs Cbor Types Seq SeqProofs Query QuerySpec World Read Write Api Iter IterFrame History Ghost Frame ReadProofs Packable WriteProofs QueryProofs PackProofs RetainProofs RepairProofs NoPurged ApiProofs.
Import ListNotations.
#[local] Coercion s_now : Setting >-> Config.

Section Det.
  Context {T : Types} {TL : TypesLaws T} {X : Ext} {XL : ExtLaws X}
          {B : Backend T} {BL : BackendLaws T B}.

  Lemma block_payload_det key blk raw r raw' r' :
    block_payload key blk raw r -> block_payload key blk raw' r' -> raw = raw' /\ r = r'.
  Proof.
    intros (o & ls & d & A1 & A2 & A3 & A4 & A5) (o' & ls' & d' & B1 & B2 & B3 & B4 & B5).
    rewrite A1 in B1. injection B1 as <- <- <-. split; congruence.
  Qed.

  Lemma idxs_raw_inj cs cs' : idxs_ok cs = true -> idxs_ok cs' = true -> idxs_raw cs = idxs_raw cs' -> cs = cs'.
  Proof.
    intros H1 H2 E. pose proof (items_ipld_loop_enc cs _ H1 (le_n _)) as A.
    pose proof (items_ipld_loop_enc cs' _ H2 (le_n _)) as A'. rewrite E in A. congruence.
  Qed.
  Lemma vals_raw_inj cs cs' : vals_ok cs = true -> vals_ok cs' = true -> vals_raw cs = vals_raw cs' -> cs = cs'.
  Proof.
    intros H1 H2 E. pose proof (items_loop_enc cs _ H1 (le_n _)) as A.
    pose proof (items_loop_enc cs' _ H2 (le_n _)) as A'. rewrite E in A. congruence.
  Qed.

  (** An index record determines the tree. *)
  Lemma repr_det sec t : forall lim lim' t', repr sec lim t -> repr sec lim' t' -> root_ix t = root_ix t' -> t = t'.
  Proof.
    induction t using tree_ind'; intros lim lim' t' R R' E.
    - destruct t' as [x' vs'|x'|x' cs'|x']; try discriminate; injection E as <-.
      + destruct R as (_ & blk & r & A1 & (A2 & A3 & _) & _). destruct R' as (_ & blk' & r' & B1 & (B2 & B3 & _) & _).
        rewrite A1 in B1. injection B1 as B1. apply digest_inj in B1 as <-.
        destruct (block_payload_det _ _ _ _ _ _ A2 B2) as [E _]. f_equal. now apply vals_raw_inj.
      + destruct R as (_ & blk & r & A1 & _). cbn in R'. congruence.
    - destruct t' as [x' vs'|x'|x' cs'|x']; try discriminate; injection E as <-; [|easy].
      destruct R' as (_ & blk & r & A1 & _). cbn in R. congruence.
    - destruct t' as [x' vs'|x'|x' cs'|x']; try discriminate; injection E as <-.
      + apply repr_branch in R as (_ & _ & _ & _ & blk & r & A1 & (A2 & A3 & _) & _ & A4).
        apply repr_branch in R' as (_ & _ & _ & _ & blk' & r' & B1 & (B2 & B3 & _) & _ & B4).
        rewrite A1 in B1. injection B1 as B1. apply digest_inj in B1 as <-.
        destruct (block_payload_det _ _ _ _ _ _ A2 B2) as [E _]. f_equal. apply idxs_raw_inj in E; auto.
        clear -H A4 B4 E. revert cs' B4 E. induction cs as [|c cs IH]; intros [|c' cs'] B4 E; try discriminate; [easy|].
        injection E as E1 E2. inversion H; subst. inversion A4; subst. inversion B4; subst. f_equal; eauto.
      + apply repr_branch in R as (_ & _ & _ & _ & blk & r & A1 & _). cbn in R'. congruence.
    - destruct t' as [x' vs'|x'|x' cs'|x']; try discriminate; injection E as <-; [|easy].
      apply repr_branch in R' as (_ & _ & _ & _ & blk & r & A1 & _). cbn in R. congruence.
  Qed.
End Det.

Section Sys.
  Context {T : Types} {TL : TypesLaws T} {X : Ext} {XL : ExtLaws X}
          {B : Backend T} {BL : BackendLaws T B}.
  Variable cfg : Setting.
  Variable sec : Secrets.
  Notation key := (index_key sec).
  Hypothesis Hcfg : setting_ok cfg.

  (** ** Loading a link *)

  (** Records that differ in the sealed flag and the sizes of index blocks only. *)
  Definition alike (x x' : BranchIndex) : Prop :=
    bi_link x' = bi_link x /\ bi_level x' = bi_level x /\ bi_count x' = bi_count x
    /\ branch_sums x' = branch_sums x /\ bi_vbytes x' = bi_vbytes x.
  Definition relabel (t t' : tree) : Prop :=
    match t, t' with
    | TBranch x cs, TBranch x' cs' => alike x x' /\ cs' = cs
    | _, _ => t' = t
    end.

  Lemma relabel_refl t : relabel t t.
  Proof. destruct t; cbn; unfold alike; splits; auto. Qed.
  Lemma relabel_trans a b c : relabel a b -> relabel b c -> relabel a c.
  Proof.
    destruct a, b; cbn; try discriminate; try (intros ->; auto); try (intros [= -> ->]; auto);
      try (intros [_ _]; discriminate).
    destruct c; cbn; try discriminate; try (intros _ [= ]); auto.
    intros [H1 ->] [H2 ->]. split; [|easy]. unfold alike in *. intuition congruence.
  Qed.
  Lemma relabel_content t t' : relabel t t' -> content t' = content t.
  Proof. destruct t, t'; cbn; try discriminate; try (now intros [= -> ->]); try now intros [= ->]. now intros [_ ->]. Qed.
  Lemma relabel_avail s t t' : relabel t t' -> avail s t -> avail s t'.
  Proof.
    destruct t, t'; cbn -[avail]; try discriminate; try (now intros [= -> ->]); try now intros [= ->].
    intros [(H1 & _) ->] A. apply avail_branch in A. apply avail_branch. now rewrite H1.
  Qed.
  Lemma relabel_avail_branches s t t' : relabel t t' -> avail_branches s t -> avail_branches s t'.
  Proof.
    destruct t, t'; cbn -[avail_branches]; try discriminate; try (now intros [= -> ->]); try now intros [= ->].
    intros [(H1 & _) ->] A. apply avail_branches_branch in A. apply avail_branches_branch. now rewrite H1.
  Qed.
  Lemma relabel_repr lim t t' : relabel t t' -> repr sec lim t -> repr sec lim t'.
  Proof.
    destruct t, t'; cbn -[repr]; try discriminate; try (now intros [= -> ->]); try now intros [= ->].
    intros [(H1 & H2 & H3 & H4 & H5) ->] A. apply repr_branch in A. apply repr_branch. now rewrite H1, H2, H3, H4.
  Qed.
  Lemma relabel_count t t' : relabel t t' -> icount (root_ix t') = icount (root_ix t).
  Proof.
    destruct t, t'; cbn; try discriminate; try (now intros [= -> ->]); try now intros [= ->].
    now intros [(H1 & H2 & H3 & H4 & H5) ->].
  Qed.
  Lemma relabel_level t t' : relabel t t' -> ilevel (root_ix t') = ilevel (root_ix t).
  Proof.
    destruct t, t'; cbn; try discriminate; try (now intros [= -> ->]); try now intros [= ->].
    now intros [(H1 & H2 & H3 & H4 & H5) ->].
  Qed.
  Lemma relabel_link t t' : relabel t t' -> ilink (root_ix t') = ilink (root_ix t).
  Proof.
    destruct t, t'; cbn; try discriminate; try (now intros [= -> ->]); try now intros [= ->].
    now intros [(H1 & H2 & H3 & H4 & H5) ->].
  Qed.

  Lemma create_index_rd lim x cs sealed l : repr sec lim (TBranch x cs) -> inv cfg (TBranch x cs) -> bi_link x = Some l ->
    exists x' r, rd sec (create_index_from_link sec sealed l) (fun s => avail_branches s (TBranch x cs)) (IBranch x', r)
      /\ alike x x' /\ bi_sealed x' = sealed (map root_ix cs) (bi_level x)
      /\ repr sec (snd r) (TBranch x cs) /\ (snd r <= lim)%N
      /\ exists blk, l = digest blk /\ branch_block key blk (map root_ix cs) r.
  Proof.
    intros R I El. apply repr_branch in R as (A1 & A2 & A3 & A4 & blk & r & A5 & A6 & A7 & A8).
    apply invs_branch in I as (I1 & I2 & I3 & (I4 & I6) & I5). rewrite El in A5. injection A5 as ->.
    assert (Hne : map root_ix cs <> []) by now destruct cs.
    exists {| bi_count := sum_nat (map icount (map root_ix cs));
              bi_level := S (max_nat (map ilevel (map root_ix cs)));
              bi_sealed := sealed (map root_ix cs) (S (max_nat (map ilevel (map root_ix cs))));
              bi_link := Some (digest blk);
              bi_sums := ss_of (map summarize (map root_ix cs));
              bi_vbytes := fold_right N.add 0%N (map ivbytes (map root_ix cs));
              bi_kbytes := (fold_right N.add 0 (map ikbytes (map root_ix cs)) + Nlen blk)%N |}, r.
    split; [|split; [|split; [|split; [|split]]]].
    - unfold create_index_from_link.
      eapply rd_bind; [apply rf_get_block|apply stable_avail_branches| |].
      { eapply rd_weaken; [|apply rd_get_block]. intros s H. apply avail_branches_branch in H as ((l & d & B1 & B2) & _).
        rewrite El in B1. injection B1 as <-. eauto. }
      pose proof (deserialize_spec _ _ _ _ A6) as E. eapply rd_mbind_lift with (a := (map root_ix cs, r)).
      + rewrite E. destruct (fits _); eauto.
      + intros s H. apply avail_branches_branch in H as (_ & H & _). now rewrite E, H.
      + destruct (map root_ix cs) eqn:Em; [congruence|]. apply rd_ret.
    - unfold alike. cbn. unfold branch_sums at 1. cbn. rewrite ss_to_of. splits; auto; congruence.
    - cbn. now rewrite I1.
    - apply repr_branch. splits; auto. exists blk, r. splits; auto. lia.
    - exact A7.
    - eauto.
  Qed.

  Section Kind.
    (** As in ApiProofs.v: the store has lost nothing; nothing was repaired. *)
    Variable Av Ps : Prop.
    Notation binv := (bgood cfg sec Av Ps).
    Notation gt := (gt cfg sec Av Ps).
    Notation gn := (gn cfg sec Av Ps).
    Notation fext := (fext sec).
    Notation fsame := (fsame sec).

    (** A root that may be restored. *)
    Definition root_good (fo : Forest) (lim : N) (r : option Index) : Prop :=
      exists n, r = option_map root_ix n /\ gn fo lim n.

    (** A snapshot. *)
    Definition snap_tree (fo : Forest) (i : Index) (lim : N) (t : tree) : Prop :=
      root_ix t = i /\ exists t0, gt fo lim t0 /\ relabel t0 t.
    Definition snap_good (fo : Forest) (t : Tree) : Prop :=
      match t with
      | None => True
      | Some (i, sec', lim) => sec' = sec /\ exists lim' t', snap_tree fo i lim' t'
      end.

    Lemma snap_repr fo i lim t : snap_tree fo i lim t -> repr sec lim t.
    Proof. intros (_ & t0 & ((R & _) & _) & Hr). eapply relabel_repr; eauto. Qed.
    Lemma snap_avail fo i lim t : snap_tree fo i lim t -> Av -> log_fits (wof fo lim) -> avail (fo_store fo) t.
    Proof. intros (_ & t0 & ((_ & _ & A & _) & _) & Hr) av Hf. eapply relabel_avail; [exact Hr|]. now apply A. Qed.

    Lemma snap_keep a oa b ob t : fext a oa b ob -> snap_good a t -> snap_good b t.
    Proof.
      intros W. destruct t as [[[i s] lim]|]; [|easy]. intros (-> & lim' & t' & E & t0 & G & Hr). split; [easy|].
      exists lim', t'. split; [easy|]. exists t0. split; [|easy]. eapply gt_keep; eauto.
    Qed.

    Lemma snapshot_good fo b n : binv fo b n -> snap_good fo (snapshot b).
    Proof.
      intros (F & Es & Ec & Er & G). unfold snapshot. rewrite Er, Es. destruct n as [t|]; [|easy]. cbn. split; [easy|].
      exists (b_off b), t. split; [easy|]. exists t. split; [exact G|apply relabel_refl].
    Qed.

    Definition sys_good (s : sys) : Prop :=
      (exists n, binv (sy_fo s) (sy_b s) n)
      /\ Forall (root_good (sy_fo s) (b_off (sy_b s))) (se_saved (sy_se s))
      /\ Forall (snap_good (sy_fo s)) (sy_snaps s).

    Lemma root_good_mono a oa b ob r : fext a oa b ob -> root_good a oa r -> root_good b ob r.
    Proof. intros W (n & E & G). exists n. split; [easy|]. eapply gn_mono; eauto. Qed.

    Lemma step_with_b s fo b n : sys_good s -> fext (sy_fo s) (b_off (sy_b s)) fo (b_off b) -> binv fo b n ->
      sys_good (with_b s fo b).
    Proof.
      intros (_ & H2 & H3) W I. split; [exists n; exact I|]. split.
      - cbn. eapply Forall_impl; [|exact H2]. intros r. now apply root_good_mono.
      - cbn. eapply Forall_impl; [|exact H3]. intros t. eapply snap_keep; eauto.
    Qed.
    Lemma binv_keep fo fo' b n : fsame fo fo' -> binv fo b n -> binv fo' b n.
    Proof.
      intros W (F & Es & Ec & Er & G). pose proof (fsame_fext sec _ _ (b_off b) W) as W'.
      split; [eapply fext_fok; eauto|]. splits; auto. exact (gn_mono cfg sec Av Ps _ _ _ _ _ W' G).
    Qed.
    Lemma step_with_fo s fo : sys_good s -> fsame (sy_fo s) fo -> sys_good (with_fo s fo).
    Proof.
      intros ((n & I) & H2 & H3) W. pose proof (fsame_fext sec _ _ (b_off (sy_b s)) W) as W'.
      split; [exists n; eapply binv_keep; eauto|]. split.
      - cbn. eapply Forall_impl; [|exact H2]. intros r. now apply root_good_mono.
      - cbn. eapply Forall_impl; [|exact H3]. intros t. eapply snap_keep; eauto.
    Qed.

    (** ** Reading a snapshot *)

    Lemma get_snap fo i lim o t off r fo' : fok sec fo -> snap_tree fo i lim t ->
      get fo (Some (i, sec, o)) off = (r, fo') ->
      fsame fo fo' /\ (r = Ok (join (nth_error (content t) off)) \/ exists e, r = Err e)
      /\ (ReliableReads T B -> avail (fo_store fo) t -> r = Ok (join (nth_error (content t) off))).
    Proof.
      intros F G E. pose proof (snap_repr _ _ _ _ G) as R. destruct G as (<- & _).
      unfold get in E. eapply (read_rd sec) with (P := fun s => avail s t) in E; [exact E| |apply rf_get0|eapply get0_rd; [exact R|apply depth_ok]]. exact F.
    Qed.
    Lemma collect_snap fo i lim o t off r fo' : fok sec fo -> snap_tree fo i lim t ->
      collect_from fo (Some (i, sec, o)) off = (r, fo') ->
      fsame fo fo' /\ (r = Ok (skipn off (content t)) \/ exists e, r = Err e)
      /\ (ReliableReads T B -> avail (fo_store fo) t -> r = Ok (skipn off (content t))).
    Proof.
      intros F G E. pose proof (snap_repr _ _ _ _ G) as R. destruct G as (<- & _).
      unfold collect_from in E. eapply (read_rd sec) with (P := fun s => avail s t) in E; [exact E| |apply rf_collect0|eapply collect0_rd; [exact R|apply depth_ok]]. exact F.
    Qed.
    Lemma is_packed_snap fo i lim o t r fo' : fok sec fo -> snap_tree fo i lim t ->
      is_packed fo (Some (i, sec, o)) = (r, fo') ->
      fsame fo fo' /\ (r = Ok (packed t) \/ exists e, r = Err e)
      /\ (ReliableReads T B -> avail (fo_store fo) t -> r = Ok (packed t)).
    Proof.
      intros F G E. pose proof (snap_repr _ _ _ _ G) as R. destruct G as (<- & _).
      unfold is_packed in E. eapply (read_rd sec) in E as (E1 & E2 & E3); [split; [exact E1|]; split; [exact E2|]| |apply rf_is_packed0|eapply is_packed0_rd; [exact R|apply depth_ok]].
      - intros Re A. apply E3; [exact Re|]. now apply avail_avail_branches.
      - exact F.
    Qed.
    Lemma left_roots_snap fo i lim o t r fo' : fok sec fo -> snap_tree fo i lim t ->
      left_roots fo (Some (i, sec, o)) = (r, fo') ->
      let res := Ok (map (fun x => Some (root_ix x, sec, (two64 - 1)%N)) (gleft_roots t)) in
      fsame fo fo' /\ (r = res \/ exists e, r = Err e)
      /\ (ReliableReads T B -> avail (fo_store fo) t -> r = res).
    Proof.
      intros F G E. pose proof (snap_repr _ _ _ _ G) as R. destruct G as (<- & _).
      unfold left_roots in E. destruct (read fo _) as [r0 fo0] eqn:E0. injection E as <- <-.
      eapply (read_rd sec) in E0 as (E1 & E2 & E3); [| |apply rf_left_roots0|eapply left_roots0_rd; [exact R|apply depth_ok]]; [|exact F].
      cbn zeta. split; [exact E1|]. split.
      - destruct E2 as [->|[e ->]]; cbn; [left|eauto]. now rewrite map_map.
      - intros Re A. rewrite E3; auto; [|now apply avail_avail_branches]. cbn. now rewrite map_map.
    Qed.
    Lemma dump_graph_snap {S} (f : nat -> Index -> S) fo i lim o t r fo' : fok sec fo -> snap_tree fo i lim t ->
      dump_graph fo (Some (i, sec, o)) f = (r, fo') ->
      fsame fo fo' /\ (r = Ok (gdump f None 0 t) \/ exists e, r = Err e)
      /\ (ReliableReads T B -> avail (fo_store fo) t -> r = Ok (gdump f None 0 t)).
    Proof.
      intros F G E. pose proof (snap_repr _ _ _ _ G) as R. destruct G as (<- & _).
      unfold dump_graph in E. eapply (read_rd sec) in E as (E1 & E2 & E3); [split; [exact E1|]; split; [exact E2|]| |apply rf_dump_graph0|eapply dump_graph0_rd; [exact R|apply depth_ok]].
      - intros Re A. apply E3; [exact Re|]. now apply avail_avail_branches.
      - exact F.
    Qed.

    Lemma do_read_same fo t rdg r fo' : snap_good fo t -> do_read fo t rdg = (r, fo') -> fsame fo fo'.
    Proof.
      intros G E. destruct t as [[[i sec'] o]|].
      - destruct G as (-> & _).
        destruct rdg as [off|off| | | |[|] q n|[|] q n]; cbn -[get collect_from is_packed left_roots dump_graph take_chunks take_indexes] in E.
        + destruct (get _ _ _) as [r0 fo0] eqn:E0. injection E as _ <-. eapply (read_fsame sec); [|exact E0]. apply rf_get0.
        + destruct (collect_from _ _ _) as [r0 fo0] eqn:E0. injection E as _ <-. eapply (read_fsame sec); [|exact E0]. apply rf_collect0.
        + destruct (is_packed _ _) as [r0 fo0] eqn:E0. injection E as _ <-. eapply (read_fsame sec); [|exact E0]. apply rf_is_packed0.
        + destruct (left_roots _ _) as [r0 fo0] eqn:E0. injection E as _ <-. unfold left_roots in E0.
          destruct (read fo _) as [r1 fo1] eqn:E1. injection E0 as _ <-. eapply (read_fsame sec); [|exact E1]. apply rf_left_roots0.
        + destruct (dump_graph _ _ _) as [r0 fo0] eqn:E0. injection E as _ <-. eapply (read_fsame sec); [|exact E0]. apply rf_dump_graph0.
        + destruct (take_chunks _ _ _) as [[r0 fo0] it0] eqn:E0. injection E as _ <-. now apply (take_chunks_rext sec) in E0 as [E0 _].
        + destruct (take_chunks _ _ _) as [[r0 fo0] it0] eqn:E0. injection E as _ <-. now apply (take_chunks_rext sec) in E0 as [E0 _].
        + destruct (take_indexes _ _ _) as [[r0 fo0] it0] eqn:E0. injection E as _ <-. now apply (take_indexes_rext sec) in E0 as [E0 _].
        + destruct (take_indexes _ _ _) as [[r0 fo0] it0] eqn:E0. injection E as _ <-. now apply (take_indexes_rext sec) in E0 as [E0 _].
      - destruct rdg as [off|off| | | |[|] q [|n]|[|] q [|n]]; cbn in E; injection E as _ <-; apply fsame_refl.
    Qed.

    (** ** Loading *)

    Lemma load_builder fo i lim t l r fo' : fok sec fo -> snap_tree fo i lim t ->
      (match i with ILeaf _ => False | _ => True end) -> ilink i = Some l ->
      load_stream_builder fo sec cfg l = (r, fo') ->
      fsame fo fo' /\ (forall b', r = Ok b' -> exists t', binv fo' b' (Some t') /\ relabel t t' /\ (b_off b' <= lim)%N
              /\ exists blk cs rg, l = digest blk /\ branch_block key blk cs rg /\ b_off b' = snd rg)
      /\ ((exists b', r = Ok b') \/ exists e, r = Err e)
      /\ (ReliableReads T B -> avail_branches (fo_store fo) t -> exists b', r = Ok b').
    Proof.
      intros F (<- & t0 & G & Hr) Hb El E. destruct t as [x vs|x|x cs|x]; [easy|easy| |].
      2: { destruct t0; try discriminate Hr. injection Hr as ->. destruct G as ((R & _) & _). cbn in R, El. congruence. }
      destruct t0 as [| |x0 cs0|]; try discriminate Hr. destruct Hr as [Hal <-].
      assert (El0 : bi_link x0 = Some l). { destruct Hal as (H & _). cbn in El. congruence. }
      pose proof G as ((R & I & A & P) & Pk).
      destruct (create_index_rd _ _ _ (branch_sealed cfg) _ R I El0) as (x' & rg & H1 & H2 & H3 & H4 & H5 & blk & H6 & H7).
      unfold load_stream_builder in E. destruct (read fo _) as [r0 fo0] eqn:E0. injection E as <- <-.
      eapply (read_rd sec) in E0 as (E1 & E2 & E3); [| |apply rf_create_index|exact H1]; [|exact F].
      pose proof (fsame_fext sec _ _ lim E1) as W.
      assert (Hal' : alike x x'). { unfold alike in *. intuition congruence. }
      split; [exact E1|]. split; [|split].
      - intros b' Hb'. destruct E2 as [->|[e ->]]; [|discriminate]. injection Hb' as <-. cbn.
        exists (TBranch x' cs). split; [|split; [split; [exact Hal'|easy]|split; [exact H5|eauto 6]]].
        split; [eapply fext_fok; [exact W|exact F]|]. cbn. splits; auto.
        pose proof I as I'. apply invs_branch in I as (I1 & I2 & I3 & I4 & I5).
        split; [split; [|split; [|split]]|].
        + apply (relabel_repr _ (TBranch x0 cs)); [split; [exact H2|reflexivity]|exact H4].
        + apply invs_branch. destruct H2 as (B1 & B2 & B3 & B4 & B5). rewrite B2, B4, B5, H3. split; [exact I1|]. split; [|auto].
          destruct Hcfg as (_ & _ & _ & L1 & L2). split; now apply branch_sealed_le.
        + intros av Hf. apply (relabel_avail _ (TBranch x0 cs)); [split; [exact H2|reflexivity]|].
          pose proof (gt_keep cfg sec Av Ps _ _ _ _ lim _ W G) as ((_ & _ & A' & _) & _). apply A'; [exact av|]. exact Hf.
        + intros ps. specialize (P ps). apply psealed_branch in P. now apply psealed_branch.
        + intros ps. specialize (Pk ps). destruct H2 as (B1 & B2 & B3 & B4 & B5).
          exact (pk_flip cfg _ _ _ I' B2 Pk).
      - destruct E2 as [->|[e ->]]; cbn; eauto.
      - intros Re Ab. rewrite E3; [cbn; eauto|exact Re|].
        apply (relabel_avail_branches _ (TBranch x cs)); [|exact Ab].
        split; [|easy]. unfold alike in *. intuition congruence.
    Qed.

    Lemma load_tree_ok fo i lim t l r fo' : fok sec fo -> snap_tree fo i lim t ->
      (match i with ILeaf _ => False | _ => True end) -> ilink i = Some l ->
      load_tree fo sec l = (r, fo') ->
      fsame fo fo' /\ (forall s, r = Ok s -> exists i' o t', s = Some (i', sec, o) /\ snap_tree fo' i' lim t' /\ relabel t t' /\ (o <= lim)%N)
      /\ ((exists s, r = Ok s) \/ exists e, r = Err e)
      /\ (ReliableReads T B -> avail_branches (fo_store fo) t -> exists s, r = Ok s).
    Proof.
      intros F (<- & t0 & G & Hr) Hb El E. destruct t as [x vs|x|x cs|x]; [easy|easy| |].
      2: { destruct t0; try discriminate Hr. injection Hr as ->. destruct G as ((R & _) & _). cbn in R, El. congruence. }
      destruct t0 as [| |x0 cs0|]; try discriminate Hr. destruct Hr as [Hal <-].
      assert (El0 : bi_link x0 = Some l). { destruct Hal as (H & _). cbn in El. congruence. }
      pose proof G as ((R & I & A & P) & Pk).
      destruct (create_index_rd _ _ _ (fun _ _ => true) _ R I El0) as (x' & rg & H1 & H2 & H3 & H4 & H5 & _).
      unfold load_tree in E. destruct (read fo _) as [r0 fo0] eqn:E0. injection E as <- <-.
      eapply (read_rd sec) in E0 as (E1 & E2 & E3); [| |apply rf_create_index|exact H1]; [|exact F].
      pose proof (fsame_fext sec _ _ lim E1) as W.
      assert (Hal' : alike x x'). { unfold alike in *. intuition congruence. }
      split; [exact E1|]. split; [|split].
      - intros s Hs. destruct E2 as [->|[e ->]]; [|discriminate]. injection Hs as <-. cbn.
        exists (IBranch x'), (snd rg), (TBranch x' cs). split; [easy|]. split; [|split; [split; [exact Hal'|easy]|exact H5]].
        split; [easy|]. exists (TBranch x0 cs). split; [eapply gt_keep; eauto|]. split; [exact H2|easy].
      - destruct E2 as [->|[e ->]]; cbn; eauto.
      - intros Re Ab. rewrite E3; [cbn; eauto|exact Re|].
        apply (relabel_avail_branches _ (TBranch x cs)); [|exact Ab].
        split; [|easy]. unfold alike in *. intuition congruence.
    Qed.
  End Kind.

  (** ** All histories *)

  Section History.
    Variable k : kind.
    Notation Av := (k_lose k = false).
    Notation Ps := (k_repair k = false).
    Notation sys_ok := (sys_good Av Ps).
    Notation fext := (fext sec).

    Lemma nth_error_Forall {A} (P : A -> Prop) l n a : Forall P l -> nth_error l n = Some a -> P a.
    Proof. intros H E. apply nth_error_In in E. rewrite Forall_forall in H. auto. Qed.

    Lemma sys_b_eqs s : sys_ok s -> b_sec (sy_b s) = sec /\ b_cfg (sy_b s) = cfg.
    Proof. intros ((n & F & Es & Ec & _) & _). auto. Qed.
    Lemma sys_fok s : sys_ok s -> fok sec (sy_fo s).
    Proof. now intros ((n & F & _) & _). Qed.

    (** What a step leaves of the past: snapshots stay in the list, nothing is
        removed from the log, and nothing but [OLose] removes blocks. *)
    Definition grows (s s' : sys) : Prop :=
      (exists new, sy_snaps s' = sy_snaps s ++ new)
      /\ (exists new, fo_log (sy_fo s') = fo_log (sy_fo s) ++ new)
      /\ (Av -> forall l d, sblocks (fo_store (sy_fo s)) l = Some d -> sblocks (fo_store (sy_fo s')) l = Some d).

    Lemma grows_refl s : grows s s.
    Proof. split; [exists []; now rewrite app_nil_r|]. split; [exists []; now rewrite app_nil_r|auto]. Qed.
    Lemma grows_trans a b c : grows a b -> grows b c -> grows a c.
    Proof.
      intros ((n1 & E1) & (l1 & L1) & B1) ((n2 & E2) & (l2 & L2) & B2). split; [|split].
      - exists (n1 ++ n2). now rewrite E2, E1, app_assoc.
      - exists (l1 ++ l2). now rewrite L2, L1, app_assoc.
      - auto.
    Qed.
    Lemma fext_grows s fo off off' s' : fext (sy_fo s) off fo off' -> sy_fo s' = fo -> sy_snaps s' = sy_snaps s -> grows s s'.
    Proof.
      intros W <- E. split; [exists []; now rewrite app_nil_r|]. split.
      - destruct W as (_ & _ & new & L & _). exists new. exact L.
      - intros _ l d. apply (wext_blocks _ _ _ _ _ W).
    Qed.

    Lemma step_ok o s r s' : sys_ok s -> op_ok o s -> op_in k o -> exec o s = (r, s') -> sys_ok s' /\ grows s s'.
    Proof.
      intros S Hok Hin E. pose proof S as ((n & I) & Hsaved & Hsnaps).
      pose proof (sys_b_eqs _ S) as [Es Ec]. pose proof (sys_fok _ S) as F.
      destruct o; cbn [exec] in E.
      - (* extend *)
        destruct (extend _ _ _) as [[r0 fo] b] eqn:E0. injection E as <- <-.
        destruct (extend_api cfg sec Hcfg Av Ps _ _ _ _ _ _ _ I E0) as (W & (n' & I' & _) & _).
        split; [eapply step_with_b; eauto|]. eapply fext_grows; eauto.
      - destruct (push _ _ _ _) as [[r0 fo] b] eqn:E0. injection E as <- <-.
        destruct (extend_api cfg sec Hcfg Av Ps _ _ _ _ _ _ _ I E0) as (W & (n' & I' & _) & _).
        split; [eapply step_with_b; eauto|]. eapply fext_grows; eauto.
      - destruct (extend_unpacked _ _ _) as [[r0 fo] b] eqn:E0. injection E as <- <-.
        destruct (extend_unpacked_api cfg sec Hcfg Av Ps _ _ _ _ _ _ _ I E0) as (W & (n' & I' & _) & _).
        split; [eapply step_with_b; eauto|]. eapply fext_grows; eauto.
      - destruct (pack _ _) as [[r0 fo] b] eqn:E0. injection E as <- <-.
        destruct (pack_api cfg sec Hcfg Av Ps _ _ _ _ _ _ I E0) as (W & (n' & I' & _)).
        split; [eapply step_with_b; eauto|]. eapply fext_grows; eauto.
      - destruct (retain _ _ _) as [[r0 fo] b] eqn:E0. injection E as <- <-.
        destruct (retain_api cfg sec Av Ps _ _ _ _ _ _ _ _ I (any_purge_ok cfg sec q) E0) as (W & (n' & I' & _) & _).
        split; [eapply step_with_b; eauto|]. eapply fext_grows; eauto.
      - destruct (repair _ _) as [[r0 fo] b] eqn:E0. injection E as <- <-.
        destruct (repair_api cfg sec Av Ps _ _ _ _ _ _ I E0) as (W & _ & H1 & H2).
        split; [|eapply fext_grows; eauto]. cbn in Hin.
        destruct r0 as [rep|e|p|].
        2,3,4: destruct H1 as [_ H1]; [discriminate|]; eapply step_with_b; eauto.
        destruct (H2 rep eq_refl) as (n' & I' & _).
        apply (step_with_b Av Ps _ _ _ n' S W).
        destruct I' as (J1 & J2 & J3 & J4 & J5). split; [easy|]. splits; auto.
        destruct n' as [t|]; [|easy]. destruct J5 as ((R1 & R2 & R3 & R4) & R5). split; [split; [|split; [|split]]|]; auto; congruence.
      - (* begin *)
        injection E as <- <-. split; [|apply (fext_grows _ _ 0 0 _ (fext_refl _ _ _)); easy].
        split; [exists n; exact I|]. split; [|exact Hsnaps]. cbn. constructor; [|exact Hsaved].
        exists n. destruct I as (_ & _ & _ & Er & G). auto.
      - injection E as <- <-. split; [|apply (fext_grows _ _ 0 0 _ (fext_refl _ _ _)); easy].
        split; [exists n; exact I|]. split; [|exact Hsnaps]. cbn. destruct (se_saved (sy_se s)); [constructor|]. now inversion Hsaved.
      - injection E as <- <-. split; [|apply (fext_grows _ _ 0 0 _ (fext_refl _ _ _)); easy].
        unfold sys_good, sy_b, tx_drop in *. cbn. destruct (se_saved (sy_se s)) as [|r0 rs] eqn:Esv.
        + split; [exists n; exact I|]. split; [now rewrite Esv|exact Hsnaps].
        + cbn. inversion Hsaved as [|? ? (n0 & E0 & G0) Hs2]; subst. split; [|split; auto].
          exists n0. destruct I as (J1 & J2 & J3 & J4 & J5). split; [easy|]. splits; auto.
      - (* snapshot *)
        injection E as <- <-. split.
        + split; [exists n; exact I|]. split; [exact Hsaved|]. cbn. apply Forall_app. split; [exact Hsnaps|].
          constructor; [|constructor]. eapply snapshot_good; eauto.
        + split; [cbn; eauto|]. split; [exists []; now rewrite app_nil_r|auto].
      - (* reload *)
        destruct (obind _ _) as [l|] eqn:El.
        2:{ injection E as <- <-. split; [exact S|apply grows_refl]. }
        destruct (nth_error (sy_snaps s) n0) as [t|] eqn:En; [|discriminate]. cbn in El.
        pose proof (Hok _ En) as Hbr. cbn in Hbr. pose proof (nth_error_Forall _ _ _ _ Hsnaps En) as Hg.
        destruct t as [[[i sec'] o]|]; [|discriminate]. destruct Hg as (-> & lim & t & Hg). cbn in El. rewrite Es, Ec in E.
        destruct (load_stream_builder _ _ _ _) as [r0 fo] eqn:E0.
        destruct (load_builder Av Ps _ _ _ _ _ _ _ F Hg Hbr El E0) as (W & H1 & H2 & _).
        destruct H2 as [(b' & ->)|(e & ->)]; injection E as <- <-.
        + destruct (H1 b' eq_refl) as (t' & I' & _ & _). split.
          * split; [exists (Some t'); exact I'|]. split; [constructor|]. cbn. eapply Forall_impl; [|exact Hsnaps].
            intros t2. eapply snap_keep. apply (fsame_fext sec _ _ 0 W).
          * eapply fext_grows; eauto. apply (fsame_fext sec _ _ 0 W).
        + split; [now apply step_with_fo|]. eapply fext_grows; eauto. apply (fsame_fext sec _ _ 0 W).
      - (* load *)
        destruct (obind _ _) as [l|] eqn:El.
        2:{ injection E as <- <-. split; [exact S|apply grows_refl]. }
        destruct (nth_error (sy_snaps s) n0) as [t|] eqn:En; [|discriminate]. cbn in El.
        pose proof (Hok _ En) as Hbr. cbn in Hbr. pose proof (nth_error_Forall _ _ _ _ Hsnaps En) as Hg.
        destruct t as [[[i sec'] o]|]; [|discriminate]. destruct Hg as (-> & lim & t & Hg). cbn in El. rewrite Es in E.
        destruct (load_tree _ _ _) as [r0 fo] eqn:E0.
        destruct (load_tree_ok Av Ps _ _ _ _ _ _ _ F Hg Hbr El E0) as (W & H1 & H2 & _).
        destruct H2 as [(b' & ->)|(e & ->)]; injection E as <- <-.
        + destruct (H1 b' eq_refl) as (i' & o' & t' & -> & I' & _ & _).
          destruct (step_with_fo Av Ps _ _ S W) as (S1 & S2 & S3). split.
          * split; [exact S1|]. split; [exact S2|]. cbn. apply Forall_app. split; [exact S3|].
            constructor; [|constructor]. cbn. split; [easy|]. eauto.
          * destruct W as (_ & W2 & _ & W4). cbn in W2, W4. split; [cbn; eauto|]. split; cbn; [rewrite W4; exists []; now rewrite app_nil_r|].
            intros _ l0 d. apply W2.
        + split; [now apply step_with_fo|]. eapply fext_grows; eauto. apply (fsame_fext sec _ _ 0 W).
      - (* read *)
        destruct (nth_error (sy_snaps s) n0) as [t|] eqn:En.
        2:{ injection E as <- <-. split; [exact S|apply grows_refl]. }
        destruct (do_read _ _ _) as [r1 fo] eqn:E0. injection E as <- <-.
        pose proof (nth_error_Forall _ _ _ _ Hsnaps En) as Hg. apply (do_read_same Av Ps _ _ _ _ _ Hg) in E0 as W.
        split; [now apply step_with_fo|]. eapply fext_grows; eauto. apply (fsame_fext sec _ _ 0 W).
      - (* check_invariants *)
        destruct (check_invariants _ _) as [r1 fo] eqn:E0. injection E as <- <-.
        assert (W : fsame sec (sy_fo s) fo).
        { unfold check_invariants in E0. rewrite Es in E0. destruct (b_root (sy_b s)).
          - eapply (read_fsame sec); [|exact E0]. apply rf_check_invariants0.
          - injection E0 as <- <-. apply fsame_refl. }
        split; [now apply step_with_fo|]. eapply fext_grows; eauto. apply (fsame_fext sec _ _ 0 W).
      - (* lose *)
        injection E as <- <-. cbn in Hok, Hin. split.
        2:{ split; [exists []; now rewrite app_nil_r|]. split; [exists []; now rewrite app_nil_r|]. intros av. congruence. }
        set (fo := {| fo_store := s0; fo_cache := _; fo_log := _ |}).
        assert (Hgt : forall lim t, gt cfg sec Av Ps (sy_fo s) lim t -> gt cfg sec Av Ps fo lim t).
        { intros lim t ((R1 & R2 & R3 & R4) & R5). split; [|easy]. split; [easy|]. split; [easy|]. split; [|easy]. intros av. congruence. }
        assert (Hgn : forall lim t, gn cfg sec Av Ps (sy_fo s) lim t -> gn cfg sec Av Ps fo lim t).
        { intros lim [t|]; cbn; auto. }
        split; [|split].
        + exists n. destruct I as ((J0 & J1) & J2 & J3 & J4 & J5). split; [|splits; auto; now apply Hgn]. split; [|exact J1].
          intros l d Hd. apply J0. now apply Hok.
        + eapply Forall_impl; [|exact Hsaved]. intros r0 (n0 & E0 & G0). exists n0. split; auto.
        + eapply Forall_impl; [|exact Hsnaps]. intros [[[i sec'] o]|]; [|easy]. intros (-> & lim & t & E0 & t0 & G0 & Hr).
          split; [easy|]. exists lim, t. split; [easy|]. exists t0. split; auto.
      - (* evict *)
        injection E as <- <-. cbn in Hok. split.
        2:{ split; [exists []; now rewrite app_nil_r|]. split; [exists []; now rewrite app_nil_r|]. auto. }
        set (fo := {| fo_store := _; fo_cache := c; fo_log := _ |}).
        split; [|split].
        + exists n. destruct I as ((J0 & J1) & J2 & J3 & J4 & J5). split; [|splits; auto]. split; [exact J0|].
          intros l b Hb. apply J1. now apply Hok.
        + exact Hsaved.
        + exact Hsnaps.
      - (* other users of the forest *)
        injection E as <- <-. cbn in Hok. destruct Hok as (O1 & O2 & O3). split.
        2:{ split; [exists []; now rewrite app_nil_r|]. split; [exists []; now rewrite app_nil_r|]. intros _. exact O1. }
        set (fo := {| fo_store := s0; fo_cache := c; fo_log := _ |}).
        assert (Hgt : forall lim t, gt cfg sec Av Ps (sy_fo s) lim t -> gt cfg sec Av Ps fo lim t).
        { intros lim t ((R1 & R2 & R3 & R4) & R5). split; [|easy]. split; [easy|]. split; [easy|]. split; [|easy].
          intros av Hf. eapply avail_mono; [exact O1|]. now apply (R3 av). }
        assert (Hgn : forall lim t, gn cfg sec Av Ps (sy_fo s) lim t -> gn cfg sec Av Ps fo lim t).
        { intros lim [t|]; cbn; auto. }
        split; [|split].
        + exists n. destruct I as ((J0 & J1) & J2 & J3 & J4 & J5). split; [|splits; auto; now apply Hgn]. split; [exact O2|].
          intros l b Hb. cbn in Hb. apply O3 in Hb as [Hb|Hb]; [now apply J1|]. rewrite Es in Hb. exact Hb.
        + eapply Forall_impl; [|exact Hsaved]. intros r0 (n0 & E0 & G0). exists n0. split; auto.
        + eapply Forall_impl; [|exact Hsnaps]. intros [[[i sec'] o]|]; [|easy]. intros (-> & lim & t & E0 & t0 & G0 & Hr).
          split; [easy|]. exists lim, t. split; [easy|]. exists t0. split; auto.
    Qed.

    Lemma start_ok s : start cfg sec s -> sys_ok s.
    Proof.
      intros (E & H1 & H2 & H3). rewrite E. split; [|split; constructor]. exists None.
      assert (fok sec (sy_fo s)). { split; [exact H1|]. intros l b Hb. cbn in Hb. now apply H2 in Hb. }
      unfold bgood. cbn. splits; auto.
    Qed.

    Lemma hist_ok s s' : sys_ok s -> hist k s s' -> sys_ok s' /\ grows s s'.
    Proof.
      intros S. induction 1 as [|s1 o r s2 H IH Hok Hin E]; [split; [exact S|apply grows_refl]|].
      destruct IH as [IH1 IH2]. destruct (step_ok _ _ _ _ IH1 Hok Hin E) as [S2 G]. split; [exact S2|].
      eapply grows_trans; eauto.
    Qed.

    Lemma reach_ok s : reach k cfg sec s -> sys_ok s.
    Proof. intros (s0 & H0 & H). apply start_ok in H0. eapply hist_ok; eauto. Qed.
  End History.
End Sys.

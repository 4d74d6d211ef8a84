(** Transactions with a writer of their own: C97. *)
From Coq Require Import List NArith ZArith Lia Bool String Arith.
From Verif Require Import Base BaseProofs Cbor Types Seq SeqProofs Query QuerySpec World Read Write Api History Spec Ghost Frame ReadProofs Packable WriteProofs QueryProofs PackProofs RetainProofs RepairProofs NoPurged ApiProofs SysProofs HistProofs Instance Example PropsRead PropsShared Transaction.
Import ListNotations.

Section Laws.
  Context {T : Types} {TL : TypesLaws T} {B : Backend T} {BL : BackendLaws T B} {HO : Honest T B}
          {WR : Writer T B} {WL : WriterLaws T B WR}.
  Variable through : bool.
  Notation TB := (tx_backend B through).

  Lemma find_block_some ds l d : find_block B ds l = Some d -> In d ds /\ l = digest d.
  Proof. unfold find_block. intros H. apply find_some in H as [H1 H2]. split; [exact H1|]. now apply l_eqb_eq. Qed.
  Lemma find_block_in ds d : In d ds -> find_block B ds (digest d) = Some d.
  Proof.
    intros H. destruct (find_block B ds (digest d)) as [e|] eqn:E.
    - apply find_block_some in E as [_ E]. apply digest_inj in E. now subst.
    - unfold find_block in E. eapply find_none in E; [|exact H]. cbn in E.
      assert (l_eqb (digest d) (digest d) = true) by now apply l_eqb_eq. congruence.
  Qed.

  (** What the two stores have: all of it under its digest. *)
  Lemma tx_has (s : @Store T TB) l d :
    @sblocks T TB s l = Some d <-> l = digest d /\ (sblocks (fst s) l = Some d \/ In d (wheld (snd s))).
  Proof.
    cbn. destruct (sblocks (fst s) l) as [e|] eqn:E.
    - apply honest in E as El. split.
      + intros [= <-]. auto.
      + intros [-> [[= ->]|H]]; [easy|]. apply digest_inj in El. now subst.
    - split.
      + intros H. apply find_block_some in H as [H1 H2]. auto.
      + intros [-> [[=]|H]]. now apply find_block_in.
  Qed.

  Lemma tx_laws : BackendLaws T TB.
  Proof.
    constructor.
    - exact (@digest_inj T B BL).
    - intros s l r s' x b H Hb. apply tx_has in Hb as [E Hb]. apply tx_has. split; [exact E|].
      cbn in H. destruct (if through then _ else _) as [d|]; [injection H as <- <-; exact Hb|].
      destruct (sget (fst s) l) as [r0 b0] eqn:G. injection H as <- <-. cbn.
      destruct Hb as [Hb|Hb]; [left|auto]. eapply sget_keeps; eauto.
    - intros s l r s' x b H Hb. apply tx_has in Hb as [E Hb]. auto.
    - intros s l d s' H. apply tx_has. cbn in H. destruct (if through then _ else _) as [d0|] eqn:F.
      + injection H as <- <-. destruct through; [|discriminate]. apply find_block_some in F as [F1 F2]. auto.
      + destruct (sget (fst s) l) as [r0 b0] eqn:G. injection H as -> <-. apply sget_sound in G.
        cbn. split; [now apply honest in G|auto].
    - intros s d r s' x b H Hb. apply tx_has in Hb as [E Hb]. apply tx_has. split; [exact E|].
      cbn in H. destruct (wput (snd s) d) as [r0 w] eqn:G. injection H as <- <-. cbn.
      destruct Hb as [Hb|Hb]; [auto|right]. eapply wput_keeps; eauto.
    - intros s d r s' x b H Hb. apply tx_has in Hb as [E _]. auto.
    - intros s d l s' H. cbn in H. destruct (wput (snd s) d) as [r0 w] eqn:G. injection H as -> <-.
      apply wput_link in G as [-> G]. split; [easy|]. apply tx_has. auto.
    - exact (@cget_sound T B BL).
    - exact (@cget_keeps T B BL).
    - exact (@cput_adds T B BL).
  Qed.

  Lemma tx_reliable : through = true -> ReliableReads T B -> ReliableReads T TB.
  Proof.
    intros Ht RR. constructor. intros s l d H. apply tx_has in H as [-> H]. cbn. rewrite Ht.
    destruct (find_block B (wheld (snd s)) (digest d)) as [e|] eqn:F.
    - apply find_block_some in F as [_ F]. apply digest_inj in F. now subst.
    - destruct H as [H|H]; [|apply find_block_in in H; congruence].
      apply sget_reliable in H. destruct (sget (fst s) (digest d)). exact H.
  Qed.
End Laws.

(** ** Between the forest and the transaction *)
Section Between.
  Context {T : Types} {TL : TypesLaws T} {X : Ext} {XL : ExtLaws X}
          {B : Backend T} {BL : BackendLaws T B} {HO : Honest T B}
          {WR : Writer T B} {WL : WriterLaws T B WR}.
  Variable through : bool.
  Notation TB := (tx_backend B through).
  #[local] Instance TBL : BackendLaws T TB := tx_laws through.

  Lemma avail_out (s : @Store T TB) (st : @Store T B) t :
    (forall l d, @sblocks T TB s l = Some d -> sblocks st l = Some d) -> @avail T TB s t -> avail st t.
  Proof.
    intros Hs. induction t using tree_ind'; intros A; try exact I.
    - destruct A as ((l & d & A1 & A2) & A3). split; [|easy]. eauto.
    - apply avail_branch in A as ((l & d & A1 & A2) & A3 & A4). apply avail_branch.
      repeat split; eauto. rewrite Forall_forall in *. auto.
  Qed.
  Lemma avail_in (st : @Store T B) (s : @Store T TB) t :
    (forall l d, sblocks st l = Some d -> @sblocks T TB s l = Some d) -> avail st t -> @avail T TB s t.
  Proof.
    intros Hs. induction t using tree_ind'; intros A; try exact I.
    - destruct A as ((l & d & A1 & A2) & A3). split; [|easy]. eauto.
    - apply avail_branch in A as ((l & d & A1 & A2) & A3 & A4). apply avail_branch.
      repeat split; eauto. rewrite Forall_forall in *. auto.
  Qed.

  Variable cfg : Setting.
  Variable sec : Secrets.
  Variable Av Ps : Prop.

  Lemma fok_out (fo : @Forest T TB) (st : @Store T B) : store_ok st -> fok sec fo ->
    fok sec (@Build_Forest T B st (fo_cache fo) (fo_log fo)).
  Proof. intros H [_ H2]. split; [exact H|exact H2]. Qed.
  Lemma store_ok_honest (st : @Store T B) : store_ok st.
  Proof. intros l d H. now apply honest in H. Qed.

  Lemma gt_out (fo : @Forest T TB) (st : @Store T B) lim t :
    (Av -> forall l d, @sblocks T TB (fo_store fo) l = Some d -> sblocks st l = Some d) ->
    gt cfg sec Av Ps fo lim t -> gt cfg sec Av Ps (@Build_Forest T B st (fo_cache fo) (fo_log fo)) lim t.
  Proof.
    intros Hs [(H1 & H2 & H3 & H4) H5]. split; [|exact H5]. split; [exact H1|]. split; [exact H2|]. split; [|exact H4].
    intros av Hf. eapply avail_out; [now apply Hs|]. now apply H3.
  Qed.
  Lemma gt_in (fo : @Forest T B) (s : @Store T TB) lim t :
    (Av -> forall l d, sblocks (fo_store fo) l = Some d -> @sblocks T TB s l = Some d) ->
    gt cfg sec Av Ps fo lim t -> gt cfg sec Av Ps (@Build_Forest T TB s (fo_cache fo) (fo_log fo)) lim t.
  Proof.
    intros Hs [(H1 & H2 & H3 & H4) H5]. split; [|exact H5]. split; [exact H1|]. split; [exact H2|]. split; [|exact H4].
    intros av Hf. eapply avail_in; [now apply Hs|]. now apply H3.
  Qed.

  Lemma sys_out (s : @sys T TB) (st : @Store T B) :
    (Av -> forall l d, @sblocks T TB (fo_store (sy_fo s)) l = Some d -> sblocks st l = Some d) ->
    sys_good cfg sec Av Ps s -> sys_good cfg sec Av Ps (tx_close B s st).
  Proof.
    intros Hs ((n & F & Es & Ec & Er & G) & H2 & H3). split; [|split].
    - exists n. split; [apply fok_out; [apply store_ok_honest|exact F]|]. split; [exact Es|]. split; [exact Ec|]. split; [exact Er|].
      destruct n as [t|]; [|easy]. now apply gt_out.
    - eapply Forall_impl; [|exact H2]. intros r (n0 & E & G0). exists n0. split; [exact E|].
      destruct n0 as [t|]; [|easy]. now apply gt_out.
    - eapply Forall_impl; [|exact H3]. intros t. destruct t as [[[i s0] lim]|]; [|easy].
      intros (-> & lim' & t' & E & t0 & G0 & Hr). split; [easy|]. exists lim', t'. split; [easy|]. exists t0.
      split; [now apply gt_out|easy].
  Qed.
  Lemma sys_in (s : @sys T B) (w : W) :
    sys_good cfg sec Av Ps s -> sys_good cfg sec Av Ps (tx_open B through s w).
  Proof.
    assert (Hs : Av -> forall l d, sblocks (fo_store (sy_fo s)) l = Some d -> @sblocks T TB (fo_store (sy_fo s), w) l = Some d).
    { intros _ l d H. apply tx_has. split; [now apply honest in H|auto]. }
    intros ((n & F & Es & Ec & Er & G) & H2 & H3). split; [|split].
    - exists n. split; [|split; [exact Es|split; [exact Ec|split; [exact Er|]]]].
      + destruct F as [F1 F2]. split; [|exact F2]. intros l d H. now apply tx_has in H as [H _].
      + destruct n as [t|]; [|easy]. now apply gt_in.
    - eapply Forall_impl; [|exact H2]. intros r (n0 & E & G0). exists n0. split; [exact E|].
      destruct n0 as [t|]; [|easy]. now apply gt_in.
    - eapply Forall_impl; [|exact H3]. intros t. destruct t as [[[i s0] lim]|]; [|easy].
      intros (-> & lim' & t' & E & t0 & G0 & Hr). split; [easy|]. exists lim', t'. split; [easy|]. exists t0.
      split; [now apply gt_in|easy].
  Qed.

  Lemma store_all_has ds : forall st st', store_all B st ds = (true, st') ->
    (forall l d, sblocks st l = Some d -> sblocks st' l = Some d) /\ forall d, In d ds -> sblocks st' (digest d) = Some d.
  Proof.
    induction ds as [|d ds IH]; intros st st' E; cbn in E.
    - injection E as <-. split; [auto|easy].
    - destruct (sput st d) as [[l|] st1] eqn:P; [|discriminate]. apply IH in E as [E1 E2].
      split.
      + intros l' d' H. apply E1. eapply sput_keeps; eauto.
      + intros d' [<-|H]; [|auto]. apply sput_link in P as [-> P]. auto.
  Qed.

  Lemma committed (s : @sys T TB) st : store_all B (tx_base B s) (tx_blocks B s) = (true, st) ->
    forall l d, @sblocks T TB (fo_store (sy_fo s)) l = Some d -> sblocks st l = Some d.
  Proof.
    intros E l d H. apply store_all_has in E as [E1 E2]. apply tx_has in H as [-> [H|H]]; [now apply E1|now apply E2].
  Qed.
End Between.

(** ** C97 *)
Section Props.
  Context {T : Types} {TL : TypesLaws T} {X : Ext} {XL : ExtLaws X}
          {B : Backend T} {BL : BackendLaws T B} {HO : Honest T B}
          {WR : Writer T B} {WL : WriterLaws T B WR}.
  Variable through : bool.
  Notation TB := (tx_backend B through).
  #[local] Instance TBL' : BackendLaws T TB := tx_laws through.

  Variable cfg : Config.
  Variable sec : Secrets.
  Hypothesis Hcfg : config_ok cfg.

  (** What may happen in a transaction that began as [s0]: any operations on the
      stream; meanwhile other users may add blocks to the store of the forest, and
      the cache may drop entries. No repair; the stores lose nothing. *)
  Inductive tx_run (s0 : @sys T TB) : @sys T TB -> Prop :=
  | tx_start : tx_run s0 s0
  | tx_step s o r s' :
      tx_run s0 s -> op_ok o s -> op_in no_loss o ->
      (forall st c, o = OOthers st c ->
         forall l d, sblocks (tx_base B s) l = Some d -> sblocks (fst st) l = Some d) ->
      exec o s = (r, s') -> tx_run s0 s'.

  Lemma tx_run_hist s0 s : tx_run s0 s -> hist no_loss s0 s.
  Proof. induction 1; [constructor|econstructor; eauto]. Qed.

  Notation good := (sys_good cfg sec (k_lose no_loss = false) (k_repair no_loss = false)).

  Lemma tx_good s w s1 : reach no_loss cfg sec s -> tx_run (tx_open B through s w) s1 -> good s1.
  Proof.
    intros R H. apply (reach_ok cfg sec Hcfg) in R. apply (sys_in through _ _ _ _ _ w) in R.
    apply tx_run_hist in H. now destruct (hist_ok cfg sec Hcfg no_loss _ _ R H).
  Qed.

  Lemma good_known {B' : Backend T} {BL' : BackendLaws T B'} (s : @sys T B') t : sys_good cfg sec True True s -> known s t ->
    fok sec (sy_fo s) /\ snap_good cfg sec True True (sy_fo s) t.
  Proof.
    intros ((n & I) & _ & Hs) K. split; [apply I|]. destruct K as [->|K]; [eapply snapshot_good; eauto|].
    rewrite Forall_forall in Hs. auto.
  Qed.

  Lemma good_true {B' : Backend T} {BL' : BackendLaws T B'} (s : @sys T B') :
    sys_good cfg sec (k_lose no_loss = false) (k_repair no_loss = false) s -> sys_good cfg sec True True s.
  Proof.
    assert (G : forall fo lim t, gt cfg sec (k_lose no_loss = false) (k_repair no_loss = false) fo lim t -> gt cfg sec True True fo lim t).
    { intros fo lim t [(H1 & H2 & H3 & H4) H5]. split; [|intros _; now apply H5]. split; [easy|]. split; [easy|]. split; intros _; [now apply H3|now apply H4]. }
    intros ((n & F & Es & Ec & Er & H) & H2 & H3). split; [|split].
    - exists n. split; [exact F|]. splits; auto. destruct n as [t|]; [|easy]. now apply G.
    - eapply Forall_impl; [|exact H2]. intros r (n0 & E & G0). exists n0. split; [exact E|]. destruct n0 as [t|]; [|easy]. now apply G.
    - eapply Forall_impl; [|exact H3]. intros t. destruct t as [[[i s0] lim]|]; [|easy].
      intros (-> & lim' & t' & E & t0 & G0 & Hr). split; [easy|]. exists lim', t'. split; [easy|]. exists t0. split; [now apply G|easy].
  Qed.

  Lemma behind_out t n : @behind T X TB sec t n -> @behind T X B sec t n.
  Proof. destruct t as [[[i s] o]|], n; easy. Qed.

  (** Every tree of the transaction has one content. Once the blocks of the writer
      have been stored, all reads of it from the forest succeed and give that
      content, now and after anything that is done with the forest later. Before
      that, and whatever has been stored, no read from the forest gives anything
      else; and inside the transaction all reads succeed if its reader sees what
      the writer has. *)
  Theorem C97_commit s w s1 t (RR : ReliableReads T B) :
    reach no_loss cfg sec s -> tx_run (tx_open B through s w) s1 -> known s1 t ->
    exists c, tree_count t = List.length c
      /\ (forall st, store_all B (tx_base B s1) (tx_blocks B s1) = (true, st) ->
            forall s2, hist no_loss (tx_close B s1 st) s2 -> small_branches (sy_fo s2) -> answers_all (sy_fo s2) t c)
      /\ (forall st, answers (sy_fo (tx_close B s1 st)) t c)
      /\ (through = true -> small_branches (sy_fo s1) -> answers_all (sy_fo s1) t c).
  Proof.
    intros R H K. pose proof (tx_good _ _ _ R H) as S. pose proof (good_true _ S) as S'.
    destruct (good_known _ _ S' K) as [F G]. destruct (snap_behind _ _ _ _ _ _ G) as (n & Bh).
    exists (ocontent n). split; [exact (behind_count (B := TB) sec _ _ Bh)|]. split; [|split].
    - intros st E s2 H2 Hs.
      assert (S2 : sys_good cfg sec (k_lose no_loss = false) (k_repair no_loss = false) (tx_close B s1 st)).
      { apply sys_out; [|exact S]. intros _. now apply committed. }
      destruct (hist_ok cfg sec Hcfg no_loss _ _ S2 H2) as (S3 & Hg).
      assert (Kt : known (tx_close B s1 st) t) by exact K.
      destruct (good_known _ _ (good_true _ S2) Kt) as [F2 G2].
      destruct Hg as (_ & Hlog & Hb).
      apply (behind_answers_all sec _ _ n RR); [|exact (sys_fok cfg sec no_loss _ S3)|now apply behind_out].
      eapply (behind_avail cfg sec); [|apply behind_out; exact Bh|exact Logic.I|exact Hs].
      eapply snap_grow; [exact Hlog| |exact G2]. intros _. now apply Hb.
    - intros st. apply (behind_answers sec); [|now apply behind_out]. apply fok_out; [apply store_ok_honest|exact F].
    - intros Ht Hs. apply (behind_answers_all sec _ _ n (tx_reliable through Ht RR)); [|exact F|exact Bh].
      eapply (behind_avail cfg sec); eauto.
  Qed.

  (** The content of the tree after an extend in the transaction. *)
  Theorem C97_extend s w items c fo1 b1 st (RR : ReliableReads T B) :
    reach no_loss cfg sec s -> reads (sy_fo s) (snapshot (sy_b s)) c ->
    extend (sy_fo (tx_open B through s w)) (sy_b s) items = (Ok tt, fo1, b1) ->
    store_all B (fst (fo_store fo1)) (wheld (snd (fo_store fo1))) = (true, st) ->
    small_branches fo1 ->
    answers_all (@Build_Forest T B st (fo_cache fo1) (fo_log fo1)) (snapshot b1) (c ++ map Some items).
  Proof.
    intros R Hc E Hst Hs. apply (reach_ok cfg sec Hcfg) in R as S. apply (sys_in through _ _ _ _ _ w) in S as S1.
    destruct S as ((n & I) & _). rewrite (reads_b _ _ _ _ _ _ _ _ I Hc).
    destruct S1 as ((n1 & I1) & _).
    assert (En : n1 = n).
    { destruct I as (_ & _ & _ & Er & G), I1 as (_ & _ & _ & Er1 & G1). change (b_root (sy_b (tx_open B through s w))) with (b_root (sy_b s)) in Er1.
      rewrite Er in Er1. destruct n as [g|], n1 as [g1|]; try discriminate; [|reflexivity]. f_equal. injection Er1 as Er1.
      destruct G as [(G & _) _], G1 as [(G1 & _) _]. eapply (repr_det (B := B)); [exact G1|exact G|now symmetry]. }
    subst n1. destruct (extend_api cfg sec Hcfg _ _ _ _ _ _ _ _ _ I1 E) as (_ & (n' & I' & Q & _) & _).
    destruct (Q eq_refl) as [Q1 _]. rewrite <- Q1.
    assert (S' : sys_good cfg sec (k_lose no_loss = false) (k_repair no_loss = false)
                   (@Build_sys T TB fo1 {| se_b := b1; se_saved := [] |} [])).
    { split; [exists n'; exact I'|]. split; constructor. }
    apply (sys_out through _ _ _ _ _ st) in S' as ((n2 & I2) & _).
    2: { intros _. exact (committed through (@Build_sys T TB fo1 {| se_b := b1; se_saved := [] |} []) st Hst). }
    assert (En : n2 = n').
    { destruct I' as (_ & _ & _ & Er & G), I2 as (_ & _ & _ & Er2 & G2). change (b_root (sy_b _)) with (b_root b1) in Er2.
      rewrite Er in Er2. destruct n' as [g|], n2 as [g1|]; try discriminate; [|reflexivity]. f_equal. injection Er2 as Er2.
      destruct G as [(G & _) _], G2 as [(G2 & _) _]. eapply (repr_det (B := B)); [exact G2|exact G|now symmetry]. }
    subst n2. pose proof (snapshot_good _ _ _ _ _ _ _ I2) as G2. destruct (snap_behind _ _ _ _ _ _ G2) as (n3 & Bh).
    assert (En : n3 = n').
    { destruct I2 as (_ & Es2 & _ & Er2 & Gn2). clear Q Q1. unfold snapshot in Bh. change (sy_b _) with b1 in Bh, Er2, Es2. rewrite Er2, Es2 in Bh.
      destruct n' as [g|], n3 as [g3|]; cbn in Bh; try easy. destruct Bh as (_ & E3 & lim & R3). f_equal.
      destruct Gn2 as [(G & _) _]. eapply (repr_det (B := B)); [exact R3|exact G|exact E3]. }
    subst n3. apply (behind_answers_all sec _ _ n' RR); [|apply I2|exact Bh].
    eapply (behind_avail cfg sec); [exact G2|exact Bh|reflexivity|exact Hs].
  Qed.

  (** ** The store of the forest *)

  Lemma tx_sec (s : @sys T TB) : good s -> sys_sec sec s.
  Proof.
    intros ((n & _ & Es & _) & _ & Hs). split; [exact Es|]. eapply Forall_impl; [|exact Hs].
    intros [[[i s0] o]|]; [|easy]. now intros (-> & _).
  Qed.

  Lemma step_base (R : @Store T B -> @Store T B -> Prop) (s s' : @sys T TB) o r :
    (forall a, R a a) -> (forall a b c, R a b -> R b c -> R a c) -> (forall a l x b, sget a l = (x, b) -> R a b) ->
    good s -> ~ env_op o -> exec o s = (r, s') -> R (tx_base B s) (tx_base B s').
  Proof.
    intros H1 H2 H3 S Ho E. apply (exec_fstep sec) in E as [[_ [[_ A] _]] _]; [|now apply tx_sec|exact Ho].
    apply (A (fun a b => R (fst a) (fst b))).
    - auto.
    - eauto.
    - intros a l x b G. cbn in G. destruct (if through then _ else _); [injection G as _ <-; apply H1|].
      destruct (sget (fst a) l) as [r0 b0] eqn:G0. injection G as _ <-. cbn. eauto.
    - intros a d x b G. cbn in G. destruct (wput (snd a) d). injection G as _ <-. apply H1.
  Qed.

  Lemma tx_step_good s0 s o r s' : good s0 -> tx_run s0 s -> op_ok o s -> op_in no_loss o -> exec o s = (r, s') -> good s /\ good s'.
  Proof.
    intros S H Hok Hin E. apply tx_run_hist in H. destruct (hist_ok cfg sec Hcfg no_loss _ _ S H) as [S1 _].
    split; [exact S1|]. now destruct (step_ok cfg sec Hcfg no_loss _ _ _ _ S1 Hok Hin E).
  Qed.

  Lemma tx_base_grows s0 s1 : good s0 -> tx_run s0 s1 ->
    forall l d, sblocks (tx_base B s0) l = Some d -> sblocks (tx_base B s1) l = Some d.
  Proof.
    intros S H. induction H as [|s o r s' H IH Hok Hin Hoth E]; [auto|]. intros l d Hd. apply IH in Hd.
    destruct (tx_step_good _ _ _ _ _ S H Hok Hin E) as [S1 _].
    assert (D : env_op o \/ ~ env_op o) by (destruct o; cbn; tauto). destruct D as [D|D].
    - destruct o; try contradiction.
      + discriminate Hin.
      + injection E as _ <-. exact Hd.
      + injection E as _ <-. exact (Hoth _ _ eq_refl l d Hd).
    - revert Hd. revert l d. apply (step_base (fun a b => forall l d, sblocks a l = Some d -> sblocks b l = Some d) s s' o r); auto.
      + intros a l x b G l' d Hd. eapply sget_keeps; eauto.
  Qed.

  (** No operation in the transaction, whatever its outcome, changes what is in the
      store of the forest. *)
  Theorem C97_untouched s w s1 o r s2 (AL : Alone T B) :
    reach no_loss cfg sec s -> tx_run (tx_open B through s w) s1 ->
    match o with OLose _ | OOthers _ _ => False | _ => True end ->
    exec o s1 = (r, s2) -> forall l, sblocks (tx_base B s2) l = sblocks (tx_base B s1) l.
  Proof.
    intros R H Ho E. pose proof (tx_good _ _ _ R H) as S1.
    assert (D : (exists c, o = OEvict c) \/ ~ env_op o) by (destruct o; cbn in *; eauto; tauto). destruct D as [[c ->]|D].
    - injection E as _ <-. reflexivity.
    - apply (step_base (fun a b => forall l, sblocks b l = sblocks a l) s1 s2 o r); auto.
      + intros x y z H1 H2 l. now rewrite H2, H1.
      + intros x l y z G l'. eapply sget_alone; eauto.
  Qed.

  Lemma store_all_keeps ds : forall st ok st', store_all B st ds = (ok, st') ->
    forall l d, sblocks st l = Some d -> sblocks st' l = Some d.
  Proof.
    induction ds as [|x ds IH]; intros st ok st' E l d Hd; cbn in E; [injection E as _ <-; exact Hd|].
    destruct (sput st x) as [[y|] st1] eqn:P.
    - eapply IH; [exact E|]. eapply sput_keeps; eauto.
    - injection E as _ <-. eapply sput_keeps; eauto.
  Qed.

  (** The trees from before the transaction read the same, during it and after it,
      whether its blocks are stored, some of them, or none. *)
  Theorem C97_earlier s w s1 t (RR : ReliableReads T B) :
    reach no_loss cfg sec s -> small_branches (sy_fo s) -> known s t -> tx_run (tx_open B through s w) s1 ->
    exists c, tree_count t = List.length c
      /\ answers_all (sy_fo s) t c
      /\ (forall ds ok st, store_all B (tx_base B s1) ds = (ok, st) -> answers_all (sy_fo (tx_close B s1 st)) t c).
  Proof.
    intros R Hs K H. pose proof (tx_good _ _ _ R H) as S1. apply (reach_ok cfg sec Hcfg) in R as S.
    pose proof (good_true _ S) as S'. destruct (good_known _ _ S' K) as [F G]. destruct (snap_behind _ _ _ _ _ _ G) as (n & Bh).
    assert (A : oavail (fo_store (sy_fo s)) n) by (eapply (behind_avail cfg sec); eauto).
    exists (ocontent n). split; [now apply (behind_count sec)|]. split; [now apply (behind_answers_all sec)|].
    intros ds ok st E. apply (behind_answers_all sec _ _ n RR); [| |exact Bh].
    - assert (M : forall l d, sblocks (fo_store (sy_fo s)) l = Some d -> sblocks st l = Some d).
      { intros l d Hd. eapply store_all_keeps; [exact E|]. apply (tx_base_grows (tx_open B through s w) s1); [now apply sys_in|exact H|exact Hd]. }
      destruct n as [g|]; [|easy]. exact (avail_mono _ _ _ M A).
    - apply fok_out; [apply store_ok_honest|]. exact (sys_fok cfg sec no_loss _ S1).
  Qed.
End Props.

(** ** Cases: three entries in the forest, then a transaction whose writer is a
    list of blocks *)
#[local] Instance LWriter : Writer ITypes IBackend := {
  W := list bytes;
  wput := fun w d => (Some d, w ++ [d]);
  wheld := fun w => w
}.
#[local] Instance LWriterLaws : WriterLaws ITypes IBackend LWriter.
Proof.
  constructor; cbn; intros; injection H as <- <-.
  - split; [reflexivity|]. apply in_or_app. right. now left.
  - apply in_or_app. now left.
  - apply in_app_or in H0 as [H|[<-|[]]]; auto.
Qed.
#[local] Instance IHonest : Honest ITypes IBackend.
Proof. constructor. cbn. intros s l d. destruct (existsb (bytes_eqb l) (snd s)); [|discriminate]. now intros [= <-]. Qed.

Definition xbase : @sys ITypes IBackend := state no_loss 1000000 [OExtend (pairs 0 3); OSnapshot].
Definition xopen (through : bool) : @sys ITypes (tx_backend IBackend through) := tx_open IBackend through xbase ([] : list bytes).
Definition xop (through : bool) (n k : nat) : @op ITypes (tx_backend IBackend through) := @OExtend ITypes (tx_backend IBackend through) (pairs n k).
Definition xone (through : bool) : @sys ITypes (tx_backend IBackend through) := snd (exec (xop through 3 4) (xopen through)).
Definition xcommit (through : bool) : bool * @Store ITypes IBackend :=
  store_all IBackend (tx_base IBackend (xone through)) (tx_blocks IBackend (xone through)).

Lemma xbase_ok : reach no_loss ecfg esec xbase. Proof. reached. Qed.
Lemma tx_extend through s0 s items : tx_run through s0 s -> tx_run through s0 (snd (exec (@OExtend ITypes (tx_backend IBackend through) items) s)).
Proof.
  intros H. destruct (exec _ s) as [r s'] eqn:E. eapply tx_step; [exact H| | | |exact E]; [exact I|exact I|]. intros st c Ho. discriminate Ho.
Qed.
Lemma xone_ok through : tx_run through (xopen through) (xone through).
Proof. apply tx_extend. constructor. Qed.

(** Both kinds of transaction take the entries and can be committed, after which
    the forest has them; before that it has what it had. Only the one whose reader
    sees its writes can be read from, and written to once more. *)
Example C97_case :
  (forall through, fst (exec (xop through 3 4) (xopen through)) = Ok tt /\ fst (xcommit through) = true
     /\ tx_blocks IBackend (xone through) <> []
     /\ smallb (sy_fo (tx_close IBackend (xone through) (snd (xcommit through)))) = true
     /\ fst (collect (sy_fo (tx_close IBackend (xone through) (snd (xcommit through)))) (snapshot (sy_b (xone through))))
        = Ok (map Some (pairs 0 7))
     /\ fst (collect (sy_fo (tx_close IBackend (xone through) (tx_base IBackend (xone through)))) (snapshot (sy_b xbase)))
        = Ok (map Some (pairs 0 3)))
  /\ fst (collect (sy_fo (xone true)) (snapshot (sy_b (xone true)))) = Ok (map Some (pairs 0 7))
  /\ fst (exec (xop true 7 1) (xone true)) = Ok tt.
Proof.
  split; [|split; vm_compute; reflexivity].
  intros []; (split; [vm_compute; reflexivity|]); (split; [vm_compute; reflexivity|]); (split; [vm_compute; discriminate|]);
    (split; [vm_compute; reflexivity|]); (split; vm_compute; reflexivity).
Qed.

(** "It is up to the caller to ensure that the reader reads the writes of the
    writer": with the store of the forest as reader a transaction whose blocks were
    all accepted can neither be read from nor be written to a second time. *)
Theorem C97_blind :
  exists s w s1, reach no_loss ecfg esec s
    /\ tx_run false (tx_open IBackend false s w) s1 /\ small_branches (sy_fo s1)
    /\ (exists r s0, tx_run false (tx_open IBackend false s w) s0 /\ exec (xop false 3 4) s0 = (r, s1) /\ r = Ok tt)
    /\ (exists e, fst (collect (sy_fo s1) (snapshot (sy_b s1))) = Err e)
    /\ (exists e, fst (exec (xop false 7 1) s1) = Err e).
Proof.
  exists xbase, ([] : list bytes), (xone false). split; [exact xbase_ok|]. split; [exact (xone_ok false)|].
  split; [|split; [|split]].
  - unfold small_branches. apply Forall_forall. intros e He.
    assert (H : forallb (fun e => ev_leaf e || (Nlen (ev_raw e) <=? max_capacity)%N) (fo_log (sy_fo (xone false))) = true) by (vm_compute; reflexivity).
    rewrite forallb_forall in H. apply H, orb_prop in He as [He|He]; [now left|right]. now apply N.leb_le.
  - exists (Ok tt), (xopen false). split; [constructor|]. split; [|reflexivity].
    assert (G : fst (exec (xop false 3 4) (xopen false)) = Ok tt) by (vm_compute; reflexivity).
    unfold xone. destruct (exec (xop false 3 4) (xopen false)) as [r s']. cbn [fst snd] in *. now rewrite G.
  - eexists. vm_compute. reflexivity.
  - eexists. vm_compute. reflexivity.
Qed.

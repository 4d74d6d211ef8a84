(** Properties of retain, repair and stream transactions: C21 - C24. *)
From Coq Require Import List NArith ZArith Lia Bool String Arith.
From Verif Require Import Base BaseProofs Cbor Types Seq SeqProofs Query QuerySpec World Read Write Api History Spec Ghost Frame ReadProofs Packable WriteProofs QueryProofs PackProofs RetainProofs RepairProofs NoPurged ApiProofs SysProofs HistProofs Instance Example PropsWrite PropsQuery.
Import ListNotations.

Section Props.
  Context {T : Types} {TL : TypesLaws T} {X : Ext} {XL : ExtLaws X}
          {B : Backend T} {BL : BackendLaws T B}.
  Variable cfg : Config.
  Variable sec : Secrets.
  Hypothesis Hcfg : config_ok cfg.

  (** ** C22: retain keeps everything that matches and shifts nothing *)

  Theorem C22_retain s q m fo' b' :
    reach anything cfg sec s -> query_ok q m ->
    retain (sy_fo s) (sy_b s) q = (Ok tt, fo', b') ->
    builder_count b' = builder_count (sy_b s)
    /\ forall i v v',
         gets (sy_fo s) (snapshot (sy_b s)) i v -> gets fo' (snapshot b') i v' ->
         (v' = v \/ v' = None)
         /\ forall k x, v = Some (k, x) -> m i k = true -> v' = v.
  Proof.
    intros R Q E. destruct (reach_b cfg sec Hcfg _ _ R) as (n & I).
    destruct (retain_api cfg sec _ _ _ _ _ _ _ _ _ _ I (query_purge_ok cfg sec q m Q) E) as (_ & (n' & I' & Q' & _) & _).
    destruct (Q' eq_refl) as [Hk _]. apply keeps_nth in Hk as [Hlen Hk].
    rewrite (b_count _ _ _ _ _ _ _ I), (b_count _ _ _ _ _ _ _ I'). split; [exact Hlen|].
    intros i v v' G1 G2. rewrite (gets_b _ _ _ _ _ _ _ _ _ I G1), (gets_b _ _ _ _ _ _ _ _ _ I' G2).
    unfold oget, entry. rewrite <- !join_entry. destruct (nth_error (ocontent n) i) as [e|] eqn:En.
    - destruct (Hk _ _ En) as [->|[-> Hm]]; [auto|]. cbn [join]. split; [auto|].
      intros k x -> Hmk. cbn in Hm. congruence.
    - apply nth_error_None in En. rewrite <- Hlen in En. apply nth_error_None in En. rewrite En. auto.
  Qed.

  (** For a query that breaks the contract entries may be purged that should
      not, but nothing else happens. *)
  Theorem C22_retain_any_query s q fo' b' :
    reach anything cfg sec s ->
    retain (sy_fo s) (sy_b s) q = (Ok tt, fo', b') ->
    builder_count b' = builder_count (sy_b s)
    /\ forall i v v',
         gets (sy_fo s) (snapshot (sy_b s)) i v -> gets fo' (snapshot b') i v' -> v' = v \/ v' = None.
  Proof.
    intros R E. destruct (reach_b cfg sec Hcfg _ _ R) as (n & I).
    destruct (retain_api cfg sec _ _ _ _ _ _ _ _ _ _ I (any_purge_ok cfg sec q) E) as (_ & (n' & I' & Q' & _) & _).
    destruct (Q' eq_refl) as [Hk _]. apply keeps_nth in Hk as [Hlen Hk].
    rewrite (b_count _ _ _ _ _ _ _ I), (b_count _ _ _ _ _ _ _ I'). split; [exact Hlen|].
    intros i v v' G1 G2. rewrite (gets_b _ _ _ _ _ _ _ _ _ I G1), (gets_b _ _ _ _ _ _ _ _ _ I' G2).
    unfold oget, entry. rewrite <- !join_entry. destruct (nth_error (ocontent n) i) as [e|] eqn:En.
    - destruct (Hk _ _ En) as [->|[-> Hm]]; auto.
    - apply nth_error_None in En. rewrite <- Hlen in En. apply nth_error_None in En. rewrite En. auto.
  Qed.

  (** ** C23: retain never purges the unpacked part *)

  (** [pack] fails with this error when it finds a purged node outside the
      packed part; after any history without repair it does not. *)
  Theorem C23_pack_after_retain s q fo1 b1 fo' b' r1 r :
    reach no_repair cfg sec s ->
    retain (sy_fo s) (sy_b s) q = (r1, fo1, b1) ->
    pack fo1 b1 = (r, fo', b') ->
    no_assert r /\ r <> Err EPurged.
  Proof.
    intros R E1 E2. destruct (reach_b cfg sec Hcfg _ _ R) as (n & I).
    destruct (retain_api cfg sec _ _ _ _ _ _ _ _ _ _ I (any_purge_ok cfg sec q) E1) as (_ & (n1 & I1 & _) & _).
    destruct (pack_api cfg sec Hcfg _ _ _ _ _ _ _ _ I1 E2) as (_ & (n' & I' & Q & _)). now apply Q.
  Qed.

  (** And the packed content is what retain left. *)
  Theorem C23_pack_after_retain_content s q fo1 b1 fo' b' c c' :
    reach no_repair cfg sec s ->
    retain (sy_fo s) (sy_b s) q = (Ok tt, fo1, b1) ->
    pack fo1 b1 = (Ok tt, fo', b') ->
    reads fo1 (snapshot b1) c -> reads fo' (snapshot b') c' -> c' = c.
  Proof.
    intros R E1 E2 R1 R2. destruct (reach_b cfg sec Hcfg _ _ R) as (n & I).
    destruct (retain_api cfg sec _ _ _ _ _ _ _ _ _ _ I (any_purge_ok cfg sec q) E1) as (_ & (n1 & I1 & _) & _).
    destruct (pack_api cfg sec Hcfg _ _ _ _ _ _ _ _ I1 E2) as (_ & (n' & I' & _ & Q)).
    rewrite (reads_b _ _ _ _ _ _ _ _ I1 R1), (reads_b _ _ _ _ _ _ _ _ I' R2). now apply Q.
  Qed.

  (** ** C24: repair only forgets what cannot be loaded *)

  Theorem C24_repair s fo' b' rep :
    reach anything cfg sec s ->
    repair (sy_fo s) (sy_b s) = (Ok rep, fo', b') ->
    builder_count b' = builder_count (sy_b s)
    /\ (forall i v v', gets (sy_fo s) (snapshot (sy_b s)) i v -> gets fo' (snapshot b') i v' -> v' = v \/ v' = None)
    /\ (rep = [] -> b_root b' = b_root (sy_b s)).
  Proof.
    intros R E. destruct (reach_b cfg sec Hcfg _ _ R) as (n & I).
    destruct (repair_api cfg sec _ _ _ _ _ _ _ _ I E) as (_ & _ & _ & H).
    destruct (H _ eq_refl) as (n' & I' & Hf & Hn & _).
    rewrite (b_count _ _ _ _ _ _ _ I), (b_count _ _ _ _ _ _ _ I').
    assert (Hl : List.length (ocontent n') = List.length (ocontent n) /\
      forall i e, nth_error (ocontent n) i = Some e -> nth_error (ocontent n') i = Some e \/ nth_error (ocontent n') i = Some None).
    { destruct n as [t|], n' as [t'|]; try easy.
      - destruct Hf as [Hf _]. apply forgets_nth in Hf as [H1 H2]. split; [exact H1|]. intros i e Ei.
        destruct (H2 _ _ Ei) as [?|[? _]]; auto.
      - split; [easy|]. intros [|i]; discriminate. }
    destruct Hl as [Hlen Hk]. splits; [exact Hlen| |now intros Hr; apply Hn].
    intros i v v' G1 G2. rewrite (gets_b _ _ _ _ _ _ _ _ _ I G1), (gets_b _ _ _ _ _ _ _ _ _ I' G2).
    unfold oget, entry. rewrite <- !join_entry. destruct (nth_error (ocontent n) i) as [e|] eqn:En.
    - destruct (Hk _ _ En) as [-> | ->]; auto.
    - apply nth_error_None in En. rewrite <- Hlen in En. apply nth_error_None in En. rewrite En. auto.
  Qed.

  (** The repaired tree can be read completely. *)
  Theorem C24_repaired_readable s fo' b' rep (RR : ReliableReads T B) :
    reach anything cfg sec s ->
    repair (sy_fo s) (sy_b s) = (Ok rep, fo', b') -> small_branches fo' ->
    exists c, reads fo' (snapshot b') c /\ forall i, gets fo' (snapshot b') i (entry c i).
  Proof.
    intros R E Hs. destruct (reach_b cfg sec Hcfg _ _ R) as (n & I).
    destruct (repair_api cfg sec _ _ _ _ _ _ _ _ I E) as (_ & _ & _ & H).
    destruct (H _ eq_refl) as (n' & I' & _).
    destruct (binv_reads _ _ _ _ _ _ _ RR I' Logic.I Hs) as (H1 & _ & H2 & _). eauto.
  Qed.

  (** If everything can be loaded, repair does nothing. *)
  Theorem C24_nothing_to_repair s fo' b' rep (RR : ReliableReads T B) :
    reach no_loss cfg sec s -> small_branches (sy_fo s) ->
    repair (sy_fo s) (sy_b s) = (Ok rep, fo', b') ->
    rep = [] /\ b_root b' = b_root (sy_b s).
  Proof.
    intros R Hs E. destruct (reach_b cfg sec Hcfg _ _ R) as (n & I).
    pose proof (binv_avail _ _ _ _ _ _ _ I eq_refl Hs) as A.
    destruct (repair_api cfg sec _ _ _ _ _ _ _ _ I E) as (_ & _ & _ & H).
    destruct (H _ eq_refl) as (n' & I' & _ & H1 & H2). specialize (H2 RR A). split; [exact H2|]. now apply H1.
  Qed.

  (** *** Entries that can be read with a cold cache are kept *)

  Definition cold (w : world) : Prop := forall l b, cin (w_cache w) l b -> stored (w_store w) (Some l) = true.

  Lemma stored_ext s s' l : (forall x, sblocks s' x = sblocks s x) -> stored s' l = stored s l.
  Proof. intros H. destruct l; cbn; [|easy]. now rewrite H. Qed.
  Lemma lost_ext s s' t : (forall x, sblocks s' x = sblocks s x) -> lost s' t = lost s t.
  Proof.
    intros H. induction t using tree_ind'; cbn [lost]; auto.
    - now rewrite (stored_ext _ _ _ H).
    - rewrite (stored_ext _ _ _ H). destruct (_ && _); [|easy].
      induction H0 as [|c cs Hc _ IH]; cbn; [easy|]. now rewrite Hc, IH.
  Qed.

  Lemma cold_load (AL : Alone T B) w blk cs r b w' : wok (index_key sec) w -> cold w ->
    branch_block (index_key sec) blk cs r -> load_branch_cached sec (digest blk) w = (Ok b, w') ->
    stored (w_store w) (Some (digest blk)) = true /\ fits (idxs_raw cs) = true /\ cold w'
    /\ (forall x, sblocks (w_store w') x = sblocks (w_store w) x).
  Proof.
    intros W C Hb E. pose proof (rf_load_branch_cached sec (digest blk) _ _ _ E) as (Hok & _).
    unfold load_branch_cached, mbind, cache_get in E.
    destruct (cget (w_cache w) (digest blk)) as [[b0|] c0] eqn:G.
    - injection E as <- <-. cbn [w_store w_cache set_cache].
      pose proof (cget_sound _ _ _ _ G) as Hc. split; [eapply C; eauto|].
      destruct W as [_ W]. destruct (W _ _ Hc) as [(blk' & Ed & Hd & _)|U].
      2:{ destruct (branch_block_opens _ _ _ _ Hb) as (z & D1 & D2). now rewrite (U _ _ _ eq_refl D1) in D2. }
      apply digest_inj in Ed as <-.
      rewrite (deserialize_spec _ _ _ _ Hb) in Hd. destruct (fits (idxs_raw cs)); [|discriminate].
      splits; auto. intros l b1 Hb1. cbn in Hb1. eapply cget_keeps in Hb1; [|exact G]. cbn. eapply C; eauto.
    - destruct (load_branch_from_link sec (digest blk) (set_cache w c0)) as [rb w1] eqn:E1.
      destruct rb as [b1|e|p|]; try discriminate. unfold cache_put in E. injection E as <- <-.
      assert (Wc : wok (index_key sec) (set_cache w c0)).
      { destruct W as [W1 W2]. split; [exact W1|]. intros l b Hl. cbn in Hl. eapply cget_keeps in Hl; [|exact G]. now apply W2. }
      destruct (load_branch_ok sec _ _ _ _ _ _ _ Wc Hb eq_refl E1) as [H1 H2]. cbn [w_store set_cache] in H1.
      assert (Hs : (forall x, sblocks (w_store w1) x = sblocks (w_store w) x) /\ w_cache w1 = c0).
      { unfold load_branch_from_link, mbind, get_block, lift in E1. cbn [w_store set_cache] in E1.
        destruct (sget (w_store w) (digest blk)) as [[d|] s1] eqn:Gs; [|discriminate].
        pose proof (fun x => sget_alone _ _ _ _ x Gs) as Hk.
        destruct (deserialize_compressed _ _) as [[cs0 r0]|e|p|]; try discriminate.
        destruct cs0; injection E1 as E1 E2; subst; split; auto. }
      destruct Hs as [Hs Hc]. rewrite (stored_ext _ _ _ Hs) in H1. splits; auto.
      intros l b Hl. cbn in Hl. apply cput_adds in Hl as [Hl|[-> ->]].
      + rewrite Hc in Hl. eapply cget_keeps in Hl; [|exact G]. rewrite (stored_ext _ _ _ Hs). eapply C; eauto.
      + cbn. now rewrite Hs.
  Qed.

  Lemma cold_get (AL : Alone T B) d : forall t lim off w v w', wok (index_key sec) w -> cold w -> repr sec lim t ->
    off < icount (root_ix t) -> get0 sec d (root_ix t) off w = (Ok v, w') ->
    nth_error (lost (w_store w) t) off = Some false.
  Proof.
    assert (Hrep : forall n off, off < n -> nth_error (repeat false n) off = Some false).
    { induction n as [|n IH]; intros [|off] H; cbn; try lia; auto. apply IH. lia. }
    induction d as [|d IH]; intros t lim off w v w' W C R Hoff E; cbn [get0] in E;
      destruct (Nat.leb_spec (icount (root_ix t)) off); try lia;
      destruct t as [x vs|x|x cs|x]; cbn [root_ix node_info_of icount] in *.
    all: try (cbn in R; rewrite R in E); cbn [lost]; auto.
    1, 3: destruct R as (_ & blk & r & El & _); rewrite El in *; destruct (nth_error (leaf_keys x) off); [|discriminate];
      unfold mbind in E; destruct (load_leaf_from_link sec (digest blk) w) as [rz wz] eqn:Ez; destruct rz; try discriminate;
      pose proof (rf_load_leaf_from_link sec _ _ _ _ Ez) as (_ & (_ & Hs) & _); specialize (Hs AL);
      apply load_leaf_ok in Ez; rewrite (stored_ext _ _ _ Hs) in Ez; rewrite Ez; now apply Hrep.
    - apply repr_branch in R as (_ & _ & _ & _ & blk & r & El & _). rewrite El in E. discriminate.
    - destruct (repr_branch_load _ _ _ _ R) as (l & r & Hl & Hld & Hch & _).
      apply repr_branch in R as (_ & Hc & _ & _ & blk & r' & El & Hb & _). rewrite Hl in *. injection El as ->.
      unfold mbind in E. destruct (load_branch_cached sec (digest blk) w) as [rb w1] eqn:Eb.
      destruct (Hld (fun s => avail_branches s (TBranch x cs)) (fun s H => H)) as [Hld1 _].
      pose proof (rf_load_branch_cached sec (digest blk) _ _ _ Eb) as (Hok & _).
      destruct rb as [b|e|p|]; try discriminate.
      destruct (Hld1 _ _ _ W Eb) as [[Hbr|[e Hbr]] _]; [|discriminate]. injection Hbr as ->. cbn [br_children] in E.
      destruct (cold_load _ _ _ _ _ _ _ W C Hb Eb) as (H1 & H2 & C1 & Hs). rewrite H1, H2. cbn [andb].
      rewrite Hc in Hoff. apply proj1 in Hok. specialize (Hok W).
      assert (Hlost : forall c, lost (w_store w) c = lost (w_store w1) c) by (intros; symmetry; now apply lost_ext).
      clear -IH E Hok C1 Hs Hch Hoff Hlost TL XL BL. revert off Hoff E.
      induction cs as [|c cs IHc]; intros off Hoff E; cbn [map sum_nat fold_right] in *; [lia|].
      apply Forall_inv in Hch as Hc. apply Forall_inv_tail in Hch.
      assert (Hlen : List.length (lost (w_store w) c) = icount (root_ix c)) by (eapply lost_length; eauto).
      cbn [flat_map]. destruct (Nat.ltb_spec off (icount (root_ix c))).
      + rewrite nth_error_app1 by lia. rewrite Hlost. eapply IH; eauto.
      + rewrite nth_error_app2 by lia. rewrite Hlen. apply IHc; auto. unfold sum_nat in *. lia.
  Qed.

  (** What can be read from the store without the help of the cache is kept. *)
  Theorem C24_readable_kept s fo' b' rep ca i v v' (RR : ReliableReads T B) (AL : Alone T B) :
    reach anything cfg sec s ->
    repair (sy_fo s) (sy_b s) = (Ok rep, fo', b') ->
    (forall l b, ~ cin ca l b) ->
    gets {| fo_store := fo_store (sy_fo s); fo_cache := ca; fo_log := fo_log (sy_fo s) |} (snapshot (sy_b s)) i v ->
    gets fo' (snapshot b') i v' ->
    v' = v.
  Proof.
    intros R E Hca G1 G2. destruct (reach_b cfg sec Hcfg _ _ R) as (n & I).
    destruct (repair_api cfg sec _ _ _ _ _ _ _ _ I E) as (_ & _ & _ & H).
    destruct (H _ eq_refl) as (n' & I' & Hf & _).
    set (fo0 := {| fo_store := fo_store (sy_fo s); fo_cache := ca; fo_log := fo_log (sy_fo s) |}) in *.
    assert (F0 : fok sec fo0).
    { destruct I as (F & _). split; [exact (proj1 F)|]. intros l b Hl. now apply Hca in Hl. }
    assert (I0 : bgood cfg sec False False fo0 (sy_b s) n).
    { destruct I as (F & Es & Ec & Er & G). split; [exact F0|]. splits; auto. destruct n as [t|]; [|easy].
      destruct G as ((H1 & H2 & _) & _). split; [|easy]. split; [exact H1|]. split; [exact H2|]. split; easy. }
    pose proof (gets_b _ _ _ _ _ _ _ _ _ I0 G1) as Ev. pose proof (gets_b _ _ _ _ _ _ _ _ _ I' G2) as Ev'.
    destruct n as [t|], n' as [t'|]; try easy; [|congruence].
    destruct Hf as [Hf _]. apply forgets_nth in Hf as [Hlen Hf].
    rewrite Ev, Ev'. unfold oget, entry. rewrite <- !join_entry. cbn [ocontent].
    destruct (nth_error (content t) i) as [e|] eqn:En.
    - destruct (Hf _ _ En) as [->|[-> Hl]]; [easy|]. specialize (Hl RR). exfalso.
      destruct G1 as (fo1 & G1). destruct I as (_ & Es & _ & Er & G). unfold snapshot in G1. rewrite Er, Es in G1. cbn [option_map get] in G1.
      unfold get in G1. apply read_inv in G1.
      destruct G as ((Rt & _) & _).
      eapply cold_get in G1; [|exact AL|apply fok_wok; exact F0| |exact Rt|].
      + cbn [w_store wof fo0 fo_store] in G1. congruence.
      + intros l b Hl'. now apply Hca in Hl'.
      + assert (En' : i < List.length (content t)) by (apply nth_error_Some; congruence). clear En. rename En' into En. rewrite (length_content _ _ _ Rt) in En. exact En.
    - apply nth_error_None in En. rewrite <- Hlen in En. apply nth_error_None in En. now rewrite En.
  Qed.

  (** ** C21: dropping a stream transaction restores the builder *)

  (** What happens inside the transaction opened in [s0]: any operations,
      nested transactions included, as long as they do not end that one. *)
  Inductive within (s0 : sys) : sys -> Prop :=
  | within_start : within s0 s0
  | within_step s o r s' :
      within s0 s -> op_ok o s -> op_in no_reload o ->
      (o = OCommit \/ o = ODrop -> List.length (se_saved (sy_se s0)) < List.length (se_saved (sy_se s))) ->
      exec o s = (r, s') -> within s0 s'.

  Lemma exec_saved o s r s' : op_in no_reload o -> exec o s = (r, s') ->
    se_saved (sy_se s') =
      match o with
      | OBegin => b_root (sy_b s) :: se_saved (sy_se s)
      | OCommit | ODrop => tl (se_saved (sy_se s))
      | _ => se_saved (sy_se s)
      end.
  Proof.
    intros Hin E. destruct o; cbn [exec] in E;
      try (destruct (extend _ _ _) as [[? ?] ?]); try (destruct (push _ _ _ _) as [[? ?] ?]);
      try (destruct (extend_unpacked _ _ _) as [[? ?] ?]); try (destruct (pack _ _) as [[? ?] ?]);
      try (destruct (retain _ _ _) as [[? ?] ?]); try (destruct (repair _ _) as [[? ?] ?]);
      try (destruct (check_invariants _ _) as [? ?]);
      try (injection E as <- <-; reflexivity).
    - injection E as <- <-. cbn. unfold tx_drop. destruct (se_saved (sy_se s)) eqn:Es; cbn; auto.
    - cbn in Hin. discriminate.
    - destruct (obind _ _); [|now injection E as <- <-]. destruct (load_tree _ _ _) as [[?|?|?|] ?]; injection E as <- <-; reflexivity.
    - destruct (nth_error _ _); [|now injection E as <- <-]. destruct (do_read _ _ _). now injection E as <- <-.
  Qed.

  Lemma exec_off o s r s' : sys_good cfg sec (k_lose anything = false) (k_repair anything = false) s ->
    op_in no_reload o -> exec o s = (r, s') -> (b_off (sy_b s) <= b_off (sy_b s'))%N.
  Proof.
    intros ((n & I) & _) Hin E. destruct o; cbn [exec] in E; try (cbn in Hin; discriminate Hin); try (injection E as <- <-; cbn; lia).
    all: try (injection E as <- <-; unfold sy_b; cbn; unfold tx_drop; destruct (se_saved (sy_se s)); cbn; lia).
    - destruct (extend _ _ _) as [[r0 fo] b] eqn:E0. injection E as <- <-.
      destruct (extend_api cfg sec Hcfg _ _ _ _ _ _ _ _ _ I E0) as (W & _). exact (fext_off sec _ _ _ _ W).
    - destruct (push _ _ _ _) as [[r0 fo] b0] eqn:E0. injection E as <- <-.
      destruct (extend_api cfg sec Hcfg _ _ _ _ _ _ _ _ _ I E0) as (W & _). exact (fext_off sec _ _ _ _ W).
    - destruct (extend_unpacked _ _ _) as [[r0 fo] b0] eqn:E0. injection E as <- <-.
      destruct (extend_unpacked_api cfg sec Hcfg _ _ _ _ _ _ _ _ _ I E0) as (W & _). exact (fext_off sec _ _ _ _ W).
    - destruct (pack _ _) as [[r0 fo] b0] eqn:E0. injection E as <- <-.
      destruct (pack_api cfg sec Hcfg _ _ _ _ _ _ _ _ I E0) as (W & _). exact (fext_off sec _ _ _ _ W).
    - destruct (retain _ _ _) as [[r0 fo] b0] eqn:E0. injection E as <- <-.
      destruct (retain_api cfg sec _ _ _ _ _ _ _ _ _ _ I (any_purge_ok cfg sec q) E0) as (W & _). exact (fext_off sec _ _ _ _ W).
    - destruct (repair _ _) as [[r0 fo] b0] eqn:E0. injection E as <- <-.
      destruct (repair_api cfg sec _ _ _ _ _ _ _ _ I E0) as (W & _). exact (fext_off sec _ _ _ _ W).
    - destruct (obind _ _); [|injection E as <- <-; lia].
      destruct (load_tree _ _ _) as [[?|?|?|] ?]; injection E as <- <-; apply N.le_refl.
    - destruct (nth_error _ _); [|injection E as <- <-; lia]. destruct (do_read _ _ _). injection E as <- <-. apply N.le_refl.
    - destruct (check_invariants _ _) as [? ?]. injection E as <- <-. apply N.le_refl.
  Qed.

  Lemma within_inv s0 s : sys_good cfg sec (k_lose anything = false) (k_repair anything = false) s0 -> within s0 s ->
    sys_good cfg sec (k_lose anything = false) (k_repair anything = false) s
    /\ (b_off (sy_b s0) <= b_off (sy_b s))%N
    /\ exists inner, se_saved (sy_se s) = inner ++ se_saved (sy_se s0).
  Proof.
    intros S0. induction 1 as [|s o r s' H IH Hok Hin Hd E]; [splits; [exact S0|lia|now exists []]|].
    destruct IH as (S & Ho & inner & Hi). split; [exact (proj1 (step_ok cfg sec Hcfg no_reload _ _ _ _ S Hok Hin E))|].
    pose proof (exec_off _ _ _ _ S Hin E). split; [lia|]. pose proof (exec_saved _ _ _ _ Hin E) as Es.
    destruct o; try (exists inner; now rewrite Es).
    - exists (b_root (sy_b s) :: inner). now rewrite Es, Hi.
    - specialize (Hd (or_introl eq_refl)). rewrite Hi, app_length in Hd. destruct inner as [|a inner]; [cbn in Hd; lia|].
      exists inner. now rewrite Es, Hi.
    - specialize (Hd (or_intror eq_refl)). rewrite Hi, app_length in Hd. destruct inner as [|a inner]; [cbn in Hd; lia|].
      exists inner. now rewrite Es, Hi.
  Qed.

  Theorem C21_drop_restores s r1 s1 s2 r3 s3 :
    reach anything cfg sec s ->
    exec OBegin s = (r1, s1) -> within s1 s2 ->
    List.length (se_saved (sy_se s2)) = List.length (se_saved (sy_se s1)) ->
    exec ODrop s2 = (r3, s3) ->
    b_root (sy_b s3) = b_root (sy_b s)
    /\ se_saved (sy_se s3) = se_saved (sy_se s)
    /\ (b_off (sy_b s) <= b_off (sy_b s3))%N /\ b_off (sy_b s3) = b_off (sy_b s2).
  Proof.
    intros R E1 W El E3. apply (reach_ok cfg sec Hcfg) in R as S.
    pose proof (proj1 (step_ok cfg sec Hcfg anything _ _ _ _ S (Logic.I : op_ok OBegin s) (Logic.I : op_in anything OBegin) E1)) as S1.
    destruct (within_inv _ _ S1 W) as (S2 & Ho & inner & Hi). rewrite Hi, app_length in El.
    destruct inner; [|cbn in El; lia]. cbn [app] in Hi. injection E1 as <- <-. injection E3 as <- <-.
    cbn in Hi, Ho. unfold sy_b in *. cbn. unfold tx_drop. rewrite Hi. cbn. splits; auto.
  Qed.

  (** The content is as before. *)
  Theorem C21_drop_content s r1 s1 s2 r3 s3 c c' :
    reach anything cfg sec s ->
    exec OBegin s = (r1, s1) -> within s1 s2 ->
    List.length (se_saved (sy_se s2)) = List.length (se_saved (sy_se s1)) ->
    exec ODrop s2 = (r3, s3) ->
    reads (sy_fo s) (snapshot (sy_b s)) c -> reads (sy_fo s3) (snapshot (sy_b s3)) c' -> c' = c.
  Proof.
    intros R E1 W El E3 R1 R2. destruct (C21_drop_restores _ _ _ _ _ _ R E1 W El E3) as (Hr & _).
    destruct (reach_b cfg sec Hcfg _ _ R) as (n & I). apply (reach_ok cfg sec Hcfg) in R as S.
    pose proof (proj1 (step_ok cfg sec Hcfg anything _ _ _ _ S (Logic.I : op_ok OBegin s) (Logic.I : op_in anything OBegin) E1)) as S1.
    destruct (within_inv _ _ S1 W) as (S2 & _).
    pose proof (proj1 (step_ok cfg sec Hcfg anything _ _ _ _ S2 (Logic.I : op_ok ODrop s2) (Logic.I : op_in anything ODrop) E3)) as ((n3 & I3) & _).
    rewrite (reads_b _ _ _ _ _ _ _ _ I R1), (reads_b _ _ _ _ _ _ _ _ I3 R2).
    destruct I as (_ & _ & _ & Er & G). destruct I3 as (_ & _ & _ & Er3 & G3). rewrite Er3, Er in Hr.
    destruct n as [t|], n3 as [t3|]; try discriminate; [|easy]. injection Hr as Hr.
    destruct G as ((Rt & _) & _). destruct G3 as ((Rt3 & _) & _). now rewrite (repr_det _ _ _ _ _ Rt3 Rt Hr).
  Qed.

  Theorem C21_commit_keeps s r s' :
    exec OCommit s = (r, s') -> b_root (sy_b s') = b_root (sy_b s) /\ b_off (sy_b s') = b_off (sy_b s).
  Proof. intros [= <- <-]. easy. Qed.
End Props.

(** * Concrete cases *)

(** Retain the offsets 5 to 7 of the packed tree of twelve entries: the whole
    leaves outside the range are purged. *)
Definition rq : @Query ITypes := offset_range_query (range_of 5 8).
Definition st2r := retain (sy_fo st2) (sy_b st2) rq.

Example C22_case :
  reach anything ecfg esec st2 /\ query_ok rq (fun o _ => range_contains (range_of 5 8) o)
  /\ fst3 st2r = Ok tt
  /\ gets (sy_fo st2) (snapshot (sy_b st2)) 0 (Some (0%N, 100%N))
  /\ gets (mid3 st2r) (snapshot (snd st2r)) 0 None
  /\ gets (mid3 st2r) (snapshot (snd st2r)) 6 (Some (6%N, 106%N))
  /\ fst (collect (mid3 st2r) (snapshot (snd st2r))) =
       Ok (repeat None 4 ++ map Some (pairs 4 4) ++ repeat None 4).
Proof.
  splits; [apply no_loss_any, st2_ok|apply C37_offset_range|vm_compute; reflexivity
          |apply gets_c; vm_compute; reflexivity|apply gets_c; vm_compute; reflexivity
          |apply gets_c; vm_compute; reflexivity|vm_compute; reflexivity].
Qed.

(** The unpacked tree of eleven entries: retain purges a prefix only, and
    packing afterwards works. *)
Definition st3r := retain (sy_fo st3) (sy_b st3) rq.
Definition st3p := pack (mid3 st3r) (snd st3r).
Example C23_case :
  reach no_repair ecfg esec st3 /\ fst3 st3r = Ok tt /\ fst3 st3p = Ok tt
  /\ fst (is_packed (mid3 st3r) (snapshot (snd st3r))) = Ok false
  /\ fst (is_packed (mid3 st3p) (snapshot (snd st3p))) = Ok true
  /\ fst (collect (mid3 st3r) (snapshot (snd st3r))) = fst (collect (mid3 st3p) (snapshot (snd st3p)))
  /\ fst (get (mid3 st3r) (snapshot (snd st3r)) 0) = Ok None.
Proof. splits; [apply no_loss_no_repair, st3_ok|..]; vm_compute; reflexivity. Qed.

(** The packed tree of twelve entries after the store lost all but the twelve
    newest blocks and the cache was emptied: repair forgets six entries. *)
Definition lose_to (n : nat) : @op ITypes IBackend :=
  OLose ((fst (fo_store (sy_fo st2)), firstn n (snd (fo_store (sy_fo st2)))) : @Store ITypes IBackend).
Definition st5 : sys := state anything 1000000 (ops2 ++ [lose_to 12; OEvict ([] : @Cache ITypes IBackend)]).
Lemma st5_ok : reach anything ecfg esec st5. Proof. reached. Qed.
Definition st5r := repair (sy_fo st5) (sy_b st5).

Example C24_case :
  (match fst3 st5r with Ok rep => List.length rep = 2 | _ => False end)
  /\ isErr (fst (get (sy_fo st5) (snapshot (sy_b st5)) 2)) = true
  /\ gets (sy_fo st5) (snapshot (sy_b st5)) 7 (Some (7%N, 107%N))
  /\ fst (collect (mid3 st5r) (snapshot (snd st5r))) = Ok (repeat None 6 ++ map Some (pairs 6 6))
  /\ smallb (mid3 st5r) = true
  /\ fo_cache (sy_fo st5) = ([] : @Cache ITypes IBackend).
Proof. splits; [vm_compute; reflexivity| |apply gets_c|..]; vm_compute; reflexivity. Qed.

Example C24_nothing_case :
  reach no_loss ecfg esec st2 /\ smallb (sy_fo st2) = true
  /\ match fst3 (repair (sy_fo st2) (sy_b st2)) with Ok [] => True | _ => False end.
Proof. splits; [apply st2_ok|vm_compute; reflexivity|vm_compute; exact Logic.I]. Qed.

(** A transaction with a nested one in it: dropped, everything is as before. *)
Definition tx_ops : list (@op ITypes IBackend) :=
  [OExtend (pairs 12 2); OBegin; OPack; OExtendUnpacked (pairs 14 1); OCommit; ORetain rq].
Definition run_all (ops : list (@op ITypes IBackend)) (s : sys) : sys :=
  fold_left (fun s o => snd (exec o s)) ops s.

Fixpoint inside (d : nat) (ops : list (@op ITypes IBackend)) (s : sys) : bool :=
  match ops with
  | [] => true
  | o :: ops' =>
      op_inb no_reload o && op_okb o s
      && match o with OCommit | ODrop => d <? List.length (se_saved (sy_se s)) | _ => true end
      && inside d ops' (snd (exec o s))
  end.
Lemma inside_within s0 ops : forall s, within s0 s -> inside (List.length (se_saved (sy_se s0))) ops s = true ->
  within s0 (run_all ops s).
Proof.
  induction ops as [|o ops IH]; intros s W H; [exact W|]. cbn [inside] in H.
  apply andb_prop in H as [H H4]. apply andb_prop in H as [H H3]. apply andb_prop in H as [H1 H2].
  unfold run_all. cbn [fold_left]. apply IH; [|exact H4]. destruct (exec o s) as [r s'] eqn:E.
  eapply within_step; [exact W|exact (op_okb_ok _ _ H2)|exact (op_inb_in _ _ H1)| |exact E].
  intros [-> | ->]; cbn in H3; now apply Nat.ltb_lt.
Qed.

Definition tx1 := snd (exec OBegin st2).
Definition tx2 := run_all tx_ops tx1.
Definition tx3 := snd (exec ODrop tx2).
Example C21_case :
  reach anything ecfg esec st2 /\ within tx1 tx2
  /\ List.length (se_saved (sy_se tx2)) = List.length (se_saved (sy_se tx1))
  /\ builder_count (sy_b tx2) = 15 /\ builder_count (sy_b tx3) = 12
  /\ (b_off (sy_b st2) <? b_off (sy_b tx3))%N = true
  /\ fst (collect (sy_fo tx3) (snapshot (sy_b tx3))) = Ok (map Some (pairs 0 12)).
Proof.
  splits; [apply no_loss_any, st2_ok|apply inside_within; [constructor|vm_compute; reflexivity]|..]; vm_compute; reflexivity.
Qed.

(** What holds instead of some of the properties that were refuted: C11, C15,
    C42, C57, C58. *)
From Coq Require Import List NArith ZArith Lia Bool String Arith Permutation.
From Verif Require Import Base BaseProofs Cbor CborProofs Types Seq SeqProofs Query QuerySpec World Read Write Api Iter History Spec IterSpec Ghost Frame ReadProofs Packable WriteProofs QueryProofs PackProofs RetainProofs RepairProofs NoPurged ApiProofs SysProofs HistProofs IterProofs IndexProofs Instance Example PropsRead PropsQuery PropsMaintain PropsIter PropsIndex PropsShape PropsRefuted PropsCanon.
Import ListNotations.

Section Props.
  Context {T : Types} {TL : TypesLaws T} {X : Ext} {XL : ExtLaws X}
          {B : Backend T} {BL : BackendLaws T B}.
  Variable cfg : Config.
  Variable sec : Secrets.
  Hypothesis Hcfg : config_ok cfg.

  (** ** C11: without [extend_unpacked], [extend] and [push] never panic *)

  (** Histories in which neither [extend_unpacked] nor [repair] is used. *)
  Definition packing (o : op) : Prop :=
    match o with OExtendUnpacked _ | ORepair => False | _ => True end.
  Inductive phist (s0 : sys) : sys -> Prop :=
  | phist_start : phist s0 s0
  | phist_step s o r s' : phist s0 s -> op_ok o s -> packing o -> exec o s = (r, s') -> phist s0 s'.

  (** A root whose tree is packed, whatever its own sealed flag says. *)
  Definition rootP (i : Index) : Prop :=
    exists lim t t0, root_ix t = i /\ repr sec lim t /\ relabel t0 t /\ inv cfg t0 /\ packed t0 = true.
  Definition orootP (r : option Index) : Prop := match r with Some i => rootP i | None => True end.
  Definition snapP (t : Tree) : Prop := match t with Some (i, _, _) => rootP i | None => True end.
  Definition psys (s : sys) : Prop :=
    orootP (b_root (sy_b s)) /\ Forall orootP (se_saved (sy_se s)) /\ Forall snapP (sy_snaps s).

  Lemma relabel_sym t t' : relabel t t' -> relabel t' t.
  Proof. destruct t, t'; cbn; try discriminate; auto. intros [(H1 & H2 & H3 & H4 & H5) ->]. unfold alike. splits; auto. Qed.
  Lemma packed_relabel t t' : relabel t t' -> inv cfg t -> inv cfg t' -> packed t' = packed t.
  Proof.
    destruct t as [x vs|x|x cs|x], t' as [x' vs'|x'|x' cs'|x']; cbn [relabel]; intros H; try discriminate H; try (now rewrite H).
    destruct H as [(H1 & H2 & H3 & H4 & H5) ->]. intros I I'.
    apply inv_branch in I as (_ & I & _). apply inv_branch in I' as (_ & I' & _).
    cbn [packed]. rewrite H2 in I'. rewrite <- I in I'. rewrite I', H2. reflexivity.
  Qed.
  Lemma rootP_at lim t : repr sec lim t -> inv cfg t -> rootP (root_ix t) -> packed t = true.
  Proof.
    intros R I (lim' & t' & t0 & E & R' & Hr & I0 & H). rewrite <- (repr_det sec _ _ _ _ R R' (eq_sym E)) in Hr.
    now rewrite (packed_relabel _ _ Hr I0 I).
  Qed.

  Notation kp := no_repair.
  Notation good := (sys_good cfg sec (k_lose kp = false) (k_repair kp = false)).

  Lemma bgood_rootP fo b n : bgood cfg sec (k_lose kp = false) (k_repair kp = false) fo b n -> opacked n -> orootP (b_root b).
  Proof.
    intros (_ & _ & _ & -> & G) H. destruct n as [t|]; [|easy]. destruct G as ((R & I & _) & _).
    exists (b_off b), t, t. splits; auto. apply relabel_refl.
  Qed.
  Lemma bgood_opacked fo b n : bgood cfg sec (k_lose kp = false) (k_repair kp = false) fo b n -> orootP (b_root b) -> opacked n.
  Proof.
    intros (_ & _ & _ & Er & G) H. rewrite Er in H. destruct n as [t|]; [|easy]. destruct G as ((R & I & _) & _).
    eapply rootP_at; eauto.
  Qed.

  Ltac psplit := unfold psys; splits; auto.
  Lemma packed_step o s r s' : good s -> psys s -> op_ok o s -> packing o -> exec o s = (r, s') -> psys s'.
  Proof.
    intros S (C1 & C2 & C3) Hok Hap E. pose proof S as ((n & I) & Hsaved & Hsnaps).
    pose proof (bgood_opacked _ _ _ I C1) as P.
    pose proof (sys_b_eqs cfg sec kp _ S) as [Es Ec]. pose proof (sys_fok cfg sec kp _ S) as F.
    assert (Hext : forall items r0 fo b, extend (sy_fo s) (sy_b s) items = (r0, fo, b) -> orootP (b_root b)).
    { intros items r0 fo b E0. destruct (extend_api cfg sec Hcfg _ _ _ _ _ _ _ _ _ I E0) as (_ & (n' & I' & Q1 & Q2) & Q3 & _).
      destruct r0 as [[]|e|p|]; [|rewrite Q3 by discriminate; exact C1 ..].
      destruct (Q1 eq_refl) as [_ Q]. eapply bgood_rootP; [exact I'|]. now apply Q. }
    destruct o; cbn [exec] in E; cbn [packing] in Hap; try easy.
    - destruct (extend _ _ _) as [[r0 fo] b] eqn:E0. injection E as <- <-. psplit. cbn. eauto.
    - destruct (push _ _ _ _) as [[r0 fo] b] eqn:E0. injection E as <- <-. psplit. cbn. eapply Hext. exact E0.
    - destruct (pack _ _) as [[r0 fo] b] eqn:E0. injection E as <- <-. psplit. cbn.
      destruct (pack_full cfg sec Hcfg _ _ _ _ _ _ _ _ I E0) as (_ & n' & I' & _ & _ & _ & _ & Q).
      eapply bgood_rootP; [exact I'|]. now apply Q.
    - destruct (retain _ _ _) as [[r0 fo] b] eqn:E0. injection E as <- <-. psplit. cbn.
      destruct (retain_api cfg sec _ _ _ _ _ _ _ _ _ _ I (any_purge_ok cfg sec q) E0) as (_ & (n' & I' & Q1 & Q2) & Q3 & _).
      destruct r0 as [[]|e|p|]; [|rewrite Q3 by discriminate; exact C1 ..].
      destruct (Q1 eq_refl) as (_ & Q & _). eapply bgood_rootP; [exact I'|]. now apply Q.
    - injection E as <- <-. psplit. cbn. now constructor.
    - injection E as <- <-. psplit. cbn. destruct (se_saved (sy_se s)); [constructor|]. now inversion C2.
    - injection E as <- <-. unfold psys, sy_b, tx_drop in *. cbn. destruct (se_saved (sy_se s)) as [|r0 rs] eqn:Esv.
      + rewrite Esv. auto.
      + cbn. inversion C2; subst. auto.
    - injection E as <- <-. psplit. cbn. apply Forall_app. split; [exact C3|]. constructor; [|constructor].
      unfold snapshot. destruct (b_root (sy_b s)); [exact C1|easy].
    - destruct (obind _ _) as [l|] eqn:El; [|injection E as <- <-; psplit].
      destruct (nth_error (sy_snaps s) n0) as [t|] eqn:En; [|discriminate]. cbn in El.
      pose proof (Hok _ En) as Hbr. cbn in Hbr. pose proof (nth_error_Forall _ _ _ _ Hsnaps En) as Hg.
      pose proof (nth_error_Forall _ _ _ _ C3 En) as Hc.
      destruct t as [[[i sec'] o]|]; [|discriminate]. destruct Hg as (-> & lim & t & Hg). cbn in El. rewrite Es, Ec in E.
      destruct (load_stream_builder _ _ _ _) as [r0 fo] eqn:E0.
      destruct (load_builder cfg sec Hcfg _ _ _ _ _ _ _ _ _ F Hg Hbr El E0) as (W & H1 & H2 & _).
      destruct H2 as [(b' & ->)|(e & ->)]; injection E as <- <-; [|psplit].
      destruct (H1 b' eq_refl) as (t' & (_ & _ & _ & I4 & ((R' & Iv' & _) & _)) & Hr & _). psplit; [|constructor]. cbn. rewrite I4. cbn.
      pose proof (snap_repr _ _ _ _ _ _ _ _ Hg) as R. destruct Hg as (<- & _). cbn in Hc.
      destruct Hc as (lim' & t1 & t0 & Et & R1 & Hr1 & I0 & Hp). rewrite <- (repr_det sec _ _ _ _ R R1 (eq_sym Et)) in Hr1.
      exists (b_off b'), t', t0. psplit. eapply relabel_trans; eauto.
    - destruct (obind _ _) as [l|] eqn:El; [|injection E as <- <-; psplit].
      destruct (nth_error (sy_snaps s) n0) as [t|] eqn:En; [|discriminate]. cbn in El.
      pose proof (Hok _ En) as Hbr. cbn in Hbr. pose proof (nth_error_Forall _ _ _ _ Hsnaps En) as Hg.
      pose proof (nth_error_Forall _ _ _ _ C3 En) as Hc.
      destruct t as [[[i sec'] o]|]; [|discriminate]. destruct Hg as (-> & lim & t & Hg). cbn in El. rewrite Es in E.
      destruct (load_tree _ _ _) as [r0 fo] eqn:E0.
      destruct (load_tree_ok cfg sec _ _ _ _ _ _ _ _ _ F Hg Hbr El E0) as (W & H1 & H2 & _).
      destruct H2 as [(b' & ->)|(e & ->)]; injection E as <- <-; [|psplit].
      destruct (H1 b' eq_refl) as (i' & o' & t' & -> & I' & Hr & _). psplit. cbn.
      apply Forall_app. split; [exact C3|]. constructor; [|constructor]. cbn.
      pose proof (snap_repr _ _ _ _ _ _ _ _ Hg) as R. destruct Hg as (<- & _). cbn in Hc.
      destruct Hc as (lim' & t1 & t0 & Et & R1 & Hr1 & I0 & Hp). rewrite <- (repr_det sec _ _ _ _ R R1 (eq_sym Et)) in Hr1.
      pose proof (snap_repr _ _ _ _ _ _ _ _ I') as R'. destruct I' as (<- & _).
      exists lim, t', t0. psplit. eapply relabel_trans; eauto.
    - destruct (nth_error (sy_snaps s) n0) as [t|] eqn:En; [|injection E as <- <-; psplit].
      destruct (do_read _ _ _) as [r1 fo] eqn:E0. injection E as <- <-. psplit.
    - destruct (check_invariants _ _) as [r1 fo] eqn:E0. injection E as <- <-. psplit.
    - injection E as <- <-. psplit.
    - injection E as <- <-. psplit.
    - injection E as <- <-. psplit.
  Qed.

  Lemma phist_hist s0 s : phist s0 s -> hist kp s0 s.
  Proof. induction 1 as [|s o r s' H IH Hok Hap E]; [constructor|]. eapply hist_step; eauto. now destruct o. Qed.
  Lemma preach_ok s0 s : start cfg sec s0 -> phist s0 s -> good s /\ psys s.
  Proof.
    intros H0 H. assert (G : forall s, phist s0 s -> good s).
    { intros s1 H1. apply (reach_ok cfg sec Hcfg). exists s0. split; [exact H0|]. now apply phist_hist. }
    split; [auto|]. induction H as [|s o r s' H IH Hok Hap E].
    - destruct H0 as (-> & _). split; [exact Logic.I|]. split; constructor.
    - eapply packed_step; eauto.
  Qed.

  (** After any such history, with failures, lost blocks, rollbacks and reloads,
      also after a failed [pack], nothing that appends or packs fails on an
      assertion; and the builder says that it is packed. *)
  Theorem C11_without_unpacked_partial s0 s :
    start cfg sec s0 -> phist s0 s ->
    (forall items, no_assert (fst (exec (OExtend items) s)))
    /\ (forall k v, no_assert (fst (exec (OPush k v) s)))
    /\ (forall x, says_packed (sy_fo s) (snapshot (sy_b s)) x -> x = true).
  Proof.
    intros H0 H. destruct (preach_ok _ _ H0 H) as (((n & I) & _) & (C & _)). pose proof (bgood_opacked _ _ _ I C) as P.
    assert (Hext : forall items, no_assert (fst (fst (extend (sy_fo s) (sy_b s) items)))).
    { intros items. destruct (extend (sy_fo s) (sy_b s) items) as [[r fo] b] eqn:E.
      destruct (extend_api cfg sec Hcfg _ _ _ _ _ _ _ _ _ I E) as (_ & _ & _ & Sf). cbn. apply Sf. split; easy. }
    splits.
    - intros items. specialize (Hext items). cbn [exec]. destruct (extend _ _ _) as [[r fo] b]. exact Hext.
    - intros k v. specialize (Hext [(k, v)]). cbn [exec]. unfold push. destruct (extend _ _ _) as [[r fo] b]. exact Hext.
    - intros x Hx. rewrite (packed_b _ _ _ _ _ _ _ _ I Hx). now apply opacked_b.
  Qed.

  (** And after [extend_unpacked] a successful [pack] makes [extend] safe again. *)
  Theorem C11_after_pack_partial s s' items :
    reach no_repair cfg sec s -> exec OPack s = (Ok tt, s') -> no_assert (fst (exec (OExtend items) s')).
  Proof.
    intros R E. destruct (reach_b cfg sec Hcfg _ _ R) as (n & I). cbn [exec] in E.
    destruct (pack _ _) as [[r fo] b] eqn:E0. injection E as -> <-.
    destruct (pack_api cfg sec Hcfg _ _ _ _ _ _ _ _ I E0) as (_ & n' & I' & _ & Q).
    destruct (Q eq_refl eq_refl) as [_ P]. cbn [exec].
    change (sy_fo (with_b s fo b)) with fo. change (sy_b (with_b s fo b)) with b.
    destruct (extend fo b items) as [[r1 fo1] b1] eqn:E1.
    destruct (extend_api cfg sec Hcfg _ _ _ _ _ _ _ _ _ I' E1) as (_ & _ & _ & Sf). cbn. apply Sf. split; easy.
  Qed.

  (** ** C15: restarting from the current root *)

  (** Histories in which a builder is only reloaded from the link of its current
      root, and only if [fresh]: an append has succeeded, and since then neither
      the root nor the cipher offset has changed. Everything else may happen:
      failures, rollbacks, packing, lost blocks. *)
  Inductive careful : bool -> sys -> Prop :=
  | careful_start s : start cfg sec s -> careful false s
  | careful_append fresh s o s' : careful fresh s -> appends o -> exec o s = (Ok tt, s') -> careful true s'
  | careful_idle fresh s o r s' : careful fresh s -> op_ok o s -> (forall n, o <> OReload n) -> exec o s = (r, s') ->
      b_root (sy_b s') = b_root (sy_b s) -> b_off (sy_b s') = b_off (sy_b s) -> careful fresh s'
  | careful_other fresh s o r s' : careful fresh s -> op_ok o s -> (forall n, o <> OReload n) -> exec o s = (r, s') -> careful false s'
  | careful_reload s n t r s' : careful true s -> nth_error (sy_snaps s) n = Some t -> branch_root t ->
      tree_link t = builder_link (sy_b s) -> exec (OReload n) s = (r, s') -> careful true s'.

  Lemma careful_reach f s : careful f s -> reach anything cfg sec s.
  Proof.
    assert (Step : forall s o r s', reach anything cfg sec s -> op_ok o s -> exec o s = (r, s') -> reach anything cfg sec s').
    { intros s1 o r s2 (s0 & H0 & H) Hok E. exists s0. split; [exact H0|]. eapply hist_step; [exact H|exact Hok| |exact E]. now destruct o. }
    induction 1 as [s H|f s o s' H IH Ho E|f s o r s' H IH Hok _ E _ _|f s o r s' H IH Hok _ E|s n t r s' H IH En Hb Hl E].
    - exists s. split; [exact H|constructor].
    - eapply Step; [exact IH| |exact E]. now destruct o.
    - eapply Step; eauto.
    - eapply Step; eauto.
    - eapply Step; [exact IH| |exact E]. cbn. intros t'. rewrite En. now intros [= <-].
  Qed.

  Lemma careful_inv f s : careful f s ->
    ranges 0 (b_off (sy_b s)) (fo_log (sy_fo s)) /\ (f = true -> fresh_builder (sy_b s)).
  Proof.
    assert (Step : forall s o r s', reach anything cfg sec s -> op_ok o s -> (forall n, o <> OReload n) -> exec o s = (r, s') ->
      ranges 0 (b_off (sy_b s)) (fo_log (sy_fo s)) -> ranges 0 (b_off (sy_b s')) (fo_log (sy_fo s'))).
    { intros s1 o r s2 R Hok Hn E Hr. apply (reach_ok cfg sec Hcfg) in R.
      destruct (step_logs cfg sec Hcfg anything _ _ _ _ R Hok Hn E) as (n2 & E2 & L2 & _). rewrite E2. eapply ranges_app; eauto. }
    induction 1 as [s H|f s o s' H IH Ho E|f s o r s' H IH Hok Hn E Er Eo|f s o r s' H IH Hok Hn E|s n t r s' H IH En Hb Hl E].
    - split; [|discriminate]. destruct H as (-> & _ & _ & Hl). cbn in *. rewrite Hl. cbn. lia.
    - pose proof (careful_reach _ _ H) as R. split; [|intros _; eapply fresh_appends; eauto].
      eapply Step; [exact R| | |exact E|apply IH]; destruct o; easy.
    - pose proof (careful_reach _ _ H) as R. destruct IH as [I1 I2]. split; [eapply Step; eauto|].
      intros Hf. destruct (I2 Hf) as (x & blk & rg & A1 & A2 & A3 & A4). exists x, blk, rg. rewrite Er, Eo. auto.
    - pose proof (careful_reach _ _ H) as R. destruct IH as [I1 I2]. split; [eapply Step; eauto|discriminate].
    - pose proof (careful_reach _ _ H) as R. destruct IH as [I1 I2].
      destruct (I2 eq_refl) as (x & blk & rg & A1 & A2 & A3 & A4).
      apply (reach_ok cfg sec Hcfg) in R. pose proof R as (_ & _ & Hsnaps).
      pose proof (sys_b_eqs cfg sec _ _ R) as [Es Ec]. pose proof (sys_fok cfg sec _ _ R) as F.
      cbn [exec] in E. rewrite En in E. cbn [obind] in E. rewrite Hl in E.
      unfold builder_link in E, Hl. rewrite A1 in E, Hl. cbn [obind ilink] in E, Hl. rewrite A2 in E, Hl.
      pose proof (nth_error_Forall _ _ _ _ Hsnaps En) as Hg.
      destruct t as [[[i sec'] o]|]; [|discriminate]. destruct Hg as (-> & lim & t & Hg). cbn in Hl. rewrite Es, Ec in E.
      destruct (load_stream_builder _ _ _ _) as [r0 fo] eqn:E0.
      destruct (load_builder cfg sec Hcfg _ _ _ _ _ _ _ _ _ F Hg Hb Hl E0) as (W & H1 & H2 & _).
      pose proof W as (_ & _ & _ & Hlog). cbn in Hlog.
      destruct H2 as [(b' & ->)|(e & ->)]; injection E as <- <-; cbn.
      2: { split; [rewrite Hlog; exact I1|auto]. }
      destruct (H1 b' eq_refl) as (t' & (_ & _ & _ & I4 & _) & Hr & _ & blk' & cs & rg' & B1 & B2 & B3).
      apply digest_inj in B1. subst blk'. pose proof (block_range_det _ _ _ A3 (payload_range _ _ _ _ (proj1 B2))) as ->.
      rewrite Hlog. unfold sy_b. cbn. rewrite B3, A4. split; [exact I1|]. intros _.
      pose proof (relabel_link _ _ Hr) as L1. destruct Hg as (Hg1 & _). rewrite Hg1 in L1.
      assert (Hbr : exists x', root_ix t' = IBranch x').
      { rewrite <- Hg1 in Hb. destruct t as [y vs|y|y cs'|y]; cbn in Hb; try easy; destruct t' as [x' vs'|x'|x' cs''|x']; cbn in Hr |- *; try discriminate Hr; eauto. }
      destruct Hbr as (x' & Ex'). exists x', blk, rg'. cbn in I4. rewrite I4, B3, Ex'. rewrite Ex' in L1. cbn in L1. splits; auto. congruence.
  Qed.

  (** Then no two blocks ever written, by any of the builders, share keystream bytes. *)
  Theorem C15_restarts_partial fresh s : careful fresh s -> ForallOrdPairs before (fo_log (sy_fo s)).
  Proof. intros H. apply careful_inv in H as [H _]. exact (proj2 (ranges_pairs _ _ _ H)). Qed.

  (** ** C42: after an error an index iterator does not end, but it loses and repeats nothing *)

  (** The items of a list of results. *)
  Definition oks {A} (rs : list (option (res A))) : list A :=
    flat_map (fun r => match r with Some (Ok a) => [a] | _ => [] end) rs.

  Lemma ifollows_oks {A} (cs : list A) rs : ifollows cs rs ->
    (exists n, oks rs = firstn n cs) /\ (In None rs -> oks rs = cs).
  Proof.
    induction 1 as [cs|c cs rs H [[n IH1] IH2]|cs e rs H [[n IH1] IH2]|rs H].
    - split; [now exists 0|easy].
    - change (oks (Some (Ok c) :: rs)) with (c :: oks rs).
      split; [exists (S n); cbn; now rewrite IH1|]. intros [H0|H0]; [discriminate|]. now rewrite IH2.
    - change (oks (Some (Err e) :: rs)) with (@oks A rs). split; [now exists n|]. intros [H0|H0]; [discriminate|]. auto.
    - assert (E : oks rs = []) by (induction H as [|r rs H _ IH]; [easy|]; now subst r). rewrite E. split; [now exists 0|easy].
  Qed.

  (** However the store fails and recovers: the items delivered are, in order,
      the first ones of those expected, and when the iterator ends, all of them. *)
  Theorem C42_resumes_partial s t q :
    reach anything cfg sec s -> known s t -> q_sized q ->
    exists is is', visited sec Forward q t is /\ visited sec Backward q t is'
      /\ (forall rs s' it', ipulls anything s (iter_index t q) rs s' it' ->
            (exists n, oks rs = firstn n is) /\ (In None rs -> oks rs = is))
      /\ (forall rs s' it', ipulls anything s (iter_index_reverse t q) rs s' it' ->
            (exists n, oks rs = firstn n is') /\ (In None rs -> oks rs = is')).
  Proof.
    intros R K Hq. destruct (C41_index cfg sec Hcfg s t q R K Hq) as (is & is' & V1 & V2 & H1 & H2).
    exists is, is'. splits; auto; intros rs s' it' Hp; apply ifollows_oks; eauto.
  Qed.

  (** ** C57: [iter_filtered_reverse] delivers each matching entry once *)

  Theorem C57_items_partial s t q m (RR : ReliableReads T B) :
    reach no_loss cfg sec s -> known s t -> small_branches (sy_fo s) -> query_ok q m ->
    exists c enough, answers_all (sy_fo s) t c
      /\ forall n rs fo' it', enough <= n ->
           take_chunks n (sy_fo s) (iter_filtered_chunked_reverse t q (fun _ => tt)) = (rs, fo', it') ->
           Permutation (flatten_chunks rs) (map Ok (matches m 0 c))
           /\ flatten_chunks (rev rs) = map Ok (matches m 0 c).
  Proof.
    intros R K Hs Hq. destruct (C06_items cfg sec Hcfg s t q m RR R K Hs Hq) as (c & e1 & A & H1).
    destruct (C07_total cfg sec Hcfg s t q (fun _ => tt) RR R K Hs (query_sized q m Hq)) as (e2 & H2).
    exists c, (Nat.max e1 e2). split; [exact A|]. intros n rs fo' it' Hn E.
    destruct (take_chunks n (sy_fo s) (iter_filtered_chunked t q (fun _ => tt))) as [[rs0 fo0] it0] eqn:E0.
    destruct (H2 n rs0 rs fo0 fo' it0 it' ltac:(lia) E0 E) as [-> _]. rewrite rev_involutive.
    rewrite <- (H1 n rs0 fo0 it0 ltac:(lia) E0). split; [|easy].
    assert (Hf : forall l : list (res (chunk unit)), flatten_chunks l = flat_map (fun r => match r with Ok ch => map Ok (c_data ch) | Err e => [Err e] | Panic p => [Panic p] | NoFuel => [NoFuel] end) l).
    { intros l. unfold flatten_chunks. apply flat_map_ext. intros []; reflexivity. }
    rewrite !Hf. apply Permutation_flat_map. symmetry. apply Permutation_rev.
  Qed.

  (** ** C58: what loading does to [is_packed] *)

  (** A builder loaded from the link of the live one gives the same answer. *)
  Theorem C58_builder_partial s x l b' fo' p p' :
    reach anything cfg sec s ->
    b_root (sy_b s) = Some (IBranch x) -> bi_link x = Some l ->
    load_stream_builder (sy_fo s) sec cfg l = (Ok b', fo') ->
    says_packed (sy_fo s) (snapshot (sy_b s)) p -> says_packed fo' (snapshot b') p' -> p' = p.
  Proof.
    intros R Er El E P P'. destruct (reach_b cfg sec Hcfg _ _ R) as (n & I). pose proof I as (F & Es & Ec & Er' & Gn).
    rewrite (packed_b _ _ _ _ _ _ _ _ I P).
    destruct n as [g|]; [|rewrite Er in Er'; discriminate]. apply binv_snap in I as (_ & Esn & G).
    rewrite Er in Er'. injection Er' as Ei. rewrite <- Ei in G.
    destruct (load_builder cfg sec Hcfg _ _ _ _ _ _ _ _ _ F G Logic.I El E) as (E1 & E2 & _).
    destruct (E2 _ eq_refl) as (g' & I' & Hr & _). rewrite (packed_b _ _ _ _ _ _ _ _ I' P'). cbn.
    destruct I' as (_ & _ & _ & _ & ((_ & Iv' & _) & _)). destruct Gn as ((_ & Iv & _) & _). now apply packed_relabel.
  Qed.

  (** A loaded tree always answers yes, so it keeps the answer of a packed snapshot. *)
  Theorem C58_tree_partial fo l t fo' p :
    load_tree fo sec l = (Ok t, fo') -> says_packed fo' t p -> p = true.
  Proof.
    unfold load_tree, says_packed. destruct (read fo _) as [r fo1] eqn:E0. intros E (fo2 & Ep).
    destruct r as [[i [a b]]|e|pp|]; try discriminate. injection E as <- <-.
    unfold read in E0. unfold create_index_from_link in E0.
    destruct (mbind _ _ _) as [r w] eqn:E1 in E0. injection E0 as -> _.
    apply bind_ok in E1 as (d & w1 & _ & E1). apply bind_ok in E1 as ([cs r] & w2 & _ & E1).
    destruct cs as [|c cs]; [discriminate|]. injection E1 as <- _ _.
    cbn in Ep. unfold read in Ep. cbn in Ep. now injection Ep as <- _.
  Qed.
End Props.

(** ** Cases *)

Definition packingb (o : @op ITypes IBackend) : bool :=
  match o with OExtendUnpacked _ | ORepair => false | _ => true end.
Lemma run_ops_phist s0 ops : forall s s', phist s0 s ->
  forallb packingb ops = true -> run_ops anything ops s = Some s' -> phist s0 s'.
Proof.
  induction ops as [|o ops IH]; cbn [run_ops forallb]; intros s s' H Ha E; [congruence|].
  apply andb_prop in Ha as [Ha1 Ha2].
  destruct (op_inb anything o && op_okb o s) eqn:Eb; [|discriminate]. apply andb_prop in Eb as [E1 E2].
  destruct (exec o s) as [r s1] eqn:Ex. eapply IH; [|exact Ha2|exact E].
  eapply phist_step; [exact H|exact (op_okb_ok _ _ E2)| |exact Ex]. now destruct o.
Qed.

(** Appends, a purge, a rollback, a restart and [pack], without [extend_unpacked]. *)
Definition ops11p : list (@op ITypes IBackend) :=
  [OExtend (pairs 0 5); OSnapshot; OExtend (pairs 5 4); ORetain rq; OBegin; OPush (N.of_nat 9) (N.of_nat 1);
   ODrop; OSnapshot; OReload 1; OPack; OExtend (pairs 9 4)].
Definition st11p : sys := state anything 1000000 ops11p.
Lemma state_phist n ops : runs anything n ops = true -> forallb packingb ops = true -> phist (efresh n) (state anything n ops).
Proof.
  unfold runs, state. destruct (run_ops anything ops (efresh n)) as [s|] eqn:E; [|discriminate]. intros _ Ha.
  eapply run_ops_phist; eauto. constructor.
Qed.
Example C11_without_case :
  start ecfg esec (efresh 1000000) /\ phist (efresh 1000000) st11p
  /\ match fst (collect (sy_fo st11p) (snapshot (sy_b st11p))) with
      | Ok c => List.length c = 13 /\ existsb (fun x => match x with Some _ => false | None => true end) c = true
      | _ => False
      end
  /\ isOk (fst (exec (OExtend (pairs 13 3)) st11p)) = true.
Proof.
  splits.
  - apply efresh_start.
  - apply state_phist; vm_compute; reflexivity.
  - vm_compute. auto.
  - vm_compute; reflexivity.
Qed.

(** After [extend_unpacked], an [extend] fails, until [pack] is called. *)
Definition st11u : sys := state no_loss 1000000 ops11.
Example C11_after_pack_case :
  reach no_repair ecfg esec st11u
  /\ asserts (fst (exec (OExtend (pairs 6 1)) st11u)) = true
  /\ isOk (fst (exec OPack st11u)) = true
  /\ isOk (fst (exec (OExtend (pairs 6 1)) (snd (exec OPack st11u)))) = true.
Proof. splits; [apply no_loss_no_repair; reached|vm_compute; reflexivity ..]. Qed.

(** Two restarts from the current root, each after an append. *)
Definition st15a : sys := snd (exec OSnapshot (snd (exec (OExtend (pairs 3 4)) (snd (exec (OExtend (pairs 0 3)) (efresh 1000000)))))).
Definition st15b : sys := snd (exec (OReload 0) st15a).
Definition st15c : sys := snd (exec OSnapshot (snd (exec (OExtend (pairs 7 2)) st15b))).
Definition st15d : sys := snd (exec (OExtend (pairs 9 2)) (snd (exec (OReload 1) st15c))).
Lemma tt_ok {A} (x : res unit * A) : isOk (fst x) = true -> x = (Ok tt, snd x).
Proof. destruct x as [[[]| | |] a]; cbn; easy. Qed.
Definition same_linkb (a b : option (@L ITypes)) : bool :=
  match a, b with Some x, Some y => bytes_eqb x y | _, _ => false end.
Definition reloadb (n : nat) (s : @sys ITypes IBackend) : bool :=
  match nth_error (sy_snaps s) n with
  | Some (Some (IBranch x, e, o)) => same_linkb (bi_link x) (builder_link (sy_b s))
  | _ => false
  end.
Lemma careful_appendb f s items : careful ecfg esec f s -> negb (match items with [] => true | _ => false end) = true ->
  isOk (fst (exec (OExtend items) s)) = true -> careful ecfg esec true (snd (exec (OExtend items) s)).
Proof. intros H Hn E. eapply careful_append; [exact H| |apply tt_ok, E]. now destruct items. Qed.
Lemma careful_snap s : careful ecfg esec true s -> careful ecfg esec true (snd (exec OSnapshot s)).
Proof.
  intros H. eapply (careful_idle _ _ _ _ OSnapshot); [exact H|exact Logic.I|discriminate|apply surjective_pairing|reflexivity ..].
Qed.
Lemma careful_reloadb s n : careful ecfg esec true s -> reloadb n s = true -> careful ecfg esec true (snd (exec (OReload n) s)).
Proof.
  unfold reloadb. intros H E. destruct (nth_error (sy_snaps s) n) as [[[[[|x] e] o]|]|] eqn:En; try discriminate.
  eapply careful_reload; [exact H|exact En|exact Logic.I| |apply surjective_pairing]. cbn.
  unfold same_linkb in E. destruct (bi_link x) as [l|] eqn:El, (builder_link (sy_b s)) as [l'|]; try discriminate. now apply bytes_eqb_eq in E as <-.
Qed.
Example C15_careful_case :
  careful ecfg esec true st15d
  /\ List.length (fo_log (sy_fo st15b)) < List.length (fo_log (sy_fo st15d))
  /\ match fst (collect (sy_fo st15d) (snapshot (sy_b st15d))) with Ok c => List.length c = 11 | _ => False end.
Proof.
  splits.
  - apply (careful_appendb true); [|reflexivity|vm_compute; reflexivity].
    apply careful_reloadb; [|vm_compute; reflexivity]. apply careful_snap.
    apply (careful_appendb true); [|reflexivity|vm_compute; reflexivity].
    apply careful_reloadb; [|vm_compute; reflexivity]. apply careful_snap.
    apply (careful_appendb true); [|reflexivity|vm_compute; reflexivity].
    apply (careful_appendb false); [|reflexivity|vm_compute; reflexivity]. apply careful_start, efresh_start.
  - apply Nat.ltb_lt. vm_compute. reflexivity.
  - vm_compute. reflexivity.
Qed.

(** A reloaded builder is packed or not as the live one: here, not. *)
Definition st58 : sys := state no_loss 1000000 ops11.
Definition case58 (s : @sys ITypes IBackend) : bool :=
  match b_root (sy_b s) with
  | Some (IBranch x) =>
      match bi_link x with
      | Some l =>
          match load_stream_builder (sy_fo s) esec ecfg l with
          | (Ok b', fo') =>
              match fst (is_packed (sy_fo s) (snapshot (sy_b s))), fst (is_packed fo' (snapshot b')) with
              | Ok false, Ok false => true
              | _, _ => false
              end
          | _ => false
          end
      | None => false
      end
  | _ => false
  end.
Lemma case58_ok s : case58 s = true -> exists x l b' fo',
  b_root (sy_b s) = Some (IBranch x) /\ bi_link x = Some l
  /\ load_stream_builder (sy_fo s) esec ecfg l = (Ok b', fo')
  /\ says_packed (sy_fo s) (snapshot (sy_b s)) false /\ says_packed fo' (snapshot b') false.
Proof.
  unfold case58. intros E.
  destruct (b_root (sy_b s)) as [[|x]|] eqn:Er; try discriminate. destruct (bi_link x) as [l|] eqn:El; try discriminate.
  destruct (load_stream_builder (sy_fo s) esec ecfg l) as [[b'| | |] fo'] eqn:Eb; try discriminate.
  exists x, l, b', fo'. splits; auto; apply packed_c.
  - destruct (fst (is_packed (sy_fo s) _)) as [[]| | |]; try discriminate. reflexivity.
  - destruct (fst (is_packed (sy_fo s) _)) as [[]| | |]; try discriminate.
    destruct (fst (is_packed fo' _)) as [[]| | |]; try discriminate. reflexivity.
Qed.
Example C58_builder_case :
  reach anything ecfg esec st58
  /\ exists x l b' fo', b_root (sy_b st58) = Some (IBranch x) /\ bi_link x = Some l
       /\ load_stream_builder (sy_fo st58) esec ecfg l = (Ok b', fo')
       /\ says_packed (sy_fo st58) (snapshot (sy_b st58)) false /\ says_packed fo' (snapshot b') false.
Proof.
  split; [apply no_loss_any; reached|]. apply case58_ok. vm_compute. reflexivity.
Qed.

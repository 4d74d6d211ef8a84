(** C84: the configuration may be changed when a stream is loaded again. *)
From Coq Require Import List NArith ZArith Lia Bool String Arith.
From Verif Require Import Base BaseProofs Cbor Types Seq SeqProofs Query QuerySpec World Read Write Api Iter History Spec Ghost Frame ReadProofs Packable WriteProofs QueryProofs PackProofs RetainProofs RepairProofs NoPurged ApiProofs SysProofs HistProofs Instance Example PropsRead PropsRefine.
Import ListNotations.

(** * Specification *)

Section Steps.
  Context {T : Types} {X : Ext} {B : Backend T}.

  (** An operation, or continuing from the link of the n-th snapshot with the
      configuration [c] (tree.rs 108-122: [load_stream_builder] takes a
      configuration; nothing of it is stored with the stream). *)
  Inductive step := Do (o : op) | With (n : nat) (c : Config).

  Definition take (st : step) (s : sys) : res unit * sys :=
    match st with
    | Do o => exec o s
    | With n c =>
        match obind (nth_error (sy_snaps s) n) tree_link with
        | Some l =>
            match load_stream_builder (sy_fo s) (b_sec (sy_b s)) c l with
            | (Ok b', fo) =>
                (Ok tt, {| sy_fo := fo; sy_se := {| se_b := b'; se_saved := [] |}; sy_snaps := sy_snaps s |})
            | (r, fo) => (failed r, with_fo s fo)
            end
        | None => (Ok tt, s)
        end
    end.
  (** The same without the configuration. *)
  Definition plain_op (st : step) : op := match st with Do o => o | With n _ => OReload n end.

  (** Configurations are valid; for the rest see [op_ok]. *)
  Definition may (st : step) (s : sys) : Prop :=
    op_ok (plain_op st) s /\ match st with With _ c => config_ok c | Do _ => True end.

  Fixpoint runs_on (s : sys) (tr : list (step * res unit * sys)) : Prop :=
    match tr with
    | [] => True
    | (st, r, s') :: tr => may st s /\ take st s = (r, s') /\ runs_on s' tr
    end.
  Definition forget_cfg (x : step * res unit * sys) : op * res unit * sys :=
    let '(st, r, s) := x in (plain_op st, r, s).

  (** The states of all streams with the secrets [sec] whose configuration may
      change. *)
  Inductive life (k : kind) (sec : Secrets) : sys -> Prop :=
  | life_new cfg s : config_ok cfg -> start cfg sec s -> life k sec s
  | life_step s st r s' : life k sec s -> may st s -> op_in k (plain_op st) -> take st s = (r, s') -> life k sec s'.
End Steps.

(** * Proofs *)

Definition cfg_min (c d : Config) : Config :=
  {| max_leaf_count := Nat.min (max_leaf_count c) (max_leaf_count d);
     max_key_branches := Nat.min (max_key_branches c) (max_key_branches d);
     max_summary_branches := Nat.min (max_summary_branches c) (max_summary_branches d);
     target_leaf_size := target_leaf_size c; zstd_level := zstd_level c;
     max_uncompressed_leaf_size := N.min (max_uncompressed_leaf_size c) (max_uncompressed_leaf_size d) |}.
Definition cfg_max (c d : Config) : Config :=
  {| max_leaf_count := Nat.max (max_leaf_count c) (max_leaf_count d);
     max_key_branches := Nat.max (max_key_branches c) (max_key_branches d);
     max_summary_branches := Nat.max (max_summary_branches c) (max_summary_branches d);
     target_leaf_size := target_leaf_size c; zstd_level := zstd_level c;
     max_uncompressed_leaf_size := N.max (max_uncompressed_leaf_size c) (max_uncompressed_leaf_size d) |}.

(** The setting in which [c] is in use next. *)
Definition next (s : Setting) (c : Config) : Setting :=
  {| s_lo := cfg_min (s_lo s) c; s_hi := cfg_max (s_hi s) c; s_now := c |}.
(** The same setting with the old configuration still in use. *)
Definition wide (s : Setting) (c : Config) : Setting :=
  {| s_lo := cfg_min (s_lo s) c; s_hi := cfg_max (s_hi s) c; s_now := s_now s |}.
Definition wider (s s' : Setting) : Prop := cfg_le (s_lo s') (s_lo s) /\ cfg_le (s_hi s) (s_hi s').

Lemma next_ok s c : setting_ok s -> config_ok c -> setting_ok (next s c) /\ setting_ok (wide s c) /\ wider s (next s c) /\ wider s (wide s c).
Proof.
  intros ((A1 & A2 & A3 & A4) & (B1 & B2 & B3 & B4) & (C1 & C2 & C3 & C4) & (D1 & D2 & D3 & D4) & (E1 & E2 & E3 & E4)) (F1 & F2 & F3 & F4).
  unfold setting_ok, wider, config_ok, cfg_le. cbn [s_now s_lo s_hi next wide cfg_min cfg_max
    max_leaf_count max_key_branches max_summary_branches max_uncompressed_leaf_size] in *. repeat split; lia.
Qed.

Section Wide.
  Context {T : Types} {TL : TypesLaws T} {X : Ext} {XL : ExtLaws X}
          {B : Backend T} {BL : BackendLaws T B}.
  Variable s1 s2 : Setting.
  Hypothesis W : wider s1 s2.

  Lemma least_count_le c d l : cfg_le c d -> least_count c l <= least_count d l.
  Proof. intros H. induction l as [|l IH]; [apply le_n|]. cbn [least_count]. apply Nat.mul_le_mono; [now apply max_branches_le|exact IH]. Qed.

  Lemma inv_widen t : inv s1 t -> inv s2 t.
  Proof.
    destruct W as (Wl & Wh). pose proof Wh as (H1 & H2 & H3 & H4).
    induction t using tree_ind'; intros I.
    - cbn in *. destruct I as ((A1 & A2) & A3 & A4). repeat split; auto; lia.
    - cbn in *. lia.
    - apply invs_branch in I as (I1 & (I2 & I2') & I3 & (I4 & I5) & I6). apply invs_branch. splits; auto.
      + split; intros E; [eapply branch_sealed_le; [exact Wl|]; now apply I2|].
        apply I2'. eapply branch_sealed_le; [exact Wh|]. exact E.
      + pose proof (max_branches_le _ _ (bi_level x) Wh). lia.
      + rewrite Forall_forall in *. auto.
    - cbn [inv] in *. destruct I as (A1 & A2 & A3). splits; auto. intros Hs. destruct (A3 Hs) as (A4 & A5).
      pose proof (least_count_le _ _ (bi_level x) Wl). pose proof (max_branches_le _ _ (bi_level x) Wl). lia.
  Qed.

  Variable sec : Secrets.
  Variable Av Ps : Prop.
  Lemma gt_widen fo lim t : gt s1 sec Av Ps fo lim t -> gt s2 sec Av Ps fo lim t.
  Proof. intros ((R & I & A & P) & Pk). split; [|exact Pk]. unfold gd. splits; auto. now apply inv_widen. Qed.
  Lemma gn_widen fo lim n : gn s1 sec Av Ps fo lim n -> gn s2 sec Av Ps fo lim n.
  Proof. destruct n; [apply gt_widen|auto]. Qed.
  Lemma snap_tree_widen fo i lim t : snap_tree s1 sec Av Ps fo i lim t -> snap_tree s2 sec Av Ps fo i lim t.
  Proof. intros (E & t0 & G & R). split; [exact E|]. exists t0. split; [now apply gt_widen|exact R]. Qed.
  Lemma snap_widen fo t : snap_good s1 sec Av Ps fo t -> snap_good s2 sec Av Ps fo t.
  Proof.
    destruct t as [[[i s] lim]|]; [|auto]. intros (E & lim' & t' & G). split; [exact E|]. exists lim', t'. now apply snap_tree_widen.
  Qed.
  Lemma sys_widen s : s_now s1 = s_now s2 -> sys_good s1 sec Av Ps s -> sys_good s2 sec Av Ps s.
  Proof.
    intros E ((n & F & Es & Ec & Er & G) & H1 & H2). split; [|split].
    - exists n. split; [exact F|]. splits; auto; [congruence|now apply gn_widen].
    - eapply Forall_impl; [|exact H1]. intros r (n' & E' & G'). exists n'. split; [exact E'|now apply gn_widen].
    - eapply Forall_impl; [|exact H2]. intros t. apply snap_widen.
  Qed.
End Wide.

Section Config.
  Context {T : Types} {TL : TypesLaws T} {X : Ext} {XL : ExtLaws X}
          {B : Backend T} {BL : BackendLaws T B}.
  Variable sec : Secrets.
  Notation good cfg k := (sys_good cfg sec (k_lose k = false) (k_repair k = false)).

  Lemma good_widen s1 s2 k s : wider s1 s2 -> s_now s1 = s_now s2 -> good s1 k s -> good s2 k s.
  Proof. intros W E. now apply sys_widen. Qed.

  (** Loading with another configuration, successful or not. *)
  Lemma with_good cfg k n c s r s' : setting_ok cfg -> good cfg k s -> may (With n c) s -> take (With n c) s = (r, s') ->
    (s' = s /\ r = Ok tt) \/ (exists fo, s' = with_fo s fo /\ (forall x, r <> Ok x) /\ good cfg k s')
    \/ (r = Ok tt /\ good (next cfg c) k s').
  Proof.
    intros Hcfg G (Hok & Hc) E. cbn [take plain_op op_ok] in *.
    destruct (nth_error (sy_snaps s) n) as [t|] eqn:Et; cbn [obind] in E; [|left; injection E as <- <-; auto].
    destruct (tree_link t) as [l|] eqn:El; [|left; injection E as <- <-; auto]. right. specialize (Hok _ eq_refl).
    pose proof G as ((n0 & I) & Hs1 & Hs2). pose proof I as (F & Es & _).
    pose proof (nth_error_Forall _ _ _ _ Hs2 Et) as Hsn. rewrite Es in E.
    destruct t as [[[i sec'] o]|]; [|discriminate]. cbn in El. destruct Hsn as (-> & lim & g & Hsn).
    destruct (next_ok cfg c Hcfg Hc) as (N1 & N2 & N3 & N4).
    apply (snap_tree_widen _ _ N3) in Hsn.
    destruct (load_stream_builder _ _ _ _) as [r0 fo] eqn:E0.
    destruct (load_builder (next cfg c) sec N1 _ _ _ _ _ _ _ _ _ F Hsn Hok El E0) as (W & H1 & H2 & _).
    destruct H2 as [(b & ->)|(e & ->)].
    - right. injection E as <- <-. split; [reflexivity|]. destruct (H1 _ eq_refl) as (g' & I' & _). split; [exists (Some g'); exact I'|].
      split; [constructor|]. cbn. eapply Forall_impl; [|exact Hs2]. intros t Ht.
      eapply snap_keep; [eapply (fsame_fext sec _ _ 0%N); exact W|]. now apply (snap_widen _ _ N3).
    - left. injection E as <- <-. exists fo. split; [reflexivity|]. split; [easy|]. now apply step_with_fo.
  Qed.

  Definition kept (k : kind) (s : sys) : Prop := exists cfg, setting_ok cfg /\ good cfg k s.

  Lemma take_kept k st s r s' : kept k s -> may st s -> op_in k (plain_op st) -> take st s = (r, s') -> kept k s'.
  Proof.
    intros (cfg & Hc & G) Hm Hin E. destruct st as [o|n c].
    - exists cfg. split; [exact Hc|]. eapply good_step; eauto. apply Hm.
    - destruct (with_good _ _ _ _ _ _ _ Hc G Hm E) as [(-> & _)|[(fo & _ & _ & G')|(_ & G')]].
      + now exists cfg.
      + now exists cfg.
      + exists (next cfg c). split; [|exact G']. now apply next_ok; [|apply Hm].
  Qed.
  Lemma life_kept k s : life k sec s -> kept k s.
  Proof.
    induction 1 as [cfg s Hc S0|s st r s' _ IH Hm Hin E]; [|eapply take_kept; eauto].
    exists (only cfg). split; [now apply only_ok|]. apply (reach_ok cfg sec Hc). exists s. split; [exact S0|constructor].
  Qed.

  Lemma abs_widen s1 s2 k s a : wider s1 s2 -> s_now s1 = s_now s2 -> abs s1 sec k s a -> abs s2 sec k s a.
  Proof. intros W E (H1 & H2 & H3). split; [eapply good_widen; eauto|]. split; [|exact H3]. intros Hr. eapply good_widen; eauto. Qed.

  Definition holds (k : kind) (s : sys) (a : view) : Prop := exists cfg, setting_ok cfg /\ abs cfg sec k s a.

  Lemma holds_step k s a st r s' : holds k s a -> may st s -> op_in k (plain_op st) -> take st s = (r, s') ->
    exists a', moves (plain_op st) r a a' /\ holds k s' a'.
  Proof.
    intros (cfg & Hc & A) Hm Hin E. destruct st as [o|n c].
    - destruct (abs_step cfg sec Hc _ _ _ _ _ _ A (proj1 Hm) Hin E) as (a' & M & A'). exists a'. split; [exact M|]. now exists cfg.
    - pose proof A as (G & Gu & S1 & S2 & S3). destruct (next_ok cfg c Hc (proj2 Hm)) as (N1 & N2 & N3 & N4).
      assert (NM : forall r0, (forall x, r0 <> Ok x) -> moves (OReload n) r0 a a) by (intros [x| | |] Hr; cbn [moves]; auto; now destruct (Hr x)).
      cbn [plain_op] in *.
      destruct (nth_error (sy_snaps s) n) as [t|] eqn:Et.
      2: { cbn [take] in E. rewrite Et in E. cbn [obind] in E. injection E as <- <-. exists a. cbn [moves].
           rewrite (Forall2_none _ _ _ _ S3 Et). split; [reflexivity|]. now exists cfg. }
      destruct (Forall2_nth1 _ _ _ _ _ S3 Et) as (ct & Ect & Hct).
      destruct (tree_link t) as [l|] eqn:El.
      2: { cbn [take] in E. rewrite Et in E. cbn [obind] in E. rewrite El in E. injection E as <- <-. exists a. cbn [moves]. rewrite Ect.
           split; [|now exists cfg]. right. split; [|reflexivity]. destruct Hct as (nc & Hct & <-).
           destruct nc as [g|]; [eapply leaf_gone; eauto|easy]. }
      cbn [take] in E. rewrite Et in E. cbn [obind] in E. rewrite El in E.
      pose proof G as ((n0 & I) & _ & Hs2). pose proof I as (F & Es & _).
      pose proof (nth_error_Forall _ _ _ _ Hs2 Et) as Hsn. rewrite Es in E.
      destruct t as [[[i sec'] o]|]; [|discriminate]. cbn in El. destruct Hsn as (-> & lim & g & Hsn).
      destruct Hct as (nc & Hct & <-).
      assert (Eg : nc = Some g).
      { eapply behind_det; [exact Hct|]. cbn. splits; auto; [apply Hsn|]. pose proof (snap_repr _ _ _ _ _ _ _ _ Hsn). eauto. }
      subst nc. pose proof (snap_tree_widen _ _ N3 _ _ _ _ _ _ _ Hsn) as Hsn'.
      destruct (load_stream_builder _ _ _ _) as [r0 fo] eqn:E0.
      destruct (load_builder (next cfg c) sec N1 _ _ _ _ _ _ _ _ _ F Hsn' (proj1 Hm _ Et) El E0) as (W & H1 & H2 & _).
      destruct H2 as [(b & ->)|(e & ->)].
      + injection E as <- <-. destruct (H1 _ eq_refl) as (g' & I' & Hrl & _).
        eexists. cbn [moves]. rewrite Ect. split; [left; reflexivity|]. exists (next cfg c). split; [exact N1|].
        assert (P : forall kk, good cfg kk s -> good (next cfg c) kk {| sy_fo := fo; sy_se := {| se_b := b; se_saved := [] |}; sy_snaps := sy_snaps s |}).
        { intros kk Gk. pose proof Gk as (_ & _ & Hk2). pose proof (nth_error_Forall _ _ _ _ Hk2 Et) as (_ & limk & gk & Hk).
          apply (snap_tree_widen _ _ N3) in Hk.
          destruct (load_builder (next cfg c) sec N1 _ _ _ _ _ _ _ _ _ F Hk (proj1 Hm _ Et) El E0) as (_ & Hb & _).
          destruct (Hb _ eq_refl) as (gk' & Ik & _). split; [exists (Some gk'); exact Ik|]. split; [constructor|]. cbn.
          eapply Forall_impl; [|exact Hk2]. intros t Ht. eapply snap_keep; [eapply (fsame_fext sec _ _ 0%N); exact W|].
          now apply (snap_widen _ _ N3). }
        unfold abs; splits; [now apply P|intros Hr; now apply P, Gu| |constructor|exact S3].
        exists (Some g'). split; [eapply binv_behind; exact I'|]. cbn. now apply relabel_content.
      + injection E as <- <-. exists a. split; [apply NM; easy|]. exists cfg. split; [exact Hc|].
        unfold abs; splits; auto; [now apply step_with_fo|]. intros Hr. apply step_with_fo; auto.
  Qed.

  Lemma holds_run k (P : sys -> view -> Prop) : (forall s a, holds k s a -> P s a) ->
    forall tr s a, holds k s a -> runs_on s tr -> Forall (fun x => op_in k (plain_op (fst (fst x)))) tr ->
    exists vs, tracks P a (map forget_cfg tr) vs.
  Proof.
    intros HP. induction tr as [|[[st r] s'] tr IH]; intros s a A Hr Hin; [now exists []|].
    destruct Hr as (Hok & E & Hr). inversion Hin as [|? ? Hi Hin']; subst.
    destruct (holds_step _ _ _ _ _ _ A Hok Hi E) as (a' & M & A'). destruct (IH _ _ A' Hr Hin') as (vs & Hv).
    exists (a' :: vs). cbn. auto.
  Qed.

  (** Every run, with any changes of the configuration, is a run of the machine
      on lists of C79, which has no configuration. *)
  Theorem C84_refines cfg s0 tr :
    config_ok cfg -> start cfg sec s0 -> runs_on s0 tr -> exists vs, tracks agrees view0 (map forget_cfg tr) vs.
  Proof.
    intros Hc S0 Hr. apply (holds_run anything agrees) with (s := s0); auto.
    - intros s a (c & H1 & H2). eapply abs_agrees; eauto.
    - exists (only cfg). split; [now apply only_ok|]. now apply abs_start.
    - apply Forall_forall. intros [[o r] s] _. cbn [fst]. destruct (plain_op o); exact Logic.I || reflexivity.
  Qed.
  Theorem C84_refines_total cfg s0 tr (RR : ReliableReads T B) :
    config_ok cfg -> start cfg sec s0 -> runs_on s0 tr -> (forall st r s, ~ In (Do (OLose st), r, s) tr) ->
    exists vs, tracks (fun s a => agrees s a /\ agrees_all s a) view0 (map forget_cfg tr) vs.
  Proof.
    intros Hc S0 Hr Hl. set (k := {| k_lose := false; k_repair := true; k_reload := true |}).
    apply (holds_run k) with (s := s0); auto.
    - intros s a (c & H1 & H2). split; [eapply abs_agrees; eauto|]. eapply abs_agrees_all; eauto. reflexivity.
    - exists (only cfg). split; [now apply only_ok|]. now apply abs_start.
    - apply Forall_forall. intros [[o r] s] H. destruct o as [[]|]; cbn; auto. exfalso. eapply Hl; eauto.
  Qed.

  (** ** Reopening a stream *)

  (** The packed form does not depend on the flag of the root. *)
  Lemma packed_flip cfg x x' cs : inv cfg (TBranch x cs) -> bi_level x' = bi_level x ->
    packed (TBranch x cs) = true -> packed (TBranch x' cs) = true.
  Proof.
    intros I El P. destruct cs as [|c cs] using rev_ind; [cbn; now rewrite orb_true_r|]. clear IHcs.
    rewrite packed_branch in *. rewrite El. apply orb_true_iff in P as [P|P]; [|apply orb_true_iff; now right].
    apply invs_branch in I as (L & (I & _) & _ & _ & Ic). specialize (I P). apply branch_sealed_true in I as [I _].
    rewrite map_app in I. apply Forall_app in I as (I1 & I2). rewrite Forall_map in I1. apply Forall_inv in I2 as [I2 I3].
    apply Forall_app in Ic as (_ & Ic). apply Forall_inv in Ic.
    apply orb_true_iff. right. rewrite !andb_true_iff. split; [|split].
    - apply forallb_forall. rewrite Forall_forall in I1. intros y Hy. destruct (I1 _ Hy) as [-> ->]. cbn. apply Nat.eqb_refl.
    - apply Nat.ltb_lt. lia.
    - destruct c as [| |y cy|]; auto. cbn in I2. cbn. now rewrite I2.
  Qed.

  (** Loading the stream from its current link with another configuration:
      same entries, same form, and the new configuration is in use. *)
  Theorem C84_reopen k s l c r fo' :
    life k sec s -> config_ok c -> branch_root (snapshot (sy_b s)) -> tree_link (snapshot (sy_b s)) = Some l ->
    load_stream_builder (sy_fo s) sec c l = (r, fo') ->
    ((exists b, r = Ok b) \/ exists e, r = Err e)
    /\ forall b, r = Ok b ->
       b_cfg b = c /\ builder_count b = builder_count (sy_b s)
       /\ (exists es, answers (sy_fo s) (snapshot (sy_b s)) es /\ answers fo' (snapshot b) es)
       /\ (forall x, says_packed fo' (snapshot b) x -> says_packed (sy_fo s) (snapshot (sy_b s)) true -> x = true).
  Proof.
    intros H Hc Hb El E. destruct (life_kept _ _ H) as (cfg & Hcfg & G). pose proof G as ((n & I) & _). pose proof I as (F & Es & _).
    destruct n as [g|]; [|apply binv_none in I as (_ & En); rewrite En in El; discriminate].
    pose proof (binv_snap cfg sec _ _ _ _ _ I) as (_ & En & Hsn). rewrite En in El, Hb. cbn in El.
    destruct (next_ok cfg c Hcfg Hc) as (N1 & _ & N3 & _). apply (snap_tree_widen _ _ N3) in Hsn.
    assert (Hb' : match root_ix g with ILeaf _ => False | IBranch _ => True end) by (cbn in Hb; destruct (root_ix g); auto).
    destruct (load_builder (next cfg c) sec N1 _ _ _ _ _ _ _ _ _ F Hsn Hb' El E) as (W & H1 & H2 & _).
    split; [exact H2|]. intros b ->. destruct (H1 _ eq_refl) as (g' & I' & Hr & _). pose proof I' as (F' & Es' & Ec' & _).
    split; [exact Ec'|]. split; [|split].
    - rewrite (b_count cfg sec _ _ _ _ _ I), (b_count (next cfg c) sec _ _ _ _ _ I'). cbn. now rewrite (relabel_content _ _ Hr).
    - exists (ocontent (Some g)). split; [apply (behind_answers sec); [exact F|eapply binv_behind; exact I]|].
      cbn [ocontent]. rewrite <- (relabel_content _ _ Hr). apply (behind_answers sec _ _ (Some g')); [exact F'|eapply binv_behind; exact I'].
    - intros x Hx Hp. apply (packed_b (next cfg c) sec _ _ _ _ _ _ I') in Hx. apply (packed_b cfg sec _ _ _ _ _ _ I) in Hp. subst x.
      cbn [otpacked] in *. destruct I as (_ & _ & _ & _ & ((_ & Iv & _) & _)).
      destruct g, g'; cbn -[packed] in Hr; try discriminate; try (injection Hr as -> ->); try (injection Hr as ->); auto.
      destruct Hr as ((_ & B2 & _) & ->). eapply packed_flip; eauto.
  Qed.

  (** ** No internal assertion fails (compare C10) *)

  Theorem C84_no_assert k s :
    life k sec s ->
    (forall items r fo' b', extend_unpacked (sy_fo s) (sy_b s) items = (r, fo', b') -> no_assert r)
    /\ (forall q r fo' b', retain (sy_fo s) (sy_b s) q = (r, fo', b') -> no_assert r)
    /\ (forall r fo' b', repair (sy_fo s) (sy_b s) = (r, fo', b') -> no_assert r)
    /\ (k_repair k = false ->
         (forall r fo' b', pack (sy_fo s) (sy_b s) = (r, fo', b') -> no_assert r /\ r <> Err EPurged)
         /\ (forall items r fo' b', says_packed (sy_fo s) (snapshot (sy_b s)) true ->
               extend (sy_fo s) (sy_b s) items = (r, fo', b') -> no_assert r)).
  Proof.
    intros H. destruct (life_kept _ _ H) as (cfg & Hcfg & G). pose proof G as ((n & I) & _).
    split; [|split; [|split; [|intros Hk; split]]].
    - intros items r fo' b' E. destruct (extend_unpacked_api cfg sec Hcfg _ _ _ _ _ _ _ _ _ I E) as (_ & _ & _ & S). now apply S.
    - intros q r fo' b' E. destruct (retain_api cfg sec _ _ _ _ _ _ _ _ _ _ I (any_purge_ok cfg sec q) E) as (_ & _ & _ & S). now apply S.
    - intros r fo' b' E. eapply repair_api; eauto.
    - intros r fo' b' E. destruct (pack_full cfg sec Hcfg _ _ _ _ _ _ _ _ I E) as (_ & n' & _ & Q & _). now apply Q.
    - intros items r fo' b' P E. destruct (extend_api cfg sec Hcfg _ _ _ _ _ _ _ _ _ I E) as (_ & _ & _ & S). apply S. split; [exact Hk|].
      apply opacked_b. symmetry. exact (packed_b cfg sec _ _ _ _ _ _ I P).
  Qed.

  (** ** Packing *)

  (** [pack] produces the packed form also of trees that were built with other
      configurations. *)
  Theorem C84_pack k s fo' b' x :
    life k sec s -> k_repair k = false -> pack (sy_fo s) (sy_b s) = (Ok tt, fo', b') ->
    says_packed fo' (snapshot b') x -> x = true.
  Proof.
    intros H Hk E P. destruct (life_kept _ _ H) as (cfg & Hcfg & G). pose proof G as ((n & I) & _).
    destruct (pack_full cfg sec Hcfg _ _ _ _ _ _ _ _ I E) as (_ & n' & I' & _ & Q & _). destruct (Q Hk eq_refl) as (_ & Q').
    apply opacked_b in Q'. rewrite <- Q'. exact (packed_b cfg sec _ _ _ _ _ _ I' P).
  Qed.

  (** ** What [check_invariants] says *)

  (** Its complaints about the tree [t] under the configuration [c]. *)
  Fixpoint complaints (c : Config) (t : tree) : list violation :=
    match t with
    | TBranch x cs =>
        check (Bool.eqb (bi_sealed x) (branch_sealed c (map root_ix cs) (bi_level x))) BranchSealed
        ++ List.concat (map (complaints c) cs)
    | _ => []
    end.

  Lemma check_rd (cfg : Setting) (c : Config) lim d : forall t, repr sec lim t -> inv cfg t -> ilevel (root_ix t) < d ->
    rd sec (check_invariants0 sec c d (root_ix t)) (fun s => avail s t) (complaints c t).
  Proof.
    revert lim. induction d as [|d IH]; intros lim t R I Hd; [lia|].
    destruct t as [x vs|x|x cs|x]; cbn [root_ix check_invariants0 node_info_of].
    - destruct (repr_leaf_avail _ _ _ _ R) as (l & z & Hl & Z1 & Z2 & Z3 & Z4). rewrite Hl.
      eapply rd_bind; [apply rf_load_leaf_from_link|apply stable_avail|exact Z1|].
      rewrite (zs_count_spec _ vs Z2 Z4).
      eapply rd_mbind_lift with (a := List.length vs).
      + destruct (fits (vals_raw vs)); eauto.
      + intros s (_ & ->). reflexivity.
      + destruct R as (R & _). rewrite R, Nat.eqb_refl. apply rd_ret.
    - cbn in R. rewrite R. apply rd_ret.
    - destruct (repr_branch_load _ _ _ _ R) as (l & r & Hl & Hld & Hch & _ & _ & _ & Hne & Hlv). rewrite Hl.
      apply invs_branch in I as (I1 & (I2 & _) & I3 & I4 & I5). cbn in Hd.
      eapply rd_bind; [apply rf_load_branch_cached|apply stable_avail|apply Hld; intros s; apply avail_avail_branches|].
      cbn [br_children].
      eapply rd_bind with (a := map (complaints c) cs).
      + apply frame_mmapM; [apply rext_refl|apply rext_trans|apply rf_check_invariants0].
      + apply stable_avail.
      + eapply rd_weaken with (P := fun s => Forall (avail s) cs).
        { intros s Hs. apply avail_branch in Hs. apply Hs. }
        clear -IH Hch Hlv Hd I5 TL XL BL. induction cs as [|t cs IHcs]; [apply rd_ret|].
        apply Forall_inv in Hch as Hc1. apply Forall_inv_tail in Hch.
        apply Forall_inv in Hlv as Hl1. apply Forall_inv_tail in Hlv.
        apply Forall_inv in I5 as Hi1. apply Forall_inv_tail in I5. cbn [map].
        eapply rd_bind; [apply rf_check_invariants0|apply stable_Forall, stable_avail| |].
        { eapply rd_weaken; [|eapply (IH _ t); [exact Hc1|exact Hi1|lia]]. intros s Hs. now apply Forall_inv in Hs. }
        eapply rd_bind; [|apply stable_Forall, stable_avail| |apply rd_ret].
        * apply (frame_mmapM _ (rext_refl _) (rext_trans _) (check_invariants0 sec c d)). intros. apply rf_check_invariants0.
        * eapply rd_weaken; [|apply IHcs; auto]. intros s Hs. now apply Forall_inv_tail in Hs.
      + rewrite I3, !map_length, Nat.eqb_refl. cbn [check app].
        rewrite check_combine. cbn [app].
        replace (flat_map _ (map root_ix cs)) with (@nil violation).
        2:{ symmetry. rewrite flat_map_concat_map. apply concat_nil_Forall. rewrite !Forall_map.
            destruct (bi_sealed x).
            - specialize (I2 eq_refl). apply branch_sealed_true in I2 as [I2 _]. rewrite Forall_map in I2.
              eapply Forall_impl; [|exact I2]. intros t [_ ->]. now rewrite Nat.eqb_refl.
            - eapply Forall_impl; [|exact Hlv]. intros t Ht. apply Nat.ltb_lt in Ht. now rewrite Ht. }
        apply rd_ret.
    - cbn in R. rewrite R. apply rd_ret.
  Qed.

  Lemma complaints_sealed c t : Forall (fun v => v = BranchSealed) (complaints c t).
  Proof.
    induction t using tree_ind'; cbn [complaints]; try constructor. apply Forall_app. split.
    - unfold check. destruct (Bool.eqb _ _); repeat constructor.
    - induction H; cbn; [constructor|]. apply Forall_app. auto.
  Qed.

  (** Whatever the configurations were, [check_invariants] never finds counts,
      levels or summaries wrong. It can only complain that a branch is sealed or
      not sealed as it would be under the configuration now in use. *)
  Theorem C84_check_partial k s vs fo' :
    life k sec s -> check_invariants (sy_fo s) (sy_b s) = (Ok vs, fo') -> Forall (fun v => v = BranchSealed) vs.
  Proof.
    intros H E. destruct (life_kept _ _ H) as (cfg & Hcfg & G). pose proof G as ((n & I) & _). pose proof I as (F & Es & Ec & Er & Gn).
    unfold check_invariants in E. rewrite Er in E. destruct n as [g|]; [|cbn in E; injection E as <- _; constructor].
    cbn [option_map] in E. rewrite Es in E. destruct Gn as ((R & Iv & _) & _).
    eapply (read_rd sec) in E; [|exact F|apply rf_check_invariants0|eapply check_rd; [exact R|exact Iv|apply depth_ok]].
    destruct E as (_ & [[= ->]|(e & [=])] & _). apply complaints_sealed.
  Qed.
End Config.

(** * A run with three configurations *)

(** Larger leaves and branches, and smaller ones than [ecfg]. *)
Definition cfg_big : Config :=
  {| target_leaf_size := 1000; max_leaf_count := 4; max_key_branches := 3; max_summary_branches := 4;
     zstd_level := 3; max_uncompressed_leaf_size := 2000 |}%N.
Definition cfg_small : Config :=
  {| target_leaf_size := 1000; max_leaf_count := 1; max_key_branches := 1; max_summary_branches := 2;
     zstd_level := 10; max_uncompressed_leaf_size := 1000 |}%N.

Fixpoint trace_on (s : @sys ITypes IBackend) (sts : list step) : list (step * res unit * sys) :=
  match sts with
  | [] => []
  | st :: sts => let '(r, s') := take st s in (st, r, s') :: trace_on s' sts
  end.
Definition cfg_okb (c : Config) : bool :=
  Nat.leb 1 (max_leaf_count c) && Nat.leb 1 (max_key_branches c) && Nat.leb 2 (max_summary_branches c)
  && N.leb (max_uncompressed_leaf_size c) (16 * 1024 * 1024).
Fixpoint may_all (s : @sys ITypes IBackend) (sts : list step) : bool :=
  match sts with
  | [] => true
  | st :: sts => op_okb (plain_op st) s && (match st with With _ c => cfg_okb c | Do _ => true end) && may_all (snd (take st s)) sts
  end.
Lemma may_all_run sts : forall s, may_all s sts = true -> runs_on s (trace_on s sts).
Proof.
  induction sts as [|st sts IH]; intros s H; [exact Logic.I|]. cbn [may_all trace_on] in *.
  destruct (take st s) as [r s'] eqn:E. cbn [snd] in H. rewrite !andb_true_iff in H. destruct H as ((H1 & H2) & H3).
  cbn [runs_on]. split; [|split; [exact E|now apply IH]]. split; [now apply op_okb_ok|]. destruct st as [|n c]; [exact Logic.I|].
  unfold cfg_okb in H2. rewrite !andb_true_iff, !Nat.leb_le, N.leb_le in H2. unfold config_ok. tauto.
Qed.
Lemma runs_life k sec (tr : list (step * res unit * @sys ITypes IBackend)) : forall s, life k sec s -> runs_on s tr ->
  Forall (fun x => op_in k (plain_op (fst (fst x)))) tr -> life k sec (last (map snd tr) s).
Proof.
  induction tr as [|[[st r] s'] tr IH]; intros s H Hr Hin; [exact H|]. destruct Hr as (Hm & E & Hr). inversion Hin; subst.
  change (map snd ((st, r, s') :: tr)) with (s' :: map snd tr). rewrite last_cons. apply IH; auto. eapply life_step; eauto.
Qed.

Definition steps84 : list (@step ITypes IBackend) :=
  [Do (OExtend (pairs 0 6)); Do OSnapshot; With 0 cfg_big; Do (OExtend (pairs 6 2)); Do (OExtendUnpacked (pairs 8 2));
   Do OSnapshot; With 1 cfg_small; Do (OExtendUnpacked (pairs 10 1)); Do OPack; Do OSnapshot; With 2 ecfg; Do (ORetain q79); Do (OPush 11%N 11%N)].
Definition tr84 := trace_on (efresh 1000000) steps84.

Example C84_case :
  start ecfg esec (efresh 1000000) /\ config_ok ecfg /\ runs_on (efresh 1000000) tr84 /\ oks tr84 = repeat true 13
  /\ (forall vs, tracks agrees view0 (map forget_cfg tr84) vs ->
        map (fun a => List.length (v_now a)) vs = [6; 6; 6; 8; 10; 10; 10; 11; 11; 11; 11; 11; 12]).
Proof.
  split; [apply efresh_start|]. split; [exact ecfg_ok|]. split; [apply may_all_run; vm_compute; reflexivity|]. split; [vm_compute; reflexivity|].
  intros vs H. apply tracks_counts in H. rewrite H. vm_compute. reflexivity.
Qed.

(** The state after a prefix of these steps. *)
Definition at84 (n : nat) : @sys ITypes IBackend := last (map snd (trace_on (efresh 1000000) (firstn n steps84))) (efresh 1000000).
Lemma at84_life n : may_all (efresh 1000000) (firstn n steps84) = true -> life no_loss esec (at84 n).
Proof.
  intros H. apply runs_life; [eapply life_new; [exact ecfg_ok|apply efresh_start]|now apply may_all_run|].
  clear H. assert (H : Forall (fun st => op_in no_loss (plain_op st)) (firstn n steps84)).
  { assert (A : Forall (fun st => op_in no_loss (plain_op st)) steps84) by (repeat constructor).
    rewrite Forall_forall in *. intros st Hin. apply A. rewrite <- (firstn_skipn n steps84). apply in_or_app. now left. }
  revert H. generalize (efresh 1000000) (firstn n steps84). intros s l H. revert s. induction H as [|st l H _ IH]; intros s; [constructor|].
  cbn [trace_on]. destruct (take st s) as [r s']. constructor; auto.
Qed.

(** After the second change: a link to reopen, a tree that is not packed and
    can be packed. *)
Example C84_case_states :
  life no_loss esec (at84 8) /\ k_repair no_loss = false
  /\ match snapshot (sy_b (at84 8)) with Some (IBranch x, _, _) => bi_link x <> None | _ => False end
  /\ fst (is_packed (sy_fo (at84 8)) (snapshot (sy_b (at84 8)))) = Ok false
  /\ fst (fst (pack (sy_fo (at84 8)) (sy_b (at84 8)))) = Ok tt.
Proof.
  split; [apply at84_life; vm_compute; reflexivity|]. split; [reflexivity|]. split; [vm_compute; discriminate|].
  split; vm_compute; reflexivity.
Qed.

(** The check is not silent on a healthy stream: the flags of the branches
    below the root are those of the configuration in use when they were
    written. *)
Theorem C84_check_refuted :
  exists s, life no_loss esec s /\ exists n fo', 1 <= n /\ check_invariants (sy_fo s) (sy_b s) = (Ok (repeat BranchSealed n), fo').
Proof.
  exists (at84 3). split; [apply at84_life; vm_compute; reflexivity|].
  assert (E : fst (check_invariants (sy_fo (at84 3)) (sy_b (at84 3))) = Ok (repeat BranchSealed 1)) by (vm_compute; reflexivity).
  destruct (check_invariants _ _) as [r fo']. cbn [fst] in E. subst r. exists 1, fo'. split; [auto|reflexivity].
Qed.

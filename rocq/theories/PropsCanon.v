(** The shape of trees that were built by [extend] and [push] alone. *)
From Coq Require Import List NArith ZArith Lia Bool String Arith.
From Verif Require Import Base BaseProofs Cbor Types Seq SeqProofs Query World Read Write Api History Spec Ghost Frame ReadProofs Packable WriteProofs ApiProofs SysProofs CanonProofs Instance Example.
Import ListNotations.

(** ** Specification *)
Section Spec56.
  Context {T : Types} {X : Ext} {B : Backend T}.

  (** The histories of the property: entries are appended with [extend] and
      [push] only, in any number of calls, with any outcomes, mixed with
      transactions, snapshots, reloads, reads, losses and other users. All
      values meet [P]. *)
  Definition appending (P : V -> Prop) (o : op) : Prop :=
    match o with
    | OExtend items => Forall (fun p => P (snd p)) items
    | OPush _ v => P v
    | OExtendUnpacked _ | OPack | ORetain _ | ORepair => False
    | _ => True
    end.
  Inductive ahist (P : V -> Prop) (s0 : sys) : sys -> Prop :=
  | ahist_start : ahist P s0 s0
  | ahist_step s o r s' :
      ahist P s0 s -> op_ok o s -> appending P o -> exec o s = (r, s') -> ahist P s0 s'.
  Definition areach (cfg : Config) (sec : Secrets) (P : V -> Prop) (s : sys) : Prop :=
    exists s0, start cfg sec s0 /\ ahist P s0 s.

  (** Leaf boundaries are decided by [max_leaf_count]: that many values, however
      they are cut into writes to the compressor, stay below the two other
      limits of a leaf. *)
  Definition leaves_by_count (cfg : Config) (P : V -> Prop) : Prop :=
    forall chunks vs, Forall P vs -> List.length vs <= max_leaf_count cfg ->
      List.concat chunks = flat_map (fun v => enc (v_enc v)) vs ->
      (Nlen (z_finish (zstd_level cfg) chunks) < target_leaf_size cfg)%N
      /\ (Nlen (List.concat chunks) < max_uncompressed_leaf_size cfg)%N.

  (** What is compared of a node: level, sealed flag, count, and the keys of a leaf. *)
  Definition view (i : Index) : nat * bool * nat * list K :=
    (ilevel i, isealed i, icount i, match i with ILeaf x => leaf_keys x | IBranch _ => [] end).

  (** Entries that fit below a full node at a level. *)
  Fixpoint capacity (cfg : Config) (level : nat) : nat :=
    match level with
    | 0 => max_leaf_count cfg
    | 1 => max_key_branches cfg * max_leaf_count cfg
    | S l => max_summary_branches cfg * capacity cfg l
    end.
End Spec56.

Section Proofs.
  Context {T : Types} {TL : TypesLaws T} {X : Ext} {XL : ExtLaws X}
          {B : Backend T} {BL : BackendLaws T B}.
  Variable cfg : Config.
  Hypothesis Hcfg : config_ok cfg.
  Variable P : V -> Prop.
  Hypothesis HP : leaves_by_count cfg P.

  Lemma vals_raw_flat vs : vals_raw vs = flat_map (fun v => enc (v_enc v)) vs.
  Proof. unfold vals_raw. induction vs as [|v vs IH]; cbn; [easy|]. now rewrite IH. Qed.

  Lemma HP' : forall chunks vs, Forall P vs -> List.length vs <= max_leaf_count cfg ->
    List.concat chunks = vals_raw vs ->
    (Nlen (z_finish (zstd_level cfg) chunks) < target_leaf_size cfg)%N
    /\ (Nlen (vals_raw vs) < max_uncompressed_leaf_size cfg)%N.
  Proof. intros chunks vs H1 H2 H3. rewrite <- H3. apply (HP chunks vs); auto. now rewrite <- vals_raw_flat. Qed.

  Section OneStream.
  Variable sec : Secrets.

  (** A root of the histories considered. *)
  Definition rootC (i : Index) : Prop :=
    exists lim t, root_ix t = i /\ repr sec lim t /\ canon cfg P t /\ wide t /\ 1 <= ilevel (root_ix t).
  Definition orootC (r : option Index) : Prop := match r with Some i => rootC i | None => True end.
  Definition snapC (t : Tree) : Prop := match t with Some (i, _, _) => rootC i | None => True end.
  Definition csys (s : sys) : Prop :=
    orootC (b_root (sy_b s)) /\ Forall orootC (se_saved (sy_se s)) /\ Forall snapC (sy_snaps s).

  Lemma rootC_at lim t : repr sec lim t -> rootC (root_ix t) -> canon cfg P t /\ wide t /\ 1 <= ilevel (root_ix t).
  Proof. intros R (lim' & t' & E & R' & H). now rewrite (repr_det sec _ _ _ _ R R' (eq_sym E)). Qed.

  Lemma relabel_canon t t' : relabel t t' -> canon cfg P t -> canon cfg P t'.
  Proof.
    destruct t, t'; cbn; try discriminate; try (now intros [= -> ->]); try now intros [= ->].
    intros [(H1 & H2 & _) ->] C. inversion C as [|? ? C1 C2 C3]; subst. constructor; auto. intros c Hc. rewrite H2. auto.
  Qed.
  Lemma relabel_wide t t' : relabel t t' -> wide t -> wide t'.
  Proof.
    destruct t, t'; cbn; try discriminate; try (now intros [= -> ->]); try now intros [= ->]; auto.
    intros [(H1 & H2 & _) ->]. now rewrite H2.
  Qed.

  Notation good := (sys_good cfg sec (k_lose anything = false) (k_repair anything = false)).

  Lemma extend_canon fo b n items r fo' b' :
    bgood cfg sec (k_lose anything = false) (k_repair anything = false) fo b n ->
    orootC (b_root b) -> Forall (fun p => P (snd p)) items ->
    extend fo b items = (r, fo', b') -> orootC (b_root b').
  Proof.
    intros (F & Es & Ec & Er & G) C Hps E. unfold extend in E. destruct items as [|p items].
    { now injection E as <- <- <-. }
    set (from := p :: items) in *. assert (Hps' : PS P from) by (unfold PS; now rewrite Forall_map). clearbody from.
    destruct (run fo b _) as [[r0 fo1] b1] eqn:Erun. apply run_inv in Erun as (Erun & Er1 & _).
    rewrite Es, Ec, Er in Erun.
    assert (H : post (extend_above cfg sec (node_depth (option_map root_ix n)) (option_map root_ix n) None from) (wof fo (b_off b)) False
      (fun p w' => exists t', fst p = root_ix t' /\ gd cfg sec False False w' t' /\ canon cfg P t' /\ wide t' /\ 1 <= ilevel (root_ix t'))).
    { destruct n as [t|]; cbn [option_map].
      - rewrite Er in C. cbn in C. destruct G as ((R & I & _) & _). destruct (rootC_at _ _ R C) as (C1 & C2 & C3).
        apply canon_extend_above; auto.
        + exact HP'.
        + split; [exact R|]. split; [exact I|]. split; easy.
      - apply canon_extend_above_new; auto. exact HP'. }
    destruct (post_elim _ _ _ _ _ _ H Erun) as [H1 _].
    destruct r0 as [[i rest]|e|p0|]; injection E as <- <- <-; cbn; rewrite ?Er1; auto.
    destruct (H1 _ eq_refl) as (t' & A1 & (A2 & _) & A3 & A4 & A5). cbn in A1. subst i. exists (w_off (wof fo1 (b_off b1))), t'. splits; auto.
  Qed.

  Ltac csplit := unfold csys; splits; auto.
  Lemma canon_step o s r s' : good s -> csys s -> op_ok o s -> appending P o -> exec o s = (r, s') -> csys s'.
  Proof.
    intros S (C1 & C2 & C3) Hok Hap E. pose proof S as ((n & I) & Hsaved & Hsnaps).
    pose proof (sys_b_eqs cfg sec anything _ S) as [Es Ec]. pose proof (sys_fok cfg sec anything _ S) as F.
    destruct o; cbn [exec] in E; cbn [appending] in Hap; try easy.
    - destruct (extend _ _ _) as [[r0 fo] b] eqn:E0. injection E as <- <-. csplit. cbn. eapply extend_canon; eauto.
    - destruct (push _ _ _ _) as [[r0 fo] b] eqn:E0. injection E as <- <-. csplit. cbn.
      refine (extend_canon _ _ _ _ _ _ _ I C1 _ E0). now constructor.
    - injection E as <- <-. csplit. cbn. now constructor.
    - injection E as <- <-. csplit. cbn. destruct (se_saved (sy_se s)); [constructor|]. now inversion C2.
    - injection E as <- <-. unfold csys, sy_b, tx_drop in *. cbn. destruct (se_saved (sy_se s)) as [|r0 rs] eqn:Esv.
      + rewrite Esv. auto.
      + cbn. inversion C2; subst. auto.
    - injection E as <- <-. csplit. cbn. apply Forall_app. split; [exact C3|]. constructor; [|constructor].
      unfold snapshot. destruct (b_root (sy_b s)); [exact C1|easy].
    - destruct (obind _ _) as [l|] eqn:El; [|injection E as <- <-; csplit].
      destruct (nth_error (sy_snaps s) n0) as [t|] eqn:En; [|discriminate]. cbn in El.
      pose proof (Hok _ En) as Hbr. cbn in Hbr. pose proof (nth_error_Forall _ _ _ _ Hsnaps En) as Hg.
      pose proof (nth_error_Forall _ _ _ _ C3 En) as Hc.
      destruct t as [[[i sec'] o]|]; [|discriminate]. destruct Hg as (-> & lim & t & Hg). cbn in El. rewrite Es, Ec in E.
      destruct (load_stream_builder _ _ _ _) as [r0 fo] eqn:E0.
      destruct (load_builder cfg sec Hcfg _ _ _ _ _ _ _ _ _ F Hg Hbr El E0) as (W & H1 & H2 & _).
      destruct H2 as [(b' & ->)|(e & ->)]; injection E as <- <-; [|csplit].
      destruct (H1 b' eq_refl) as (t' & (_ & _ & _ & I4 & ((R' & _) & _)) & Hr & _). csplit; [|constructor]. cbn. rewrite I4. cbn.
      pose proof (snap_repr _ _ _ _ _ _ _ _ Hg) as R. destruct Hg as (<- & _). cbn in Hc.
      destruct (rootC_at _ _ R Hc) as (D1 & D2 & D3).
      exists (b_off b'), t'. csplit.
      + eapply relabel_canon; eauto.
      + eapply relabel_wide; eauto.
      + rewrite (relabel_level _ _ Hr). exact D3.
    - destruct (obind _ _) as [l|] eqn:El; [|injection E as <- <-; csplit].
      destruct (nth_error (sy_snaps s) n0) as [t|] eqn:En; [|discriminate]. cbn in El.
      pose proof (Hok _ En) as Hbr. cbn in Hbr. pose proof (nth_error_Forall _ _ _ _ Hsnaps En) as Hg.
      pose proof (nth_error_Forall _ _ _ _ C3 En) as Hc.
      destruct t as [[[i sec'] o]|]; [|discriminate]. destruct Hg as (-> & lim & t & Hg). cbn in El. rewrite Es in E.
      destruct (load_tree _ _ _) as [r0 fo] eqn:E0.
      destruct (load_tree_ok cfg sec _ _ _ _ _ _ _ _ _ F Hg Hbr El E0) as (W & H1 & H2 & _).
      destruct H2 as [(b' & ->)|(e & ->)]; injection E as <- <-; [|csplit].
      destruct (H1 b' eq_refl) as (i' & o' & t' & -> & I' & Hr & _). csplit. cbn.
      apply Forall_app. split; [exact C3|]. constructor; [|constructor]. cbn.
      pose proof (snap_repr _ _ _ _ _ _ _ _ Hg) as R. destruct Hg as (<- & _). cbn in Hc.
      destruct (rootC_at _ _ R Hc) as (D1 & D2 & D3).
      pose proof (snap_repr _ _ _ _ _ _ _ _ I') as R'. destruct I' as (<- & _).
      exists lim, t'. csplit.
      + eapply relabel_canon; eauto.
      + eapply relabel_wide; eauto.
      + rewrite (relabel_level _ _ Hr). exact D3.
    - destruct (nth_error (sy_snaps s) n0) as [t|] eqn:En; [|injection E as <- <-; csplit].
      destruct (do_read _ _ _) as [r1 fo] eqn:E0. injection E as <- <-. csplit.
    - destruct (check_invariants _ _) as [r1 fo] eqn:E0. injection E as <- <-. csplit.
    - injection E as <- <-. csplit.
    - injection E as <- <-. csplit.
    - injection E as <- <-. csplit.
  Qed.

  Lemma ahist_hist s0 s : ahist P s0 s -> hist anything s0 s.
  Proof.
    induction 1 as [|s o r s' H IH Hok Hap E]; [constructor|]. eapply hist_step; eauto. now destruct o.
  Qed.

  Lemma areach_ok s : areach cfg sec P s -> good s /\ csys s.
  Proof.
    intros (s0 & H0 & H). assert (G : good s).
    { apply (reach_ok cfg sec Hcfg anything). exists s0. split; [exact H0|]. now apply ahist_hist. }
    split; [exact G|]. clear G. induction H as [|s o r s' H IH Hok Hap E].
    - destruct H0 as (-> & _). split; [exact I|]. split; constructor.
    - eapply canon_step; eauto. apply (reach_ok cfg sec Hcfg anything). exists s0. split; [exact H0|]. now apply ahist_hist.
  Qed.

  (** The tree of a builder. *)
  Lemma areach_tree s : areach cfg sec P s ->
    match b_root (sy_b s) with
    | None => True
    | Some i => exists lim t, snap_tree cfg sec (k_lose anything = false) (k_repair anything = false) (sy_fo s) i lim t
        /\ repr sec lim t /\ inv cfg t /\ canon cfg P t /\ wide t /\ 1 <= ilevel (root_ix t)
    end.
  Proof.
    intros H. apply areach_ok in H as (((n & F & Es & Ec & Er & G) & _) & C & _). rewrite Er in *.
    destruct n as [t|]; [|easy]. cbn. cbn in C. pose proof G as ((R & Iv & _) & _). exists (b_off (sy_b s)), t.
    destruct (rootC_at _ _ R C) as (D1 & D2 & D3). splits; auto.
    split; [easy|]. exists t. split; [exact G|]. apply relabel_refl.
  Qed.
  End OneStream.

  Lemma cap_capacity l : cap cfg l = capacity cfg l.
  Proof.
    induction l as [|l IH]; [easy|]. cbn [cap]. rewrite IH. unfold max_branches. destruct l; [easy|]. reflexivity.
  Qed.

  Lemma skel_gdump t : forall t', canon cfg P t -> canon cfg P t' -> icount (root_ix t) = icount (root_ix t') ->
    skel t = skel t' -> forall p id, gdump (fun _ => view) p id t = gdump (fun _ => view) p id t'.
  Proof.
    induction t using tree_ind'; intros t' C C' Hn Hs p id; try now inversion C.
    - destruct t' as [x' vs'|x'|x' cs'|x']; try now inversion C'. cbn in Hs, Hn. injection Hs as H1 H2. cbn [gdump root_ix]. replace (view (ILeaf x)) with (view (ILeaf x')) by (unfold view; cbn; congruence). easy.
    - destruct t' as [x' vs'|x'|x' cs'|x']; try now inversion C'. cbn [skel] in Hs. injection Hs as H1 H2 H3 H4.
      cbn [gdump root_ix]. replace (view (IBranch x)) with (view (IBranch x')) by (unfold view; cbn; congruence).
      inversion C as [|? ? C1 _ _]; subst. inversion C' as [|? ? C1' _ _]; subst. clear C C' Hn H1 H2 H3.
      generalize (match p with Some p0 => [(p0, id)] | None => [] end). generalize [(id, view (IBranch x'))]. generalize id at 2 4.
      revert cs' H4 C1'. induction cs as [|c cs IH]; intros [|c' cs'] H4 C1' cur nodes edges; try discriminate; [easy|].
      cbn [map] in H4. injection H4 as Hc Hcs. inversion H as [|? ? Hh Ht]; subst.
      assert (Hn : icount (root_ix c) = icount (root_ix c')).
      { pose proof (C1 c (or_introl eq_refl)) as A. pose proof (C1' c' (or_introl eq_refl)) as A'.
        destruct A, A'; cbn in *; try discriminate; injection Hc; intros; congruence. }
      rewrite (Hh c' (C1 c (or_introl eq_refl)) (C1' c' (or_introl eq_refl)) Hn Hc).
      destruct (gdump _ (Some id) (cur + 1) c') as [e nn]. apply IH; auto; intros; [apply C1|apply C1']; now right.
  Qed.

  Lemma dump_of sec s r fo' : areach cfg sec P s ->
    dump_graph (sy_fo s) (snapshot (sy_b s)) (fun _ => view) = (Ok r, fo') ->
    match b_root (sy_b s) with
    | None => r = ([], [])
    | Some i => exists lim t, root_ix t = i /\ repr sec lim t /\ inv cfg t /\ canon cfg P t /\ wide t /\ 1 <= ilevel (root_ix t)
        /\ snap_tree cfg sec (k_lose anything = false) (k_repair anything = false) (sy_fo s) i lim t
        /\ r = gdump (fun _ => view) None 0 t
    end.
  Proof.
    intros H E. pose proof (areach_tree sec s H) as Ht. apply (areach_ok sec) in H as (G & _).
    pose proof (sys_b_eqs cfg sec anything _ G) as [Es _]. pose proof (sys_fok cfg sec anything _ G) as F.
    unfold snapshot in E. destruct (b_root (sy_b s)) as [i|]; [|cbn in E; injection E as E1 E2; now subst].
    destruct Ht as (lim & t & S & R & I & C & W & L). rewrite Es in E.
    destruct (dump_graph_snap cfg sec _ _ _ _ _ _ _ _ _ _ F S E) as (_ & [Hr|[e He]] & _); [|discriminate].
    injection Hr as ->. exists lim, t. splits; auto. apply S.
  Qed.

  Lemma reads_of sec s c lim t : areach cfg sec P s -> reads (sy_fo s) (snapshot (sy_b s)) c ->
    b_root (sy_b s) = Some (root_ix t) ->
    snap_tree cfg sec (k_lose anything = false) (k_repair anything = false) (sy_fo s) (root_ix t) lim t ->
    c = content t.
  Proof.
    intros H (fo' & E) Er S. apply (areach_ok sec) in H as (G & _).
    pose proof (sys_b_eqs cfg sec anything _ G) as [Es _]. pose proof (sys_fok cfg sec anything _ G) as F.
    unfold snapshot in E. rewrite Er, Es in E. unfold collect in E.
    destruct (collect_snap cfg sec _ _ _ _ _ _ _ _ _ _ F S E) as (_ & [Hr|[e He]] & _); [|discriminate].
    now injection Hr as ->.
  Qed.
End Proofs.

Section Theorems.
  Context {T : Types} {TL : TypesLaws T} {X : Ext} {XL : ExtLaws X}
          {B : Backend T} {BL : BackendLaws T B}.

  (** C56. Two streams with the same config (their secrets, forests and
      histories may differ), built by [extend] and [push] from the same sequence
      of keys cut into calls in any way: their graphs, with the level, the
      sealed flag, the count and the keys of every node, are equal. *)
  Theorem C56_shape cfg sec1 sec2 P s1 s2 c1 c2 g1 g2 fo1 fo2 :
    config_ok cfg -> leaves_by_count cfg P ->
    areach cfg sec1 P s1 -> areach cfg sec2 P s2 ->
    reads (sy_fo s1) (snapshot (sy_b s1)) c1 -> reads (sy_fo s2) (snapshot (sy_b s2)) c2 ->
    map (option_map fst) c1 = map (option_map fst) c2 ->
    dump_graph (sy_fo s1) (snapshot (sy_b s1)) (fun _ => view) = (Ok g1, fo1) ->
    dump_graph (sy_fo s2) (snapshot (sy_b s2)) (fun _ => view) = (Ok g2, fo2) ->
    g1 = g2.
  Proof.
    intros Hcfg HP H1 H2 R1 R2 Hk D1 D2.
    pose proof (dump_of cfg Hcfg P HP _ _ _ _ H1 D1) as E1. pose proof (dump_of cfg Hcfg P HP _ _ _ _ H2 D2) as E2.
    assert (Hnone : forall sec s c fo, areach cfg sec P s -> b_root (sy_b s) = None -> reads fo (snapshot (sy_b s)) c -> c = []).
    { intros sec s c fo _ E (fo' & Er). unfold snapshot in Er. rewrite E in Er. cbn in Er. now injection Er as <- <-. }
    assert (Hsome : forall sec lim t, repr sec lim t -> inv cfg t -> canon cfg P t -> content t <> []).
    { intros sec lim t R I C E. destruct (canon_bounds cfg P sec lim t R I C) as (N & _).
      apply (tkeys_content cfg P) in R; [|exact C]. rewrite E in R. apply (f_equal (@List.length _)) in R. rewrite !map_length in R. cbn in R. lia. }
    destruct (b_root (sy_b s1)) as [i1|] eqn:B1, (b_root (sy_b s2)) as [i2|] eqn:B2.
    - destruct E1 as (lim1 & t1 & <- & A1 & A2 & A3 & A4 & A5 & A6 & ->).
      destruct E2 as (lim2 & t2 & <- & F1 & F2 & F3 & F4 & F5 & F6 & ->).
      pose proof (reads_of cfg Hcfg P HP _ _ _ _ _ H1 R1 B1 A6) as ->.
      pose proof (reads_of cfg Hcfg P HP _ _ _ _ _ H2 R2 B2 F6) as ->.
      rewrite (tkeys_content cfg P _ _ _ A1 A3), (tkeys_content cfg P _ _ _ F1 F3) in Hk.
      assert (Hkk : tkeys t1 = tkeys t2).
      { revert Hk. generalize (tkeys t1), (tkeys t2). induction l as [|a l IH]; intros [|b l2] E; try discriminate; [easy|].
        cbn in E. injection E as -> E. f_equal. auto. }
      apply (skel_gdump cfg P); auto.
      + destruct (canon_bounds cfg P _ _ _ A1 A2 A3) as (_ & _ & ->). destruct (canon_bounds cfg P _ _ _ F1 F2 F3) as (_ & _ & ->). now rewrite Hkk.
      + eapply (root_unique cfg Hcfg P); eauto.
    - exfalso. destruct E1 as (lim1 & t1 & <- & A1 & A2 & A3 & A4 & A5 & A6 & _).
      pose proof (reads_of cfg Hcfg P HP _ _ _ _ _ H1 R1 B1 A6) as ->. rewrite (Hnone _ _ _ _ H2 B2 R2) in Hk.
      apply (Hsome _ _ _ A1 A2 A3). now destruct (content t1).
    - exfalso. destruct E2 as (lim1 & t1 & <- & A1 & A2 & A3 & A4 & A5 & A6 & _).
      pose proof (reads_of cfg Hcfg P HP _ _ _ _ _ H2 R2 B2 A6) as ->. rewrite (Hnone _ _ _ _ H1 B1 R1) in Hk.
      apply (Hsome _ _ _ A1 A2 A3). now destruct (content t1).
    - congruence.
  Qed.

  (** C56, the height: the root is at the lowest level (but at least 1) that has
      room for all entries. *)
  Theorem C56_height cfg sec P s i sec' off :
    config_ok cfg -> leaves_by_count cfg P -> areach cfg sec P s ->
    snapshot (sy_b s) = Some (i, sec', off) ->
    1 <= ilevel i /\ builder_count (sy_b s) <= capacity cfg (ilevel i)
    /\ forall l, 1 <= l -> builder_count (sy_b s) <= capacity cfg l -> ilevel i <= l.
  Proof.
    intros Hcfg HP H E. pose proof (areach_tree cfg Hcfg P HP sec s H) as Ht. unfold snapshot in E. unfold builder_count.
    destruct (b_root (sy_b s)) as [j|]; [|discriminate]. injection E as -> _ _.
    destruct Ht as (lim & t & (<- & _) & R & I & C & W & L).
    destruct (canon_bounds cfg P _ _ _ R I C) as (N1 & _ & N2). rewrite N2, <- (cap_capacity cfg).
    split; [exact L|]. split; [lia|]. intros l Hl Hc. rewrite <- (cap_capacity cfg) in Hc.
    destruct (Nat.le_gt_cases (ilevel (root_ix t)) l) as [|Hgt]; [easy|]. exfalso.
    pose proof (root_level cfg P _ _ _ R I C W ltac:(lia)) as Hr.
    pose proof (cap_mono cfg Hcfg l (ilevel (root_ix t) - 1) ltac:(lia)). lia.
  Qed.
End Theorems.

(** ** A case *)

Lemma enc_head_short m n : (Nlen (enc_head m n) <= 9)%N.
Proof.
  unfold enc_head. destruct (n <? 24)%N; [cbn; lia|]. destruct (n <? 256)%N; [cbn; lia|].
  destruct (n <? 65536)%N; [cbn; lia|]. destruct (n <? two32)%N; cbn; lia.
Qed.
Lemma ecfg_by_count : leaves_by_count ecfg (fun _ : @V ITypes => True).
Proof.
  intros chunks vs _ Hl E. cbn [z_finish IExt]. change (target_leaf_size ecfg) with 1000%N. change (max_uncompressed_leaf_size ecfg) with 1000%N.
  change (max_leaf_count ecfg) with 2 in Hl. rewrite E.
  assert (H : (Nlen (flat_map (fun v => enc (v_enc v)) vs) <= 9 * N.of_nat (List.length vs))%N).
  { clear. induction vs as [|v vs IH]; [cbn; lia|]. cbn [flat_map List.length]. rewrite Nlen_app.
    pose proof (enc_head_short 0 v) as Hv. change (enc (v_enc v)) with (enc_head 0 v). lia. }
  unfold Nlen in *. cbn [List.length]. lia.
Qed.

(** Thirteen entries in one call; and in seven calls with a snapshot, a dropped
    transaction, an evicted cache, a reload, and in a store that is too small at
    first. *)
Definition ops56a : list (@op ITypes IBackend) := [OExtend (pairs 0 13)].
Definition ops56b : list (@op ITypes IBackend) :=
  [OPush 0%N 7%N; OExtend (pairs 1 1); OExtend []; OSnapshot; OBegin; OExtend (pairs 40 5); ODrop;
   OExtend (pairs 2 3); OEvict []; OSnapshot; OReload 1; OExtend (pairs 5 6); OPush 11%N 5%N; OExtend (pairs 12 1)].

Definition appendingb (o : @op ITypes IBackend) : bool :=
  match o with OExtendUnpacked _ | OPack | ORetain _ | ORepair => false | _ => true end.
Lemma appendingb_ok o : appendingb o = true -> appending (fun _ : @V ITypes => True) o.
Proof. destruct o; cbn; try discriminate; auto. intros _. now apply Forall_forall. Qed.
Lemma run_ops_ahist s0 ops : forall s s', ahist (fun _ : @V ITypes => True) s0 s ->
  forallb appendingb ops = true -> run_ops anything ops s = Some s' -> ahist (fun _ : @V ITypes => True) s0 s'.
Proof.
  induction ops as [|o ops IH]; cbn [run_ops forallb]; intros s s' H Ha E; [congruence|].
  apply andb_prop in Ha as [Ha1 Ha2].
  destruct (op_inb anything o && op_okb o s) eqn:Eb; [|discriminate]. apply andb_prop in Eb as [E1 E2].
  destruct (exec o s) as [r s1] eqn:Ex. eapply IH; [|exact Ha2|exact E].
  eapply ahist_step; [exact H|exact (op_okb_ok _ _ E2)|exact (appendingb_ok _ Ha1)|exact Ex].
Qed.
Lemma state_areach n ops : runs anything n ops = true -> forallb appendingb ops = true ->
  areach ecfg esec (fun _ : @V ITypes => True) (state anything n ops).
Proof.
  unfold runs, state. destruct (run_ops anything ops (efresh n)) as [s|] eqn:E; [|discriminate]. intros _ Ha.
  exists (efresh n). split; [apply efresh_start|]. eapply run_ops_ahist; eauto. constructor.
Qed.

Definition st56a : sys := state anything 1000000 ops56a.
Definition st56b : sys := state anything 1000000 ops56b.
Definition keys_of56 (s : sys) := match fst (collect (sy_fo s) (snapshot (sy_b s))) with Ok c => Some (map (option_map fst) c) | _ => None end.
Definition graph56 (s : sys) := match fst (dump_graph (sy_fo s) (snapshot (sy_b s)) (fun _ => view)) with Ok g => Some g | _ => None end.

Example C56_case :
  areach ecfg esec (fun _ : @V ITypes => True) st56a /\ areach ecfg esec (fun _ : @V ITypes => True) st56b
  /\ keys_of56 st56a = Some (map (fun i => Some (N.of_nat i)) (seq 0 13)) /\ keys_of56 st56b = keys_of56 st56a
  /\ option_map (fun g => List.length (snd g)) (graph56 st56a) = Some 14 /\ graph56 st56b = graph56 st56a
  /\ option_map (fun g => map (fun n => snd (fst (fst (snd n)))) (firstn 4 (snd g))) (graph56 st56b) = Some [false; true; true; true].
Proof.
  splits.
  - apply state_areach; vm_compute; reflexivity.
  - apply state_areach; vm_compute; reflexivity.
  - vm_compute; reflexivity.
  - vm_compute; reflexivity.
  - vm_compute; reflexivity.
  - vm_compute; reflexivity.
  - vm_compute; reflexivity.
Qed.

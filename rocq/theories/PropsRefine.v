(** C79: a stream behaves like a list. Every run of operations on a stream, with
    any outcomes, is a run of a simple machine on lists of entries, step by step. *)
From Coq Require Import List NArith ZArith Lia Bool String Arith.
From Verif Require Import Base BaseProofs Cbor Types Seq SeqProofs Query QuerySpec World Read Write Api Iter History Spec Ghost Frame ReadProofs Packable WriteProofs QueryProofs PackProofs RetainProofs RepairProofs NoPurged ApiProofs SysProofs HistProofs Instance Example PropsRead.
Import ListNotations.
#[local] Coercion s_now : Setting >-> Config.

(** * Specification: the machine on lists *)

Section Machine.
  Context {T : Types} {X : Ext} {B : Backend T}.
  Notation entries := (list (option (K * V))).   (* [None]: a purged entry *)

  (** What there is to know about a stream: its entries, what they were when each
      of the open transactions was begun (innermost first), the entries of the
      snapshots taken, and whether [repair] was ever called. *)
  Record view := { v_now : entries; v_saved : list entries; v_snaps : list entries; v_repaired : bool }.
  Definition view0 : view := {| v_now := []; v_saved := []; v_snaps := []; v_repaired := false |}.
  Definition set_now (a : view) (c : entries) : view :=
    {| v_now := c; v_saved := v_saved a; v_snaps := v_snaps a; v_repaired := v_repaired a |}.

  (** [c'] is [c] with some entries purged, none of which is to be kept. *)
  Definition fades (keep : nat -> K -> Prop) (c c' : entries) : Prop :=
    List.length c' = List.length c
    /\ forall i e, nth_error c i = Some e ->
         nth_error c' i = Some e
         \/ (nth_error c' i = Some None /\ forall k v, e = Some (k, v) -> ~ keep i k).
  (** The query asks for the entry with offset [i] and key [k]. *)
  Definition asked (q : Query) (i : nat) (k : K) : Prop := exists m, query_ok q m /\ m i k = true.
  Definition all_gone (c : entries) : Prop := forall e, In e c -> e = None.

  (** One operation with its outcome. *)
  Definition moves (o : op) (r : res unit) (a a' : view) : Prop :=
    match o, r with
    | OExtend items, Ok _ | OExtendUnpacked items, Ok _ => a' = set_now a (v_now a ++ map Some items)
    | OPush k v, Ok _ => a' = set_now a (v_now a ++ [Some (k, v)])
    | OPack, Ok _ => exists c, a' = set_now a c /\ List.length c = List.length (v_now a)
                               /\ (v_repaired a = false -> c = v_now a)
    | OPack, _ => exists c, a' = set_now a c /\ (v_repaired a = false -> exists rest, v_now a = c ++ rest)
    | ORetain q, Ok _ => exists c, a' = set_now a c /\ fades (asked q) (v_now a) c
    | ORepair, Ok _ => exists c, fades (fun _ _ => False) (v_now a) c
        /\ a' = {| v_now := c; v_saved := v_saved a; v_snaps := v_snaps a; v_repaired := true |}
    | ORepair, _ => a' = {| v_now := v_now a; v_saved := v_saved a; v_snaps := v_snaps a; v_repaired := true |}
    | OBegin, _ => a' = {| v_now := v_now a; v_saved := v_now a :: v_saved a; v_snaps := v_snaps a; v_repaired := v_repaired a |}
    | OCommit, _ => a' = {| v_now := v_now a; v_saved := tl (v_saved a); v_snaps := v_snaps a; v_repaired := v_repaired a |}
    | ODrop, _ =>
        match v_saved a with
        | [] => a' = a
        | c :: rest => a' = {| v_now := c; v_saved := rest; v_snaps := v_snaps a; v_repaired := v_repaired a |}
        end
    | OSnapshot, _ => a' = {| v_now := v_now a; v_saved := v_saved a; v_snaps := v_snaps a ++ [v_now a]; v_repaired := v_repaired a |}
    | OReload n, Ok _ =>
        match nth_error (v_snaps a) n with
        | Some c => a' = {| v_now := c; v_saved := []; v_snaps := v_snaps a; v_repaired := v_repaired a |}
                    \/ all_gone c /\ a' = a
        | None => a' = a
        end
    | OLoad n, Ok _ =>
        match nth_error (v_snaps a) n with
        | Some c => a' = {| v_now := v_now a; v_saved := v_saved a; v_snaps := v_snaps a ++ [c]; v_repaired := v_repaired a |}
                    \/ all_gone c /\ a' = a
        | None => a' = a
        end
    | _, _ => a' = a
    end.

  (** A run: operations with their outcomes and the states they lead to. *)
  Fixpoint run (s : sys) (tr : list (op * res unit * sys)) : Prop :=
    match tr with
    | [] => True
    | (o, r, s') :: tr => op_ok o s /\ exec o s = (r, s') /\ run s' tr
    end.
  (** The machine follows it, and after every step [P] holds of both. *)
  Fixpoint tracks (P : sys -> view -> Prop) (a : view) (tr : list (op * res unit * sys)) (vs : list view) : Prop :=
    match tr, vs with
    | [], [] => True
    | (o, r, s') :: tr, a' :: vs => moves o r a a' /\ P s' a' /\ tracks P a' tr vs
    | _, _ => False
    end.

  (** Everything that can be read is what the machine says. *)
  Definition agrees (s : sys) (a : view) : Prop :=
    builder_count (sy_b s) = List.length (v_now a)
    /\ answers (sy_fo s) (snapshot (sy_b s)) (v_now a)
    /\ Forall2 (answers (sy_fo s)) (sy_snaps s) (v_snaps a).
  (** And everything can be read. *)
  Definition agrees_all (s : sys) (a : view) : Prop :=
    small_branches (sy_fo s) ->
    answers_all (sy_fo s) (snapshot (sy_b s)) (v_now a)
    /\ Forall2 (answers_all (sy_fo s)) (sy_snaps s) (v_snaps a).

  (** The pairs that were appended, and runs that do nothing else to the stream. *)
  Fixpoint appended (tr : list (op * res unit * sys)) : list (K * V) :=
    match tr with
    | [] => []
    | (OExtend items, Ok _, _) :: tr | (OExtendUnpacked items, Ok _, _) :: tr => items ++ appended tr
    | (OPush k v, Ok _, _) :: tr => (k, v) :: appended tr
    | _ :: tr => appended tr
    end.
  Definition additive (x : op * res unit * sys) : Prop :=
    match x with
    | (ORetain _, _, _) | (ORepair, _, _) | (ODrop, _, _) | (OReload _, _, _) => False
    | (OPack, r, _) => r = Ok tt
    | _ => True
    end.
End Machine.

(** * Proofs *)

Section Refine.
  Context {T : Types} {TL : TypesLaws T} {X : Ext} {XL : ExtLaws X}
          {B : Backend T} {BL : BackendLaws T B}.
  Variable cfg : Setting.
  Variable sec : Secrets.
  Hypothesis Hcfg : setting_ok cfg.
  Notation good k := (sys_good cfg sec (k_lose k = false) (k_repair k = false)).

  Definition stands (t : Tree) (c : list (option (K * V))) : Prop := exists n, behind sec t n /\ ocontent n = c.
  Definition root_stands (r : option Index) c : Prop := stands (option_map (fun i => (i, sec, 0%N)) r) c.

  Lemma behind_det t n n' : behind sec t n -> behind sec t n' -> n = n'.
  Proof.
    destruct t as [[[i s] o]|], n as [g|], n' as [g'|]; cbn; try easy.
    intros (_ & E & lim & R) (_ & E' & lim' & R'). f_equal. eapply repr_det; eauto. congruence.
  Qed.
  Lemma stands_eq t c n : stands t c -> behind sec t n -> c = ocontent n.
  Proof. intros (n' & H & <-) H'. now rewrite (behind_det _ _ _ H H'). Qed.
  Lemma binv_behind Av Ps fo b n : bgood cfg sec Av Ps fo b n -> behind sec (snapshot b) n.
  Proof.
    intros G. destruct n as [t|].
    - apply binv_snap in G as (_ & -> & G). cbn. splits; auto. pose proof (snap_repr _ _ _ _ _ _ _ _ G). eauto.
    - apply binv_none in G as (_ & ->). exact Logic.I.
  Qed.
  Lemma stands_b b c r : snapshot b = option_map (fun i => (i, sec, b_off b)) r -> (stands (snapshot b) c <-> root_stands r c).
  Proof.
    intros ->. unfold root_stands, stands. destruct r as [i|]; cbn; [|tauto].
    split; intros (n & H & E); exists n; split; auto; destruct n; auto.
  Qed.
  Lemma snapshot_root b : b_sec b = sec -> snapshot b = option_map (fun i => (i, sec, b_off b)) (b_root b).
  Proof. unfold snapshot. intros ->. now destruct (b_root b). Qed.

  Definition unrepaired (k : kind) : kind := {| k_lose := k_lose k; k_repair := false; k_reload := k_reload k |}.

  Definition abs (k : kind) (s : sys) (a : view) : Prop :=
    good k s /\ (v_repaired a = false -> good (unrepaired k) s)
    /\ stands (snapshot (sy_b s)) (v_now a)
    /\ Forall2 root_stands (se_saved (sy_se s)) (v_saved a)
    /\ Forall2 stands (sy_snaps s) (v_snaps a).

  Lemma good_step k s o r s' : good k s -> op_ok o s -> op_in k o -> exec o s = (r, s') -> good k s'.
  Proof. intros G Hok Hin E. exact (proj1 (step_ok cfg sec Hcfg k _ _ _ _ G Hok Hin E)). Qed.
  Lemma good_known k s t : good k s -> known s t ->
    fok sec (sy_fo s) /\ snap_good cfg sec (k_lose k = false) (k_repair k = false) (sy_fo s) t.
  Proof.
    intros ((n & I) & _ & Hs) Kn. split; [apply I|]. destruct Kn as [->|Kn]; [eapply snapshot_good; eauto|].
    rewrite Forall_forall in Hs. auto.
  Qed.
  Lemma good_avail (Av Ps : Prop) fo t n : snap_good cfg sec Av Ps fo t -> behind sec t n -> Av -> small_branches fo ->
    oavail (fo_store fo) n.
  Proof.
    destruct t as [[[i sec'] o]|], n as [g|]; cbn [behind]; try easy.
    intros (-> & lim & g' & G) (_ & E & lim' & R) av Hs.
    assert (g' = g) as <-. { eapply repr_det; [eapply snap_repr; eauto|exact R|]. destruct G as [-> _]. congruence. }
    eapply snap_avail; eauto. now apply small_fits.
  Qed.

  Lemma fades_of m (keep : nat -> K -> Prop) c c' : keeps m 0 c c' -> (forall i k, keep i k -> m i k = true) -> fades keep c c'.
  Proof.
    intros H Hm. apply keeps_nth in H as (Hl & H). split; [exact Hl|]. intros i e E.
    destruct (H _ _ E) as [H1|(H1 & H2)]; [now left|right]. split; [exact H1|]. intros k v -> Hk. apply Hm in Hk. cbn in H2. congruence.
  Qed.

  Lemma leaf_gone t g : behind sec t (Some g) -> tree_link t = None -> all_gone (content g).
  Proof.
    destruct t as [[[i s] o]|]; cbn; [|easy]. intros (_ & <- & lim & R) El e He.
    destruct g as [x vs|x|x cs|x]; cbn in *.
    - destruct R as (_ & blk & r & A & _). congruence.
    - now apply repeat_spec in He.
    - apply repr_branch in R as (_ & _ & _ & _ & blk & r & A & _). congruence.
    - now apply repeat_spec in He.
  Qed.

  Lemma Forall2_nth1 {A C} (R : A -> C -> Prop) l l' n x : Forall2 R l l' -> nth_error l n = Some x ->
    exists y, nth_error l' n = Some y /\ R x y.
  Proof. intros H. revert n. induction H; intros [|n] E; try discriminate; [injection E as <-; eexists; split; [reflexivity|auto]|cbn; auto]. Qed.
  Lemma Forall2_none {A C} (R : A -> C -> Prop) l l' n : Forall2 R l l' -> nth_error l n = None -> nth_error l' n = None.
  Proof. intros H. revert n. induction H; intros [|n] E; try discriminate; cbn; auto. Qed.

  Lemma abs_step k s a o r s' : abs k s a -> op_ok o s -> op_in k o -> exec o s = (r, s') ->
    exists a', moves o r a a' /\ abs k s' a'.
  Proof.
    intros (R & Rn & S1 & S2 & S3) Hok Hin E.
    pose proof (good_step _ _ _ _ _ R Hok Hin E) as R'.
    assert (Rn' : o <> ORepair -> v_repaired a = false -> good (unrepaired k) s').
    { intros Ho Hr. eapply good_step; eauto. destruct o; auto; congruence. }
    destruct (proj1 R) as (n & I). pose proof (stands_eq _ _ _ S1 (binv_behind _ _ _ _ _ I)) as En.
    pose proof I as (F & Es & Ec & Er & _).
    assert (KEEP : forall s1, s' = with_fo s s1 -> o <> ORepair -> abs k s' a).
    { intros s1 -> Ho. unfold abs; splits; auto.  }
    assert (WB : forall fo b c n', s' = with_b s fo b -> o <> ORepair -> bgood cfg sec (k_lose k = false) (k_repair k = false) fo b n' ->
              c = ocontent n' -> abs k s' (set_now a c)).
    { intros fo b c n' -> Ho G ->. unfold abs; splits; auto. exists n'. split; [eapply binv_behind; exact G|reflexivity]. }
    assert (WBu : forall fo b n', s' = with_b s fo b -> o <> ORepair -> bgood cfg sec (k_lose k = false) (k_repair k = false) fo b n' ->
              n' = n -> abs k s' a).
    { intros fo b n' -> Ho G ->. unfold abs; splits; auto. exists n. split; [eapply binv_behind; exact G|congruence]. }
    destruct o; cbn [exec] in E.
    - destruct (extend _ _ _) as [[r0 fo] b] eqn:E0. injection E as <- <-.
      destruct (extend_api cfg sec Hcfg _ _ _ _ _ _ _ _ _ I E0) as (_ & (n' & I' & Q1 & Q2) & _).
      destruct r0 as [[]| | |]; cbn [moves]; [eexists; split; [reflexivity|]|exists a; split; [reflexivity|]..].
      + eapply WB; eauto; [discriminate|]. rewrite En. symmetry. now apply Q1.
      + eapply WBu; eauto; [discriminate|]. now apply Q2.
      + eapply WBu; eauto; [discriminate|]. now apply Q2.
      + eapply WBu; eauto; [discriminate|]. now apply Q2.
    - destruct (push _ _ _ _) as [[r0 fo] b] eqn:E0. injection E as <- <-.
      destruct (extend_api cfg sec Hcfg _ _ _ _ _ _ _ _ _ I E0) as (_ & (n' & I' & Q1 & Q2) & _).
      destruct r0 as [[]| | |]; cbn [moves]; [eexists; split; [reflexivity|]|exists a; split; [reflexivity|]..].
      + eapply WB; eauto; [discriminate|]. rewrite En. symmetry. now apply Q1.
      + eapply WBu; eauto; [discriminate|]. now apply Q2.
      + eapply WBu; eauto; [discriminate|]. now apply Q2.
      + eapply WBu; eauto; [discriminate|]. now apply Q2.
    - destruct (extend_unpacked _ _ _) as [[r0 fo] b] eqn:E0. injection E as <- <-.
      destruct (extend_unpacked_api cfg sec Hcfg _ _ _ _ _ _ _ _ _ I E0) as (_ & (n' & I' & Q1 & Q2) & _).
      destruct r0 as [[]| | |]; cbn [moves]; [eexists; split; [reflexivity|]|exists a; split; [reflexivity|]..].
      + eapply WB; eauto; [discriminate|]. rewrite En. symmetry. now apply Q1.
      + eapply WBu; eauto; [discriminate|]. now apply Q2.
      + eapply WBu; eauto; [discriminate|]. now apply Q2.
      + eapply WBu; eauto; [discriminate|]. now apply Q2.
    - destruct (pack _ _) as [[r0 fo] b] eqn:E0. injection E as <- <-.
      destruct (pack_full cfg sec Hcfg _ _ _ _ _ _ _ _ I E0) as (_ & n' & I' & _ & _ & _ & Ql & _).
      assert (U : v_repaired a = false -> (r0 = Ok tt -> ocontent n' = ocontent n) /\ exists rest, ocontent n = ocontent n' ++ rest).
      { intros Hr. destruct (proj1 (Rn Hr)) as (n1 & I1).
        assert (n1 = n) as -> by (eapply behind_det; eapply binv_behind; eauto).
        destruct (pack_full cfg sec Hcfg _ _ _ _ _ _ _ _ I1 E0) as (_ & n2 & I2 & _ & H1 & H2 & _).
        assert (n2 = n') as -> by (eapply behind_det; eapply binv_behind; eauto). split; [intros ->; now apply H1|now apply H2]. }
      exists (set_now a (ocontent n')). split; [|eapply WB; eauto; discriminate].
      destruct r0 as [[]| | |]; cbn [moves]; exists (ocontent n').
      + split; [reflexivity|]. rewrite En. split; [now apply Ql|]. intros Hr. now apply U.
      + split; [reflexivity|]. rewrite En. intros Hr. now apply U.
      + split; [reflexivity|]. rewrite En. intros Hr. now apply U.
      + split; [reflexivity|]. rewrite En. intros Hr. now apply U.
    - destruct (retain _ _ _) as [[r0 fo] b] eqn:E0. injection E as <- <-.
      destruct (retain_api cfg sec _ _ _ _ _ _ _ _ _ _ I (any_purge_ok cfg sec q) E0) as (_ & (n' & I' & Q1 & Q2) & _).
      destruct r0 as [[]| | |]; cbn [moves]; [exists (set_now a (ocontent n')); split|exists a; split; [reflexivity|]..].
      + exists (ocontent n'). split; [reflexivity|]. rewrite En.
        destruct (Q1 eq_refl) as (Hk & _). pose proof (fades_of _ (fun _ _ => False) _ _ Hk ltac:(easy)) as (Hl & _).
        split; [exact Hl|]. intros i e Ei. destruct (keeps_nth _ _ _ _ Hk) as (_ & Hk').
        destruct (Hk' _ _ Ei) as [H1|(H1 & _)]; [now left|].
        destruct e as [[ke ve]|]; [|now left]. right. split; [exact H1|]. intros k0 v0 [= <- <-] (m & Hq & Hm).
        destruct (retain_api cfg sec _ _ _ _ _ _ _ _ _ _ I (query_purge_ok cfg sec q m Hq) E0) as (_ & (n2 & I2 & Q3 & _) & _).
        assert (n2 = n') as -> by (eapply behind_det; eapply binv_behind; eauto).
        destruct (Q3 eq_refl) as (Hk2 & _). apply keeps_nth in Hk2 as (_ & Hk2).
        destruct (Hk2 _ _ Ei) as [H2|(_ & H2)]; [congruence|]. cbn in H2. congruence.
      + eapply WB; eauto. discriminate.
      + eapply WBu; eauto; [discriminate|]. now apply Q2.
      + eapply WBu; eauto; [discriminate|]. now apply Q2.
      + eapply WBu; eauto; [discriminate|]. now apply Q2.
    - destruct (repair _ _) as [[r0 fo] b] eqn:E0. injection E as <- <-.
      destruct (repair_api cfg sec _ _ _ _ _ _ _ _ I E0) as (_ & _ & Q1 & Q2).
      destruct r0 as [rep| | |]; cbn [void rmap moves].
      + destruct (Q2 _ eq_refl) as (n' & I' & Hf & _). exists {| v_now := ocontent n'; v_saved := v_saved a; v_snaps := v_snaps a; v_repaired := true |}.
        split.
        * exists (ocontent n'). split; [|reflexivity]. rewrite En. unfold oforgets in Hf.
          destruct n as [g|], n' as [g'|]; try easy.
          -- destruct Hf as [Hf _]. apply forgets_nth in Hf as (Hl & Hf). split; [exact Hl|]. intros i e Ei.
             destruct (Hf _ _ Ei) as [H|(H & _)]; [now left|right]. split; [exact H|easy].
          -- split; [reflexivity|]. intros [|i] e Ei; discriminate.
        * unfold abs; splits; auto; [easy|]. exists n'. split; [eapply binv_behind; exact I'|reflexivity].
      + destruct Q1 as (_ & I'); [discriminate|]. eexists. split; [reflexivity|]. unfold abs; splits; auto; [easy|].
        exists n. split; [eapply binv_behind; exact I'|cbn [v_now]; congruence].
      + destruct Q1 as (_ & I'); [discriminate|]. eexists. split; [reflexivity|]. unfold abs; splits; auto; [easy|].
        exists n. split; [eapply binv_behind; exact I'|cbn [v_now]; congruence].
      + destruct Q1 as (_ & I'); [discriminate|]. eexists. split; [reflexivity|]. unfold abs; splits; auto; [easy|].
        exists n. split; [eapply binv_behind; exact I'|cbn [v_now]; congruence].
    - injection E as <- <-. eexists. split; [reflexivity|]. unfold abs; splits; auto; try (intros; apply Rn'; auto; discriminate).
      cbn. constructor; [|exact S2]. apply stands_b with (b := sy_b s); [now apply snapshot_root|exact S1].
    - injection E as <- <-. eexists. split; [reflexivity|]. unfold abs; splits; auto; try (intros; apply Rn'; auto; discriminate).
      cbn. inversion S2; cbn; auto.
    - injection E as <- <-. cbn [moves]. pose proof (sys_b_eqs cfg sec k _ R') as (Es' & _).
      destruct (se_saved (sy_se s)) as [|r0 rs] eqn:E2; destruct (v_saved a) as [|c0 cs] eqn:E3;
        [|inversion S2|inversion S2|].
      + exists a. split; [reflexivity|]. assert (Et : tx_drop (sy_se s) = sy_se s) by (unfold tx_drop; now rewrite E2).
        unfold abs; splits; auto; [intros; apply Rn'; auto; discriminate| |cbn; rewrite Et, E2, E3; constructor].
        unfold sy_b. cbn. rewrite Et. exact S1.
      + assert (S2' := S2). inversion S2' as [|? ? ? ? H0 S4]; subst.
        eexists. split; [reflexivity|]. unfold abs; splits; auto; [intros; apply Rn'; auto; discriminate| |].
        * cbn [v_now]. apply stands_b with (r := r0); [|exact H0]. rewrite snapshot_root by exact Es'.
          unfold sy_b. cbn. unfold tx_drop. now rewrite E2.
        * cbn. unfold tx_drop. now rewrite E2.
    - injection E as <- <-. eexists. split; [reflexivity|]. unfold abs; splits; auto; try (intros; apply Rn'; auto; discriminate).
      cbn. apply Forall2_app; auto.
    - destruct (nth_error (sy_snaps s) n0) as [t|] eqn:Et; cbn [obind] in E.
      2: { injection E as <- <-. exists a. cbn [moves]. rewrite (Forall2_none _ _ _ _ S3 Et). split; [reflexivity|].
           now unfold abs; splits. }
      destruct (Forall2_nth1 _ _ _ _ _ S3 Et) as (c & Ecn & Hc).
      assert (Kn : known s t) by (right; now apply nth_error_In in Et).
      destruct (good_known _ _ _ R Kn) as (_ & G). specialize (Hok _ Et).
      destruct (tree_link t) as [l|] eqn:El.
      2: { injection E as <- <-. exists a. cbn [moves]. rewrite Ecn. split.
           - right. split; [|reflexivity]. destruct Hc as (nc & Hc & <-). destruct nc as [g|]; [eapply leaf_gone; eauto|easy].
           - now unfold abs; splits. }
      rewrite Es, Ec in E. destruct t as [[[i sec'] o]|]; [|discriminate]. cbn in El.
      destruct G as (-> & lim & g & G). destruct Hc as (nc & Hc & <-).
      assert (Eg : nc = Some g).
      { eapply behind_det; [exact Hc|]. cbn. splits; auto; [apply G|]. pose proof (snap_repr _ _ _ _ _ _ _ _ G). eauto. }
      subst nc. destruct (load_stream_builder _ _ _ _) as [r0 fo] eqn:E0.
      destruct (load_builder cfg sec Hcfg _ _ _ _ _ _ _ _ _ F G Hok El E0) as (_ & H1 & H2 & _).
      destruct r0 as [b'|e|e|]; [|injection E as <- <-..].
      + injection E as <- <-. destruct (H1 _ eq_refl) as (g' & I' & Hrl & _).
        eexists. cbn [moves]. rewrite Ecn. split; [left; reflexivity|]. unfold abs; splits; auto; [intros; apply Rn'; auto; discriminate| |constructor].
        exists (Some g'). split; [eapply binv_behind; exact I'|]. cbn. now apply relabel_content.
      + exists a. split; [reflexivity|]. eapply KEEP; [reflexivity|discriminate].
      + exists a. split; [reflexivity|]. eapply KEEP; [reflexivity|discriminate].
      + exists a. split; [reflexivity|]. eapply KEEP; [reflexivity|discriminate].
    - destruct (nth_error (sy_snaps s) n0) as [t|] eqn:Et; cbn [obind] in E.
      2: { injection E as <- <-. exists a. cbn [moves]. rewrite (Forall2_none _ _ _ _ S3 Et). split; [reflexivity|].
           now unfold abs; splits. }
      destruct (Forall2_nth1 _ _ _ _ _ S3 Et) as (c & Ecn & Hc).
      assert (Kn : known s t) by (right; now apply nth_error_In in Et).
      destruct (good_known _ _ _ R Kn) as (_ & G). specialize (Hok _ Et).
      destruct (tree_link t) as [l|] eqn:El.
      2: { injection E as <- <-. exists a. cbn [moves]. rewrite Ecn. split.
           - right. split; [|reflexivity]. destruct Hc as (nc & Hc & <-). destruct nc as [g|]; [eapply leaf_gone; eauto|easy].
           - now unfold abs; splits. }
      rewrite Es in E. destruct t as [[[i sec'] o]|]; [|discriminate]. cbn in El.
      destruct G as (-> & lim & g & G). destruct Hc as (nc & Hc & <-).
      assert (Eg : nc = Some g).
      { eapply behind_det; [exact Hc|]. cbn. splits; auto; [apply G|]. pose proof (snap_repr _ _ _ _ _ _ _ _ G). eauto. }
      subst nc. destruct (load_tree _ _ _) as [r0 fo] eqn:E0.
      destruct (load_tree_ok cfg sec _ _ _ _ _ _ _ _ _ F G Hok El E0) as (_ & H1 & H2 & _).
      destruct r0 as [t'|e|e|]; [|injection E as <- <-..].
      + injection E as <- <-. destruct (H1 _ eq_refl) as (i' & o' & g' & -> & G' & Hrl & _).
        eexists. cbn [moves]. rewrite Ecn. split; [left; reflexivity|]. unfold abs; splits; auto; [intros; apply Rn'; auto; discriminate|].
        cbn. apply Forall2_app; [exact S3|]. constructor; [|constructor]. exists (Some g'). split.
        * cbn. splits; auto; [apply G'|]. pose proof (snap_repr _ _ _ _ _ _ _ _ G'). eauto.
        * cbn. now apply relabel_content.
      + exists a. split; [reflexivity|]. eapply KEEP; [reflexivity|discriminate].
      + exists a. split; [reflexivity|]. eapply KEEP; [reflexivity|discriminate].
      + exists a. split; [reflexivity|]. eapply KEEP; [reflexivity|discriminate].
    - exists a. cbn [moves]. split; [now destruct r|]. destruct (nth_error (sy_snaps s) n0) as [t|].
      + destruct (do_read _ _ _) as [r1 fo]. injection E as <- <-. eapply KEEP; [reflexivity|discriminate].
      + injection E as <- <-. now unfold abs; splits.
    - exists a. cbn [moves]. split; [now destruct r|]. destruct (check_invariants _ _) as [r1 fo]. injection E as <- <-.
      eapply KEEP; [reflexivity|discriminate].
    - exists a. cbn [moves]. split; [now destruct r|]. injection E as <- <-. eapply KEEP; [reflexivity|discriminate].
    - exists a. cbn [moves]. split; [now destruct r|]. injection E as <- <-. eapply KEEP; [reflexivity|discriminate].
    - exists a. cbn [moves]. split; [now destruct r|]. injection E as <- <-. eapply KEEP; [reflexivity|discriminate].
  Qed.

  Lemma stands_answers fo t c : fok sec fo -> stands t c -> answers fo t c.
  Proof. intros F (n & H & <-). now apply (behind_answers sec). Qed.

  Lemma abs_agrees k s a : abs k s a -> agrees s a.
  Proof.
    intros (R & _ & S1 & _ & S3). destruct (proj1 R) as (n & I). pose proof I as (F & _). unfold agrees. splits.
    - rewrite (stands_eq _ _ _ S1 (binv_behind _ _ _ _ _ I)). eapply b_count; eauto.
    - now apply stands_answers.
    - clear -S3 F TL XL BL. induction S3; constructor; auto. now apply stands_answers.
  Qed.

  Lemma abs_agrees_all k s a (RR : ReliableReads T B) : k_lose k = false -> abs k s a -> agrees_all s a.
  Proof.
    intros Hk (R & _ & S1 & _ & S3) Hs.
    assert (P : forall t c, known s t -> stands t c -> answers_all (sy_fo s) t c).
    { intros t c Kn (n & Bh & <-). destruct (good_known _ _ _ R Kn) as (F & G).
      apply (behind_answers_all sec); auto. eapply good_avail; eauto. }
    split; [apply P; [now left|exact S1]|]. assert (Hin : forall t, In t (sy_snaps s) -> known s t) by (now right).
    revert S3 Hin. generalize (sy_snaps s) (v_snaps a). induction 1; constructor; auto; [apply P; auto; apply Hin; now left|].
    apply IHS3. intros t Ht. apply Hin. now right.
  Qed.

  Lemma abs_run k (P : sys -> view -> Prop) : (forall s a, abs k s a -> P s a) ->
    forall tr s a, abs k s a -> run s tr -> Forall (fun x => op_in k (fst (fst x))) tr -> exists vs, tracks P a tr vs.
  Proof.
    intros HP. induction tr as [|[[o r] s'] tr IH]; intros s a A Hr Hin; [now exists []|].
    destruct Hr as (Hok & E & Hr). inversion Hin as [|? ? Hi Hin']; subst.
    destruct (abs_step _ _ _ _ _ _ A Hok Hi E) as (a' & M & A'). destruct (IH _ _ A' Hr Hin') as (vs & Hv).
    exists (a' :: vs). cbn. auto.
  Qed.

End Refine.

Section Theorems.
  Context {T : Types} {TL : TypesLaws T} {X : Ext} {XL : ExtLaws X}
          {B : Backend T} {BL : BackendLaws T B}.
  Variable cfg : Config.
  Variable sec : Secrets.
  Hypothesis Hcfg : config_ok cfg.

  Lemma abs_start k s : start cfg sec s -> abs cfg sec k s view0.
  Proof.
    intros S0. assert (R : forall k', reach k' cfg sec s) by (intros k'; exists s; split; [exact S0|constructor]).
    unfold abs; splits; try (intros; apply (reach_ok cfg sec Hcfg), R);
      destruct S0 as (E & _); rewrite E; cbn; [|constructor|constructor]. exists None. split; [exact Logic.I|reflexivity].
  Qed.

  (** Every run on a new stream is a run of the machine, and at every moment every
      read of the stream and of the snapshots gives what the machine says or
      fails. *)
  Theorem C79_refines s0 tr :
    start cfg sec s0 -> run s0 tr -> exists vs, tracks agrees view0 tr vs.
  Proof.
    intros S0 Hr. apply (abs_run cfg sec Hcfg anything agrees (abs_agrees cfg sec anything) tr s0 view0); auto; [now apply abs_start|].
    apply Forall_forall. intros [[o r] s] _. now destruct o.
  Qed.

  (** If the store loses nothing, no read fails. *)
  Theorem C79_refines_total s0 tr (RR : ReliableReads T B) :
    start cfg sec s0 -> run s0 tr -> (forall st r s, ~ In (OLose st, r, s) tr) ->
    exists vs, tracks (fun s a => agrees s a /\ agrees_all s a) view0 tr vs.
  Proof.
    intros S0 Hr Hl. set (k := {| k_lose := false; k_repair := true; k_reload := true |}).
    apply (abs_run cfg sec Hcfg k _ (fun s a A => conj (abs_agrees cfg sec k s a A) (abs_agrees_all cfg sec k s a RR eq_refl A)) tr s0 view0); auto; [now apply abs_start|].
    apply Forall_forall. intros [[o r] s] H. destruct o; cbn; auto. exfalso. eapply Hl; eauto.
  Qed.

  Lemma last_cons {A} (l : list A) : forall x d, last (x :: l) d = last l x.
  Proof. induction l as [|y l IH]; intros x d; [reflexivity|]. change (last (x :: y :: l) d) with (last (y :: l) d). now rewrite !IH. Qed.

  Lemma tracks_additive P tr : forall a vs, Forall additive tr -> v_repaired a = false -> tracks P a tr vs ->
    v_now (last vs a) = v_now a ++ map Some (appended tr).
  Proof.
    induction tr as [|[[o r] s'] tr IH]; intros a [|a' vs] Hadd Hrep H; cbn in H; try easy; [cbn; now rewrite app_nil_r|].
    destruct H as (M & _ & H). inversion Hadd as [|? ? Hx Hadd']; subst.
    rewrite last_cons.
    assert (Step : v_repaired a' = false /\ v_now a' ++ map Some (appended tr) = v_now a ++ map Some (appended ((o, r, s') :: tr))).
    { destruct o, r; cbn [moves appended additive] in *; try easy; try (subst a'; cbn; rewrite ?map_app, ?app_assoc, <- ?app_assoc; now split).
      - destruct M as (c & -> & _ & Hc). rewrite (Hc Hrep). now split.
      - destruct (nth_error (v_snaps a) n) as [c|]; [destruct M as [->|(_ & ->)]|subst a']; now split. }
    destruct Step as (Hr' & <-). now apply IH.
  Qed.

  (** If nothing is purged, repaired, dropped or reloaded and no [pack] fails, the
      stream holds all that was ever appended to it, in order. *)
  Theorem C79_appended s0 tr : start cfg sec s0 -> run s0 tr -> Forall additive tr ->
    answers (sy_fo (last (map snd tr) s0)) (snapshot (sy_b (last (map snd tr) s0))) (map Some (appended tr)).
  Proof.
    intros S0 Hr Ha. destruct (C79_refines s0 tr S0 Hr) as (vs & H).
    pose proof (tracks_additive _ _ view0 _ Ha eq_refl H) as E. cbn [view0 v_now app] in E. rewrite <- E.
    assert (A0 : agrees s0 view0) by (apply (abs_agrees cfg sec anything), abs_start, S0).
    clear -H A0. revert s0 A0 H. generalize view0. revert vs. induction tr as [|[[o r] s'] tr IH]; intros [|a' vs] a s0 A0 H; cbn in H; try easy.
    - apply A0.
    - destruct H as (_ & A & H). specialize (IH vs a' s' A H).
      cbn [map snd]. now rewrite !last_cons.
  Qed.
End Theorems.

(** A run with everything in it: transactions, a failing write, purging, packing
    and loading. *)
Fixpoint trace (s : @sys ITypes IBackend) (ops : list op) : list (op * res unit * sys) :=
  match ops with
  | [] => []
  | o :: ops => let '(r, s') := exec o s in (o, r, s') :: trace s' ops
  end.
Lemma trace_run k ops : forall s s', run_ops k ops s = Some s' -> run s (trace s ops).
Proof.
  induction ops as [|o ops IH]; intros s s' H; [exact Logic.I|]. cbn [run_ops trace] in *.
  destruct (op_inb k o && op_okb o s) eqn:Eb; [|discriminate]. apply andb_prop in Eb as [_ E2].
  destruct (exec o s) as [r s1] eqn:Ex. cbn [snd] in H. cbn [run]. splits; [now apply op_okb_ok|exact Ex|eapply IH; exact H].
Qed.

Definition q79 : @Query ITypes := offset_range_query (range_incl 3 8).
Definition ops79 : list (@op ITypes IBackend) :=
  [OExtend (pairs 0 5); OSnapshot; OBegin; OExtendUnpacked (pairs 5 2); ODrop; OExtend (pairs 7 3); OExtendUnpacked (pairs 10 2); OPack;
   ORetain q79; OSnapshot; OLoad 0; OReload 0; OPush 20%N 21%N].
Definition tr79 := trace (efresh 1000000) ops79.
Definition oks {A C D} (tr : list (A * res C * D)) : list bool := map (fun x => match snd (fst x) with Ok _ => true | _ => false end) tr.

Lemma runs_trace k n ops : runs k n ops = true -> run (efresh n) (trace (efresh n) ops).
Proof.
  unfold runs. destruct (run_ops k ops (efresh n)) as [s|] eqn:E; [|discriminate]. intros _. eapply trace_run; exact E.
Qed.
Lemma tracks_counts (tr : list (@op ITypes IBackend * res unit * sys)) : forall a vs, tracks agrees a tr vs ->
  map (fun a => List.length (v_now a)) vs = map (fun x => builder_count (sy_b (snd x))) tr.
Proof.
  induction tr as [|[[o r] s'] tr IH]; intros a [|a' vs] H; cbn in H; try easy.
  destruct H as (_ & (A & _) & H). cbn [map snd]. f_equal; [now rewrite A|eapply IH; exact H].
Qed.

Example C79_case :
  start ecfg esec (efresh 1000000) /\ run (efresh 1000000) tr79 /\ oks tr79 = repeat true 13
  /\ (forall vs, tracks agrees view0 tr79 vs -> map (fun a => List.length (v_now a)) vs = [5; 5; 5; 7; 5; 8; 10; 10; 10; 10; 10; 5; 6]).
Proof.
  split; [apply efresh_start|]. split; [apply (runs_trace anything); vm_compute; reflexivity|]. split; [vm_compute; reflexivity|].
  intros vs H. apply tracks_counts in H. rewrite H. vm_compute. reflexivity.
Qed.

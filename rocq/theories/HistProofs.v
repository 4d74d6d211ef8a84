(** What the history invariant says about the public operations. *)
From Coq Require Import List NArith ZArith Lia Bool String Arith.
From Verif Require Import Base BaseProofs Cbor Types Seq SeqProofs Query QuerySpec World Read Write Api History Spec Ghost Frame ReadProofs Packable WriteProofs QueryProofs PackProofs RetainProofs RepairProofs NoPurged ApiProofs SysProofs.
Import ListNotations.
#[local] Coercion s_now : Setting >-> Config.

Section Hist.
  Context {T : Types} {TL : TypesLaws T} {X : Ext} {XL : ExtLaws X}
          {B : Backend T} {BL : BackendLaws T B}.
  Variable cfg : Setting.
  Variable sec : Secrets.
  Hypothesis Hcfg : setting_ok cfg.

  Lemma small_fits fo lim : small_branches fo <-> log_fits (wof fo lim).
  Proof.
    unfold small_branches, log_fits, fits. cbn [w_log wof]. split; intros H; (eapply Forall_impl; [|exact H]); cbn beta; intros e [He|He]; auto; right.
    - destruct (N.ltb_spec max_capacity (Nlen (ev_raw e))); [lia|easy].
    - destruct (N.ltb_spec max_capacity (Nlen (ev_raw e))); [discriminate|lia].
  Qed.

  Lemma join_entry {A} (l : list (option A)) i : join (nth_error l i) = nth i l None.
  Proof. revert i. induction l as [|a l IH]; intros [|i]; cbn; auto. Qed.

  Definition oget (n : option tree) (i : nat) : option (K * V) := entry (ocontent n) i.
  Definition otpacked (n : option tree) : bool := match n with Some t => packed t | None => true end.

  Section Kind.
    Variable Av Ps : Prop.
    Notation binv := (bgood cfg sec Av Ps).

    Lemma binv_snap fo b t : binv fo b (Some t) ->
      fok sec fo /\ snapshot b = Some (root_ix t, sec, b_off b) /\ snap_tree cfg sec Av Ps fo (root_ix t) (b_off b) t.
    Proof.
      intros (F & Es & Ec & Er & G). split; [easy|]. unfold snapshot. rewrite Er, Es. split; [easy|].
      split; [easy|]. exists t. split; [exact G|apply relabel_refl].
    Qed.
    Lemma binv_none fo b : binv fo b None -> fok sec fo /\ snapshot b = None.
    Proof. intros (F & Es & Ec & Er & G). split; [easy|]. unfold snapshot. now rewrite Er. Qed.

    Lemma b_collect fo b n off r fo' : binv fo b n -> collect_from fo (snapshot b) off = (r, fo') ->
      (r = Ok (skipn off (ocontent n)) \/ exists e, r = Err e)
      /\ (ReliableReads T B -> oavail (fo_store fo) n -> r = Ok (skipn off (ocontent n))).
    Proof. intros I E. eapply collect_api in E as (_ & H); eauto. Qed.

    Lemma b_get fo b n off r fo' : binv fo b n -> get fo (snapshot b) off = (r, fo') ->
      (r = Ok (oget n off) \/ exists e, r = Err e)
      /\ (ReliableReads T B -> oavail (fo_store fo) n -> r = Ok (oget n off)).
    Proof.
      intros I E. destruct n as [t|].
      - apply binv_snap in I as (F & Es & G). rewrite Es in E.
        eapply get_snap in E as (_ & E2 & E3); eauto. rewrite !join_entry in *. auto.
      - apply binv_none in I as (F & Es). rewrite Es in E. injection E as <- <-. cbn.
        unfold oget, entry. cbn. destruct off; auto.
    Qed.

    Lemma b_packed fo b n r fo' : binv fo b n -> is_packed fo (snapshot b) = (r, fo') ->
      (r = Ok (otpacked n) \/ exists e, r = Err e)
      /\ (ReliableReads T B -> oavail (fo_store fo) n -> r = Ok (otpacked n)).
    Proof.
      intros I E. destruct n as [t|].
      - apply binv_snap in I as (F & Es & G). rewrite Es in E.
        eapply is_packed_snap in E as (_ & E2 & E3); eauto.
      - apply binv_none in I as (F & Es). rewrite Es in E. injection E as <- <-. auto.
    Qed.

    Lemma b_count fo b n : binv fo b n -> builder_count b = List.length (ocontent n).
    Proof.
      intros (F & Es & Ec & Er & G). unfold builder_count. rewrite Er. destruct n as [t|]; [|easy].
      cbn. symmetry. eapply length_content. apply G.
    Qed.

    Lemma reads_b fo b n c : binv fo b n -> reads fo (snapshot b) c -> c = ocontent n.
    Proof. intros I (fo' & E). unfold collect in E. eapply b_collect in E as ([E|(e & E)] & _); eauto; [|discriminate]. cbn in E. congruence. Qed.
    Lemma reads_from_b fo b n off c : binv fo b n -> reads_from fo (snapshot b) off c -> c = skipn off (ocontent n).
    Proof. intros I (fo' & E). eapply b_collect in E as ([E|(e & E)] & _); eauto; [|discriminate]. congruence. Qed.
    Lemma gets_b fo b n i v : binv fo b n -> gets fo (snapshot b) i v -> v = oget n i.
    Proof. intros I (fo' & E). eapply b_get in E as ([E|(e & E)] & _); eauto; [|discriminate]. congruence. Qed.
    Lemma packed_b fo b n x : binv fo b n -> says_packed fo (snapshot b) x -> x = otpacked n.
    Proof. intros I (fo' & E). eapply b_packed in E as ([E|(e & E)] & _); eauto; [|discriminate]. congruence. Qed.

    Lemma opacked_b n : opacked n <-> otpacked n = true.
    Proof. destruct n; cbn; tauto. Qed.

    Lemma binv_avail fo b n : binv fo b n -> Av -> small_branches fo -> oavail (fo_store fo) n.
    Proof.
      intros (F & Es & Ec & Er & G) av Hs. destruct n as [t|]; [|easy]. destruct G as ((_ & _ & A & _) & _).
      apply A; [exact av|]. now apply small_fits.
    Qed.

    Lemma binv_reads fo b n : ReliableReads T B -> binv fo b n -> Av -> small_branches fo ->
      reads fo (snapshot b) (ocontent n)
      /\ (forall off, reads_from fo (snapshot b) off (skipn off (ocontent n)))
      /\ (forall i, gets fo (snapshot b) i (oget n i))
      /\ says_packed fo (snapshot b) (otpacked n).
    Proof.
      intros Re I av Hs. pose proof (binv_avail _ _ _ I av Hs) as A. splits.
      - unfold reads, collect. destruct (collect_from fo (snapshot b) 0) as [r fo'] eqn:E.
        eapply b_collect in E as (_ & E); eauto. rewrite E by auto. cbn. eauto.
      - intros off. unfold reads_from. destruct (collect_from fo (snapshot b) off) as [r fo'] eqn:E.
        eapply b_collect in E as (_ & E); eauto. rewrite E by auto. eauto.
      - intros i. unfold gets. destruct (get fo (snapshot b) i) as [r fo'] eqn:E.
        eapply b_get in E as (_ & E); eauto. rewrite E by auto. eauto.
      - unfold says_packed. destruct (is_packed fo (snapshot b)) as [r fo'] eqn:E.
        eapply b_packed in E as (_ & E); eauto. rewrite E by auto. eauto.
    Qed.
  End Kind.

  Lemma reach_b k s : reach k cfg sec s ->
    exists n, bgood cfg sec (k_lose k = false) (k_repair k = false) (sy_fo s) (sy_b s) n.
  Proof. intros R. now apply (reach_ok cfg sec Hcfg) in R as (H & _). Qed.

  Lemma oget_app n n' items i : ocontent n' = ocontent n ++ map Some items ->
    oget n' i = if Nat.ltb i (List.length (ocontent n)) then oget n i else nth_error items (i - List.length (ocontent n)).
  Proof.
    intros E. unfold oget, entry. rewrite E. destruct (Nat.ltb_spec i (List.length (ocontent n))).
    - now rewrite app_nth1.
    - rewrite app_nth2 by lia. generalize (i - List.length (ocontent n)). clear. induction items as [|a l IH]; intros [|i]; cbn; auto.
  Qed.
End Hist.

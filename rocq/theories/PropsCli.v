(** The command line program: C85, C86, C87, and what [pack] leaves as the root (C17). *)
From Coq Require Import List NArith ZArith Lia Bool String Arith.
From Verif Require PropsProgress.
From Verif Require Import Base BaseProofs Cbor CborProofs Types Seq SeqProofs Query QuerySpec World Read Write Api Iter History Spec Ghost Frame ReadProofs Packable WriteProofs QueryProofs PackProofs RetainProofs RepairProofs NoPurged ApiProofs SysProofs HistProofs IterProofs Stream Instance Example PropsRead PropsQuery PropsIter PropsShape PropsStream PropsRefine PropsCost PropsHeight Cli.
Import ListNotations.

(** * Specification *)
Section Spec.
  Context {T : Types}.

  (** The first [n] events that the sender makes, as a stream delivers them. *)
  Definition sent_events (ev : nat -> K * V) (n : nat) : list (nat * K * V) :=
    map (fun i => (i, fst (ev i), snd (ev i))) (seq 0 n).
  (** The same as the content of a tree. *)
  Definition evs (ev : nat -> K * V) (n : nat) : list (option (K * V)) := map (fun i => Some (ev i)) (seq 0 n).
End Spec.

Section Props.
  Context {T : Types} {TL : TypesLaws T} {X : Ext} {XL : ExtLaws X}
          {B : Backend T} {BL : BackendLaws T B}.
  Variable cfg : Config.
  Variable sec : Secrets.
  Hypothesis Hcfg : config_ok cfg.

  (** * The root after [pack] *)

  Lemma simplify_roots_branch fuel : forall rs from w rs' w',
    simplify_roots cfg sec fuel rs from w = (Ok rs', w') -> List.length rs' <= 1 -> exists x, rs' = [IBranch x].
  Proof.
    induction fuel as [|f IH]; intros rs from w rs' w' E Hl; cbn [simplify_roots] in E;
      apply assert_ok in E as [_ E]; apply assert_ok in E as [_ E]; apply bind_ok in E as (r & w1 & _ & E);
      destruct r as [c|c|c].
    3: discriminate. 5: eapply IH; eauto.
    1, 2, 3, 4: apply bind_ok in E as (x & w2 & _ & E); injection E as <- <-; exists x;
      destruct (firstn from rs) as [|a l]; [|rewrite !app_length in Hl; cbn in Hl; lia];
      destruct (skipn (from + c) rs) as [|b l']; [reflexivity|rewrite !app_length in Hl; cbn in Hl; lia].
  Qed.

  Lemma simplify_all_branch fuel : forall rs w rs' w',
    simplify_all cfg sec fuel rs w = (Ok rs', w') -> rs' = rs /\ List.length rs <= 1 \/ exists x, rs' = [IBranch x].
  Proof.
    induction fuel as [|f IH]; intros rs w rs' w' E; cbn [simplify_all] in E; destruct (Nat.ltb_spec 1 (List.length rs)).
    - discriminate.
    - injection E as <- <-. auto.
    - apply bind_ok in E as (rs1 & w1 & E1 & E). apply IH in E as [[-> Hl]|E]; [|auto].
      right. eapply simplify_roots_branch; eauto.
    - injection E as <- <-. auto.
  Qed.

  Lemma from_roots_branch rs w i w' : tree_from_roots cfg sec rs w = (Ok i, w') ->
    (rs = [] /\ i = None) \/ (exists j, rs = [j] /\ i = Some j) \/ exists x, i = Some (IBranch x).
  Proof.
    unfold tree_from_roots. intros E. apply assert_ok in E as [_ E]. apply assert_ok in E as [_ E].
    apply bind_ok in E as (rs' & w1 & E1 & E). injection E as <- <-.
    apply simplify_all_branch in E1 as [[-> Hl]|(x & ->)]; [|right; right; exists x; reflexivity].
    destruct rs as [|j [|? ?]]; [now left|right; left; now exists j|cbn in Hl; lia].
  Qed.

  Lemma in_groots_list g cs : forall cur, In g (fst (groots_list cs cur)) -> exists c cur', In c cs /\ In g (fst (groots c cur')).
  Proof.
    induction cs as [|c cs IH]; intros cur H; [destruct H|]. rewrite groots_list_cons in H. cbn [fst] in H.
    apply in_app_or in H as [H|H]; [exists c, cur; cbn; auto|]. apply IH in H as (c' & cur' & H1 & H2). exists c', cur'. cbn. auto.
  Qed.

  Lemma in_short {A C} (f : A -> list C) g l : In g l -> List.length (f g) <= List.length (flat_map f l).
  Proof.
    induction l as [|a l IH]; intros H; [destruct H|]. cbn. rewrite app_length. destruct H as [->|H]; [lia|].
    specialize (IH H). lia.
  Qed.

  Section Kind.
    Variables Av Ps : Prop.
    Notation binv := (bgood cfg sec Av Ps).

    Lemma child_short w x cs c : gd cfg sec Av Ps w (TBranch x cs) -> 2 <= List.length cs -> In c cs ->
      List.length (content c) < List.length (content (TBranch x cs)).
    Proof.
      intros G Hl Hc. apply gd_children in G. cbn [content].
      assert (P : Forall (fun c => 1 <= List.length (content c)) cs).
      { eapply Forall_impl; [|exact G]. intros a (R & I & _). rewrite (length_content _ _ _ R). eapply tree_nonempty; eauto. }
      clear G. apply in_split in Hc as (l1 & l2 & ->). rewrite flat_map_app, app_length. cbn [flat_map]. rewrite app_length.
      apply Forall_app in P as [P1 P2]. inversion P2 as [|? ? P3 P4]; subst. rewrite app_length in Hl. cbn in Hl.
      destruct l1 as [|a l1].
      - destruct l2 as [|a l2]; [cbn in Hl; lia|]. inversion P4; subst. cbn [flat_map]. rewrite app_length. lia.
      - inversion P1; subst. cbn [flat_map]. rewrite app_length. lia.
    Qed.

    (** Two or more children below the root: the packed tree is not a single leaf. *)
    Lemma pack_branch fo b t fo' b' : binv fo b (Some t) ->
      match t with TBranch _ cs => 2 <= List.length cs | TBranchP _ => True | _ => False end ->
      pack fo b = (Ok tt, fo', b') -> exists x, b_root b' = Some (IBranch x).
    Proof.
      intros I Ht E. pose proof I as (F & Es & Ec & Er & G). unfold pack in E.
      destruct (roots fo b) as [rr fo1] eqn:Eroots.
      pose proof (roots_api cfg sec Av Ps _ _ _ _ _ I Eroots) as (S1 & [->|[e ->]] & _); [|discriminate].
      rewrite Es in E. cbn [s_now only] in Ec. rewrite Ec in E.
      destruct (Api.run fo1 b _) as [[r1 fo2] b1] eqn:Erun.
      pose proof (run_fext sec _ _ _ _ _ _ (wf_tree_from_roots sec cfg _) Erun) as W2.
      apply run_inv in Erun as (Erun & E1 & E2 & E3).
      destruct r1 as [i|?|?|]; try discriminate.
      destruct (collect_from fo2 _ _) as [rr3 fo3] eqn:Ecol.
      assert (F2 : fok sec fo2).
      { eapply fext_fok; [exact W2|]. eapply fext_fok; [apply (fsame_fext sec _ _ 0%N S1)|exact F]. }
      assert (Bh : behind sec (snapshot b) (Some t)).
      { unfold snapshot. rewrite Er, Es. cbn. splits; auto. exists (b_off b). apply G. }
      apply (behind_collect sec _ _ _ _ _ _ F2 Bh) in Ecol as ([->|[e ->]] & _); [|discriminate].
      destruct (omapM _ _) as [rest|] eqn:Eo; [|discriminate]. apply omapM_inv in Eo.
      destruct rest as [|e rest].
      2:{ apply (fresh_extend cfg sec) in E as (x & _ & _ & H & _); [eauto|cbn; congruence|cbn; congruence|discriminate]. }
      cbn [extend] in E. injection E as <- <-. cbn [set_root b_root].
      apply (f_equal (@List.length _)) in Eo. rewrite skipn_length in Eo. cbn [List.length map ocontent] in Eo.
      apply from_roots_branch in Erun as [[_ ->]|[(j & Ej & ->)|(x & ->)]]; [| |eauto].
      - exfalso. cbn in Eo. destruct G as [(R & Iv & _) _].
        rewrite (length_content _ _ _ R) in Eo. pose proof (tree_nonempty _ _ _ _ R Iv). lia.
      - destruct j as [j|j]; [|eauto]. exfalso. unfold builder_count in Eo. cbn [set_root b_root] in Eo.
        destruct (fst (groots t None)) as [|g [|? ?]] eqn:Eg; try discriminate. injection Ej as Ej.
        assert (Ig : In g (fst (groots t None))) by (rewrite Eg; now left).
        assert (Gg : gd cfg sec Av Ps (wof fo (b_off b)) g).
        { assert (H : Forall (gd cfg sec Av Ps (wof fo (b_off b))) (fst (groots t None))).
          { apply groots_sub; [|apply G]. intros x cs. apply gd_children. }
          rewrite Forall_forall in H. auto. }
        destruct t as [| |x cs|x]; try easy.
        + destruct (isealed (IBranch x) && cur_le (bi_level x) None) eqn:Et.
          { rewrite groots_taken in Eg by exact Et. injection Eg as <-. discriminate. }
          rewrite groots_branch in Ig by exact Et. apply in_groots_list in Ig as (c & cur & Hc & Ig).
          pose proof (in_short content _ _ Ig). pose proof (groots_short c cur).
          destruct G as [G _]. pose proof (child_short _ _ _ _ G Ht Hc).
          destruct Gg as (Rg & _). apply length_content in Rg. rewrite Ej in Rg. lia.
        + destruct (isealed (IBranch x) && cur_le (bi_level x) None) eqn:Et.
          { rewrite groots_taken in Eg by exact Et. injection Eg as <-. discriminate. }
          cbn [groots] in Ig. cbn [root_ix ilevel] in Ig. rewrite Et in Ig. destruct Ig.
    Qed.

    Lemma wide_shape fo b t : binv fo b (Some t) -> owide (b_root b) -> 2 <= builder_level b ->
      match t with TBranch _ cs => 2 <= List.length cs | TBranchP _ => True | _ => False end.
    Proof.
      intros (F & Es & Ec & Er & G) Hw Hl. unfold builder_level in Hl. rewrite Er in Hw, Hl. cbn [option_map] in *.
      destruct t as [x vs|x|x cs|x]; cbn [root_ix ilevel owide wide] in *; try lia; auto.
      destruct G as [(_ & I & _) _]. apply invs_branch in I as (_ & _ & Hs & _). rewrite Hs, !map_length in Hw. lia.
    Qed.

    (** ** One round of the sender *)

    Lemma tick_ok fo b n e r fo' b' : Ps -> binv fo b n -> owide (b_root b) -> tick fo b e = (r, fo', b') ->
      fext sec fo (b_off b) fo' (b_off b')
      /\ owide (b_root b')
      /\ exists n', binv fo' b' n'
         /\ (r = Ok tt -> ocontent n' = ocontent n ++ [Some e] /\ exists x, b_root b' = Some (IBranch x)).
    Proof.
      intros ps I Hw E. unfold tick in E. destruct (extend_unpacked fo b [e]) as [[r1 fo1] b1] eqn:E1.
      pose proof (extend_unpacked_wide cfg sec Hcfg Av Ps _ _ _ _ _ _ _ I Hw E1) as Hw1.
      destruct (extend_unpacked_api cfg sec Hcfg Av Ps _ _ _ _ _ _ _ I E1) as (W1 & (n1 & I1 & Q1 & _) & _).
      assert (Hf : r1 = Ok tt -> exists x, b_root b1 = Some (IBranch x)).
      { intros ->. apply (fresh_extend_unpacked cfg sec) in E1 as (x & _ & _ & H & _); [eauto|apply I|apply I|discriminate]. }
      destruct r1 as [[]|?|?|].
      2, 3, 4: injection E as <- <- <-; splits; auto; exists n1; split; [exact I1|discriminate].
      pose proof (Q1 eq_refl) as C1. cbn [map] in C1.
      destruct (Nat.ltb_spec 100 (builder_level b1)) as [Hl|Hl].
      2:{ injection E as <- <- <-. splits; auto. exists n1. split; [exact I1|]. auto. }
      pose proof (pack_wide cfg sec Hcfg Av Ps _ _ _ _ _ _ I1 Hw1 E) as Hw2.
      destruct (pack_full cfg sec Hcfg Av Ps _ _ _ _ _ _ I1 E) as (W2 & n2 & I2 & _ & Q2 & _).
      split; [eapply fext_trans; eauto|]. split; [exact Hw2|]. exists n2. split; [exact I2|]. intros ->.
      destruct (Q2 ps eq_refl) as [C2 _]. split; [congruence|].
      destruct n1 as [t1|].
      2:{ destruct I1 as (_ & _ & _ & Er & _). unfold builder_level in Hl. rewrite Er in Hl. cbn in Hl. lia. }
      eapply pack_branch; [exact I1| |exact E]. eapply wide_shape; [exact I1|exact Hw1|lia].
    Qed.
  End Kind.

  (** * C85: sender and receiver *)
  Section Run.
    Variable k : kind.
    Hypothesis Hk : k_repair k = false.
    Variable ev : nat -> K * V.
    Variable N : nat.
    Notation sys_ok := (sys_good cfg sec (k_lose k = false) (k_repair k = false)).

    Notation evs := (evs ev).
    Definition upto (i : nat) : option (K * V) := if Nat.ltb i N then Some (ev i) else None.

    Lemma evs_S n : evs (S n) = evs n ++ [Some (ev n)].
    Proof. unfold evs. now rewrite seq_S, map_app. Qed.
    Lemma evs_length n : List.length (evs n) = n.
    Proof. unfold evs. now rewrite map_length, seq_length. Qed.
    Lemma evs_part n : n <= N -> part_of upto (evs n).
    Proof.
      intros H. unfold part_of. rewrite evs_length. unfold evs. apply map_ext_in. intros i Hi. apply in_seq in Hi.
      unfold upto. destruct (Nat.ltb_spec i N); [easy|lia].
    Qed.

    (** [t] holds the first [n] events. *)
    Definition has (t : Tree) (n : nat) : Prop := forall g, behind sec t g -> ocontent g = evs n.
    Definition published (s : sys) (j : nat) (l : L) : Prop :=
      exists i t, nth_error (sy_snaps s) i = Some t /\ tree_link t = Some l /\ branch_root t /\ has t (S j).

    Lemma published_grows s s' j l : grows k s s' -> published s j l -> published s' j l.
    Proof.
      intros ((new & Hn) & _) (i & t & H1 & H). exists i, t. split; [|exact H]. rewrite Hn, nth_error_app1; [exact H1|].
      apply nth_error_Some. congruence.
    Qed.

    Definition ninv (n : net) : Prop :=
      exists s ts,
        finv cfg sec k upto all_query (fun _ _ => true) (fun _ => tt) true 0 None ts (n_out n) s (n_st n)
        /\ sy_fo s = n_fo n /\ sy_b s = n_b n
        /\ owide (b_root (n_b n))
        /\ (n_alive n = true -> has (snapshot (n_b n)) (n_offset n))
        /\ List.length (n_sent n) = n_offset n
        /\ (forall j l, nth_error (n_sent n) j = Some l -> published s j l)
        /\ (ReliableReads T B -> k_lose k = false -> small_branches (n_fo n) ->
            forall j, In j (n_got n) -> exists t, In t ts /\ tree_count t = S j).

    Lemma ninv_env n o : ninv n ->
      match o with OLose _ | OEvict _ | OOthers _ _ => op_ok o (net_sys n) /\ op_in k o | _ => False end ->
      ninv (with_st n (sy_fo (snd (exec o (net_sys n)))) (n_st n) (n_got n) (n_out n)).
    Proof.
      intros (s & ts & Fi & Ef & Eb & Hw & Ha & Hl & Hp & Hg) Ho.
      assert (H : op_ok o s /\ op_in k o /\ sy_fo (snd (exec o s)) = sy_fo (snd (exec o (net_sys n))) /\ sy_b (snd (exec o s)) = sy_b s).
      { destruct o; try easy; cbn [op_ok exec snd with_fo sy_fo] in *; destruct Ho as [Ho1 Ho2]; rewrite Ef; cbn [net_sys sy_fo] in *;
          (split; [rewrite ?Eb; exact Ho1|]; split; [exact Ho2|]; split; reflexivity). }
      destruct H as (H1 & H2 & H3 & H4).
      destruct (exec o s) as [r s'] eqn:Ex. cbn [snd] in H3, H4.
      destruct (step_ok cfg sec Hcfg k _ _ _ _ (proj1 Fi) H1 H2 Ex) as [S' G].
      exists s', ts. cbn [with_st n_out n_st n_fo n_b n_alive n_offset n_sent n_got]. rewrite <- H3. splits; auto.
      - eapply finv_op; eauto.
      - congruence.
      - intros j l Hj. eapply published_grows; eauto.
      - intros Re Hlo Hs. apply Hg; auto. rewrite <- Ef. eapply small_before; eauto.
    Qed.

    Lemma ninv_next n : ninv n -> ninv (net_next n).
    Proof.
      intros (s & ts & Fi & Ef & Eb & Hw & Ha & Hl & Hp & Hg). unfold net_next.
      destruct (sm_next (n_fo n) (n_st n)) as [[r fo] st] eqn:En. rewrite <- Ef in En.
      pose proof (finv_next_grows cfg sec k _ _ _ _ C36_all _ _ _ _ _ _ _ _ _ _ Fi En) as G.
      exists (with_fo s fo), ts. cbn [with_st n_out n_st n_fo n_b n_alive n_offset n_sent n_got]. splits; auto.
      - eapply finv_next; eauto. apply C36_all.
      - intros Re Hlo Hs. apply Hg; auto. rewrite <- Ef. eapply small_before; [exact G|exact Hs].
    Qed.

    Lemma ninv_tick n : ninv n -> ninv (net_tick ev n).
    Proof.
      intros NI. unfold net_tick. destruct (n_alive n) eqn:Al; [|exact NI].
      destruct NI as (s & ts & Fi & Ef & Eb & Hw & Ha & Hl & Hp & Hg). specialize (Ha Al).
      pose proof (proj1 Fi) as S. pose proof S as ((t & I) & _). rewrite Ef, Eb in I.
      destruct (tick (n_fo n) (n_b n) _) as [[r fo] b] eqn:Et.
      destruct (tick_ok _ _ _ _ _ _ _ _ _ Hk I Hw Et) as (W & Hw' & t' & I' & Q).
      assert (S1 : sys_ok (with_b s fo b)).
      { eapply step_with_b; [exact S| |exact I']. rewrite Ef, Eb. exact W. }
      assert (G1 : grows k s (with_b s fo b)).
      { eapply fext_grows; [rewrite Ef; exact W|reflexivity|reflexivity]. }
      assert (Hs1 : small_branches fo -> small_branches (n_fo n)).
      { rewrite <- Ef. exact (small_before k _ _ G1). }
      destruct r as [[]|?|?|].
      2, 3, 4: exists (with_b s fo b), ts; cbn [n_out n_st n_fo n_b n_alive n_offset n_sent n_got]; splits; auto;
        [eapply finv_op; eauto|discriminate].
      destruct (Q eq_refl) as [C (x & Ex)].
      assert (Hc : has (snapshot b) (Datatypes.S (n_offset n))).
      { intros g Bh. rewrite (behind_det _ _ _ _ Bh (binv_behind _ _ _ _ _ _ _ I')), C, evs_S.
        now rewrite (Ha _ (binv_behind _ _ _ _ _ _ _ I)). }
      assert (Hln : exists l, bi_link x = Some l).
      { pose proof (binv_behind _ _ _ _ _ _ _ I') as Bh. apply Hc in Bh as Hc'. unfold snapshot in Bh. rewrite Ex in Bh.
        destruct t' as [g|]; [|destruct Bh]. destruct Bh as (_ & Er & lim & R). destruct g as [| |y cs|y]; try discriminate; injection Er as <-.
        - apply repr_branch_load in R as (l & _ & H & _). eauto.
        - exfalso. pose proof (f_equal (@List.length _) Hc') as Hlen. rewrite evs_length in Hlen.
          cbn [ocontent content] in Hc', Hlen. rewrite repeat_length in Hlen. rewrite Hlen in Hc'. discriminate. }
      destruct Hln as (l0 & El0).
      assert (El : builder_link b = Some l0) by (unfold builder_link; now rewrite Ex). rewrite El.
      destruct (exec OSnapshot (with_b s fo b)) as [r2 s2] eqn:E2.
      destruct (step_ok cfg sec Hcfg k OSnapshot _ _ _ S1 Logic.I Logic.I E2) as [S2 G2].
      pose proof (grows_trans k _ _ _ G1 G2) as G. injection E2 as <- <-.
      eexists _, ts. cbn [n_out n_st n_fo n_b n_alive n_offset n_sent n_got]. split; [eapply finv_op; [exact Fi|exact S2|exact G]|].
      cbn [sy_fo sy_b sy_se se_b with_b]. splits; auto.
      - rewrite app_length, Hl. cbn. lia.
      - intros j l Hj. destruct (Nat.lt_ge_cases j (List.length (n_sent n))) as [Hlt|Hge].
        + rewrite nth_error_app1 in Hj by exact Hlt. eapply published_grows; eauto.
        + rewrite nth_error_app2 in Hj by exact Hge. destruct (j - List.length (n_sent n)) as [|d] eqn:Ed.
          2:{ cbn in Hj. destruct d; discriminate. }
          cbn in Hj. injection Hj as <-. assert (j = n_offset n) as -> by lia.
          exists (List.length (sy_snaps s)), (snapshot b). cbn [sy_snaps with_b].
          rewrite nth_error_app2 by lia. rewrite Nat.sub_diag. split; [reflexivity|].
          split; [unfold snapshot; rewrite Ex; exact El0|]. split; [unfold snapshot; now rewrite Ex|exact Hc].
    Qed.

    Lemma ninv_recv n j : n_offset n <= N -> ninv n -> ninv (net_recv sec j n).
    Proof.
      intros HN NI. unfold net_recv. destruct (nth_error (n_sent n) j) as [l|] eqn:Ej; [|exact NI].
      destruct (sm_cur (n_st n)) eqn:Hc; [exact NI|]. destruct (sm_done (n_st n)) eqn:Hd; [exact NI|].
      destruct NI as (s & ts & Fi & Ef & Eb & Hw & Ha & Hl & Hp & Hg).
      pose proof (proj1 Fi) as S. destruct (Hp _ _ Ej) as (i & t & Hi & Hlk & Hbr & Hh).
      destruct t as [[[ix s0] o]|]; [|discriminate]. destruct ix as [|x]; [destruct Hbr|].
      destruct (known_snap cfg sec k s _ S (or_intror (nth_error_In _ _ Hi))) as [F (-> & lim & g & Sg)].
      destruct (load_tree (n_fo n) sec l) as [r fo] eqn:El.
      assert (Ex : exec (OLoad i) s = match r with
                     | Ok t => (Ok tt, {| sy_fo := fo; sy_se := sy_se s; sy_snaps := sy_snaps s ++ [t] |})
                     | _ => (failed r, with_fo s fo) end).
      { cbn [exec]. rewrite Hi. cbn [obind]. rewrite Hlk. destruct (sys_b_eqs _ _ _ _ S) as [-> _]. rewrite Ef, El. now destruct r. }
      assert (Ok1 : op_ok (OLoad i) s).
      { cbn [op_ok]. rewrite Hi. intros t [= <-]. exact Hbr. }
      destruct (exec (OLoad i) s) as [r1 s1] eqn:Ex1.
      destruct (step_ok cfg sec Hcfg k _ _ _ _ S Ok1 Logic.I Ex1) as [S1 G1].
      rewrite Ef in F, Sg.
      destruct (load_tree_ok _ _ _ _ _ _ _ _ _ _ _ F Sg Logic.I Hlk El) as (_ & L2 & _ & L4).
      assert (Hr : ReliableReads T B -> k_lose k = false -> small_branches (n_fo n) -> exists t, r = Ok t).
      { intros Re Hlo Hs. apply L4; auto. apply avail_avail_branches. eapply snap_avail; [exact Sg|exact Hlo|now apply small_fits]. }
      assert (Hsm : small_branches (sy_fo s1) -> small_branches (n_fo n)).
      { rewrite <- Ef. exact (small_before k _ _ G1). }
      assert (Es1 : sy_fo s1 = fo /\ sy_b s1 = n_b n).
      { rewrite <- Eb. destruct r; injection Ex as _ ->; auto. }
      destruct Es1 as [Es1 Es2].
      assert (Hlt : j < n_offset n). { rewrite <- Hl. apply nth_error_Some. congruence. }
      destruct r as [t'|e|p|].
      2, 3, 4: exists s1, ts; cbn [with_st n_out n_st n_fo n_b n_alive n_offset n_sent n_got]; splits; auto;
        [eapply finv_op; eauto|intros j' l' Hj; eapply published_grows; eauto|];
        intros Re Hlo Hs; rewrite <- Es1 in Hs; destruct (Hr Re Hlo (Hsm Hs)) as (t & Ht); discriminate Ht.
      destruct (L2 _ eq_refl) as (i' & o' & g' & -> & Sg' & Rl & _).
      pose proof (snap_repr _ _ _ _ _ _ _ _ Sg) as Rg. pose proof (snap_repr _ _ _ _ _ _ _ _ Sg') as Rg'.
      assert (Cg : content g' = evs (Datatypes.S j)).
      { rewrite (relabel_content _ _ Rl). apply (Hh (Some g)). destruct Sg as [<- _]. cbn. eauto. }
      assert (Ei : root_ix g' = i') by apply Sg'.
      assert (Hb' : forall n, behind sec (Some (i', sec, o')) n -> ocontent n = evs (Datatypes.S j)).
      { intros n' Bh. assert (Bh' : behind sec (Some (i', sec, o')) (Some g')) by (cbn; eauto).
        rewrite (behind_det _ _ _ _ Bh Bh'). exact Cg. }
      exists s1, (ts ++ [Some (i', sec, o')]). cbn [with_st n_out n_st n_fo n_b n_alive n_offset n_sent n_got]. splits; auto.
      - apply finv_feed; auto; [eapply finv_op; eauto|]. split.
        + right. injection Ex as _ ->. apply in_or_app. right. now left.
        + intros n' Bh. rewrite (Hb' _ Bh). apply evs_part. lia.
      - intros j' l' Hj. eapply published_grows; eauto.
      - intros Re Hlo Hs j' Hj'. apply in_app_or in Hj' as [Hj'|[<-|[]]].
        + rewrite <- Es1 in Hs. destruct (Hg Re Hlo (Hsm Hs) j' Hj') as (t & H1 & H2). exists t. split; [apply in_or_app; auto|exact H2].
        + eexists. split; [apply in_or_app; right; left; reflexivity|]. cbn. rewrite <- Ei, <- (length_content _ _ _ Rg'), Cg. apply evs_length.
    Qed.

    Lemma offset_grows o n : n_offset n <= n_offset (net_exec sec ev o n).
    Proof.
      destruct o; cbn [net_exec]; [unfold net_tick|unfold net_recv|unfold net_next|reflexivity].
      - destruct (n_alive n); [|lia]. destruct (tick _ _ _) as [[[]?]?]; cbn; lia.
      - destruct (nth_error _ _); [|lia]. destruct (sm_cur _); [lia|]. destruct (sm_done _); [lia|].
        destruct (load_tree _ _ _) as [[] ?]; cbn; lia.
      - destruct (sm_next _ _) as [[? ?] ?]. cbn. lia.
    Qed.

    Lemma ninv_all fo n : start cfg sec (net_sys (net_new fo cfg sec)) -> nets k sec ev (net_new fo cfg sec) n ->
      n_offset n <= N -> ninv n.
    Proof.
      intros St R. induction R as [|n o R IH Ho]; intros HN.
      - assert (Rc : reach k cfg sec (net_sys (net_new fo cfg sec))) by (eexists; split; [exact St|constructor]).
        apply (reach_ok cfg sec Hcfg) in Rc.
        exists (net_sys (net_new fo cfg sec)), []. cbn [net_new n_out n_st n_fo n_b n_alive n_offset n_sent n_got]. splits; auto.
        + apply (run_finv cfg sec Hcfg k upto _ _ _ C36_all true 0 None (net_sys (net_new fo cfg sec))); [exact Rc|]. constructor.
        + exact Logic.I.
        + intros _ g Bh. destruct g; [destruct Bh|reflexivity].
        + intros j l Hj. destruct j; discriminate.
        + intros _ _ _ j [].
      - pose proof (offset_grows o n). destruct o; cbn [net_exec] in *.
        + apply ninv_tick. apply IH. lia.
        + apply ninv_recv; [lia|]. apply IH. lia.
        + apply ninv_next. apply IH. lia.
        + apply ninv_env; [apply IH; lia|exact Ho].
    Qed.
  End Run.

  Lemma window_upto ev N n : window (fun _ _ => true) (upto ev N) 0 n = sent_events ev (Nat.min n N).
  Proof.
    unfold window, sent_events. rewrite Nat.sub_0_r. induction n as [|n IH]; [reflexivity|].
    rewrite seq_S, map_app. cbn [map Nat.add]. rewrite matches_split, IH, map_length, seq_length.
    unfold upto at 1. destruct (Nat.ltb_spec n N).
    - replace (Nat.min (S n) N) with (S n) by lia. replace (Nat.min n N) with n by lia. rewrite seq_S, map_app.
      cbn. now destruct (ev n).
    - replace (Nat.min (S n) N) with N by lia. replace (Nat.min n N) with N by lia. cbn. now rewrite app_nil_r.
  Qed.

  Lemma got_sent k ev n0 n : nets k sec ev n0 n -> n_got n0 = [] -> forall j, In j (n_got n) -> j < List.length (n_sent n).
  Proof.
    intros R E0. induction R as [|n o R IH Ho]; [rewrite E0; intros j []|].
    intros j. destruct o; cbn [net_exec].
    - unfold net_tick. destruct (n_alive n); [|apply IH]. destruct (tick _ _ _) as [[[]?]?]; cbn [n_got n_sent]; [|apply IH ..].
      rewrite app_length. intros Hj%IH. lia.
    - unfold net_recv. destruct (nth_error _ _) as [l|] eqn:Ej; [|apply IH]. destruct (sm_cur _); [apply IH|]. destruct (sm_done _); [apply IH|].
      assert (j0 < List.length (n_sent n)) by (apply nth_error_Some; congruence).
      destruct (load_tree _ _ _) as [[] ?]; cbn [with_st n_got n_sent]; (intros [Hj|[<-|[]]]%in_app_or; [now apply IH|assumption]).
    - unfold net_next. destruct (sm_next _ _) as [[? ?] ?]. apply IH.
    - apply IH.
  Qed.

  (** Whatever happens, and in whatever order messages arrive: the receiver
      delivers the events of the sender in order, from the first one on, each
      once. While the store keeps its blocks, it delivers every event up to the
      last message it took. *)
  Theorem C85_delivered k ev fo n :
    k_repair k = false -> start cfg sec (net_sys (net_new fo cfg sec)) -> nets k sec ev (net_new fo cfg sec) n ->
    exists m, flatten_chunks (n_out n) = map Ok (sent_events ev m) /\ m <= n_offset n
      /\ (ReliableReads T B -> k_lose k = false -> small_branches (n_fo n) -> sm_cur (n_st n) = None ->
          forall j, In j (n_got n) -> j < m).
  Proof.
    intros Hk St R. destruct (ninv_all k Hk ev (n_offset n) fo n St R (le_n _)) as (s & ts & Fi & Ef & _ & _ & _ & Hl & Hp & Hg).
    destruct Fi as (_ & _ & _ & _ & cs & H1 & H2 & H3 & H5 & H4).
    exists (Nat.min (covered 0 cs) (n_offset n)). splits.
    - rewrite <- window_upto, <- H2. rewrite (window_ext _ _ (fun _ _ => true)) in H3 by (intros; reflexivity).
      rewrite <- H3, H1. clear. unfold flatten_chunks. induction cs as [|c cs IH]; cbn; [easy|]. now rewrite map_app, IH.
    - lia.
    - intros RR Hlo Hs Hc j Hj. rewrite Hc in H4. destruct (Hg RR Hlo Hs j Hj) as (t & It & Ct). rewrite <- Ef in Hs.
      specialize (H5 eq_refl). cbn in H5.
      pose proof (got_sent _ _ _ _ R eq_refl j Hj). destruct (H4 RR Hlo Hs t It) as [H0|H0]; [lia|congruence].
  Qed.

  (** Every round of the sender publishes a link, and while the store keeps its
      blocks the link of round [j] can be loaded and is a tree of the first [j + 1]
      events: also after any number of further rounds. *)
  Theorem C85_published k ev fo n :
    k_repair k = false -> start cfg sec (net_sys (net_new fo cfg sec)) -> nets k sec ev (net_new fo cfg sec) n ->
    List.length (n_sent n) = n_offset n
    /\ forall j l, nth_error (n_sent n) j = Some l ->
        (forall t fo', load_tree (n_fo n) sec l = (Ok t, fo') -> answers fo' t (evs ev (S j)))
        /\ (ReliableReads T B -> k_lose k = false -> small_branches (n_fo n) ->
            exists t fo', load_tree (n_fo n) sec l = (Ok t, fo') /\ tree_count t = S j /\ answers_all fo' t (evs ev (S j))).
  Proof.
    intros Hk St R. destruct (ninv_all k Hk ev (n_offset n) fo n St R (le_n _)) as (s & ts & Fi & Ef & Eb & _ & _ & Hl & Hp & _).
    split; [exact Hl|]. intros j l Hj.
    pose proof (proj1 Fi) as S0. destruct (Hp _ _ Hj) as (i & t & Hi & Hlk & Hbr & Hh).
    destruct t as [[[ix s0] o]|]; [|discriminate]. destruct ix as [|x]; [destruct Hbr|].
    destruct (known_snap cfg sec k s _ S0 (or_intror (nth_error_In _ _ Hi))) as [F (-> & lim & g & Sg)].
    rewrite Ef in F, Sg. destruct (load_tree (n_fo n) sec l) as [r fo'] eqn:El.
    destruct (load_tree_ok _ _ _ _ _ _ _ _ _ _ _ F Sg Logic.I Hlk El) as (L1 & L2 & _ & L4).
    assert (F' : fok sec fo') by (eapply fext_fok; [apply (fsame_fext sec _ _ 0%N L1)|exact F]).
    assert (H : forall t, r = Ok t -> exists i' o' g', t = Some (i', sec, o') /\ snap_tree cfg sec (k_lose k = false) (k_repair k = false) fo' i' lim g'
                  /\ behind sec t (Some g') /\ content g' = evs ev (S j)).
    { intros t Ht. destruct (L2 _ Ht) as (i' & o' & g' & -> & Sg' & Rl & _).
      pose proof (snap_repr _ _ _ _ _ _ _ _ Sg) as Rg. pose proof (snap_repr _ _ _ _ _ _ _ _ Sg') as Rg'.
      exists i', o', g'. split; [reflexivity|]. split; [exact Sg'|]. split; [cbn; destruct Sg' as [<- _]; eauto|].
      rewrite (relabel_content _ _ Rl). apply (Hh (Some g)). destruct Sg as [<- _]. cbn. eauto. }
    split.
    - intros t fo1 [= -> <-]. destruct (H _ eq_refl) as (i' & o' & g' & -> & _ & Bh & Cg).
      rewrite <- Cg. apply (behind_answers sec _ _ (Some g')); auto.
    - intros RR Hlo Hs. destruct L4 as (t & ->); [exact RR| |].
      { apply avail_avail_branches. eapply snap_avail; [exact Sg|exact Hlo|now apply small_fits]. }
      destruct (H _ eq_refl) as (i' & o' & g' & -> & Sg' & Bh & Cg). eexists _, fo'. split; [reflexivity|]. split.
      + cbn. destruct Sg' as [Ei Sg']. destruct Bh as (_ & <- & lim' & R'). rewrite <- (length_content _ _ _ R'), Cg. apply evs_length.
      + rewrite <- Cg. apply (behind_answers_all sec _ _ (Some g')); auto. cbn [oavail].
        eapply snap_avail; [exact Sg'|exact Hlo|]. apply small_fits. unfold small_branches in *.
        destruct L1 as (_ & _ & _ & L1). cbn in L1. now rewrite L1.
  Qed.

  (** The tree of the sender holds what it has sent. *)
  Theorem C85_sender k ev fo n :
    k_repair k = false -> start cfg sec (net_sys (net_new fo cfg sec)) -> nets k sec ev (net_new fo cfg sec) n ->
    n_alive n = true ->
    builder_count (n_b n) = n_offset n
    /\ (ReliableReads T B -> k_lose k = false -> small_branches (n_fo n) ->
        answers_all (n_fo n) (snapshot (n_b n)) (evs ev (n_offset n))).
  Proof.
    intros Hk St R Al. destruct (ninv_all k Hk ev (n_offset n) fo n St R (le_n _)) as (s & ts & Fi & Ef & Eb & _ & Ha & _).
    specialize (Ha Al). pose proof (proj1 Fi) as ((g & I) & _). rewrite Ef, Eb in I.
    pose proof (binv_behind _ _ _ _ _ _ _ I) as Bh. pose proof (Ha _ Bh) as Hc. split.
    - rewrite (b_count cfg sec _ _ _ _ _ I), Hc. apply evs_length.
    - intros RR Hlo Hs. rewrite <- Hc. apply (behind_answers_all sec); auto; [|apply I]. eapply binv_avail; eauto.
  Qed.

  (** The level of the tree stays low, although every round adds a level. *)
  Theorem C85_level s e fo' b' (RR : ReliableReads T B) :
    reach no_loss cfg sec s -> small_branches fo' -> tick (sy_fo s) (sy_b s) e = (Ok tt, fo', b') ->
    builder_level b' <= Nat.max 100 (2 + Nat.log2 (builder_count b')).
  Proof.
    intros R Hs E. unfold tick in E. destruct (extend_unpacked _ _ _) as [[r fo1] b1] eqn:E1.
    destruct r as [[]|?|?|]; try discriminate. destruct (Nat.ltb_spec 100 (builder_level b1)).
    2:{ injection E as <- <-. lia. }
    assert (R1 : reach no_loss cfg sec (with_b s fo1 b1)).
    { destruct R as (s0 & R0 & R). exists s0. split; [exact R0|].
      eapply (hist_step _ _ s (OExtendUnpacked [e])); [exact R|exact Logic.I|exact Logic.I|]. cbn [exec]. rewrite E1. reflexivity. }
    assert (R2 : reach no_loss cfg sec (with_b (with_b s fo1 b1) fo' b')).
    { destruct R1 as (s0 & R0 & R1). exists s0. split; [exact R0|].
      eapply (hist_step _ _ _ OPack); [exact R1|exact Logic.I|exact Logic.I|]. cbn [exec]. change (sy_fo (with_b s fo1 b1)) with fo1.
      change (sy_b (with_b s fo1 b1)) with b1. rewrite E. reflexivity. }
    assert (R2' : reach no_repair cfg sec (with_b (with_b s fo1 b1) fo' b')).
    { destruct R2 as (s0 & H0 & H1). exists s0. split; [exact H0|]. clear - H1. induction H1; [constructor|eapply hist_step; eauto]. now destruct o. }
    pose proof (C68_log cfg sec Hcfg _ R2') as Hh. change (sy_b (with_b (with_b s fo1 b1) fo' b')) with b' in Hh.
    change (builder_level b') with (height b'). enough (height b' <= 2 + Nat.log2 (builder_count b')) by lia. apply Hh.
    destruct (reach_b cfg sec Hcfg _ _ R1) as (n1 & I1).
    destruct (pack_full cfg sec Hcfg _ _ _ _ _ _ _ _ I1 E) as (_ & n2 & I2 & _ & Q & _).
    destruct (Q eq_refl eq_refl) as [_ Hp].
    destruct (binv_reads cfg sec _ _ _ _ _ RR I2 eq_refl Hs) as (_ & _ & _ & Hpk).
    replace true with (otpacked n2); [exact Hpk|]. destruct n2; cbn in *; auto.
  Qed.

  (** A round fails only when the store refuses a block. *)
  Theorem C85_continues s k v r fo' b' (TG : PropsProgress.types_good) (RR : ReliableReads T B) :
    reach no_loss cfg sec s -> PropsProgress.good_value cfg v -> tick (sy_fo s) (sy_b s) (k, v) = (r, fo', b') -> small_branches fo' ->
    PropsProgress.done_or_full r.
  Proof.
    intros R Hg E Hs. unfold tick in E. destruct (extend_unpacked _ _ _) as [[r1 fo1] b1] eqn:E1.
    assert (S1 : small_branches fo1 -> PropsProgress.done_or_full r1).
    { intros S1. eapply PropsProgress.C60_extend_unpacked; [exact Hcfg|exact TG|exact RR|exact R| |exact E1|exact S1]. intros k' v' [[= <- <-]|[]]. exact Hg. }
    destruct r1 as [[]|?|?|]; try (injection E as <- <- <-; now apply S1).
    destruct (Nat.ltb_spec 100 (builder_level b1)); [|injection E as <- <- <-; left; reflexivity].
    assert (R1 : reach no_loss cfg sec (with_b s fo1 b1)).
    { destruct R as (s0 & R0 & R). exists s0. split; [exact R0|].
      eapply (hist_step _ _ s (OExtendUnpacked [(k, v)])); [exact R|exact Logic.I|exact Logic.I|]. cbn [exec]. rewrite E1. reflexivity. }
    eapply (PropsProgress.C60_pack cfg sec Hcfg TG _ _ _ _ RR R1); [exact E|exact Hs].
  Qed.

  (** [pack] of a tree with two levels of branches or more leaves a root that
      can be loaded, unless it was purged. *)
  Theorem C17_packed_partial s s' l (RR : ReliableReads T B) :
    reach no_loss cfg sec s -> 2 <= builder_level (sy_b s) -> exec OPack s = (Ok tt, s') -> small_branches (sy_fo s') ->
    builder_link (sy_b s') = Some l ->
    (exists b' fo', load_stream_builder (sy_fo s') sec cfg l = (Ok b', fo'))
    /\ (exists t fo', load_tree (sy_fo s') sec l = (Ok t, fo')).
  Proof.
    intros R Hl E Hs El.
    assert (R' : reach no_loss cfg sec s').
    { destruct R as (s0 & R0 & H). exists s0. split; [exact R0|]. eapply hist_step; [exact H| | |exact E]; exact Logic.I. }
    destruct (reach_b cfg sec Hcfg _ _ R) as (n & I). cbn [exec] in E.
    destruct (pack _ _) as [[r fo1] b1] eqn:Ep. injection E as -> <-.
    assert (Hx : exists x, b_root b1 = Some (IBranch x)).
    { destruct n as [t|].
      - eapply pack_branch; [exact I| |exact Ep]. eapply wide_shape; [exact I| |exact Hl]. apply (reach_wide cfg sec Hcfg _ _ R).
      - destruct I as (_ & _ & _ & Er & _). unfold builder_level in Hl. rewrite Er in Hl. cbn in Hl. lia. }
    destruct Hx as (x & Ex). cbn [with_b sy_b sy_se se_b sy_fo] in *. unfold builder_link in El. rewrite Ex in El. cbn in El.
    assert (K : known (with_b s fo1 b1) (Some (IBranch x, sec, b_off b1))).
    { left. unfold snapshot. cbn. rewrite Ex. destruct (reach_b cfg sec Hcfg _ _ R') as (n' & _ & Es & _). cbn in Es. now rewrite Es. }
    split.
    - change fo1 with (sy_fo (with_b s fo1 b1)). eapply C16_load_builder_total; eauto.
    - change fo1 with (sy_fo (with_b s fo1 b1)).
      destruct (C16_load_tree_total cfg sec Hcfg _ _ x _ _ RR R' K Hs eq_refl El) as (t & fo' & c & H & _). eauto.
  Qed.
End Props.

(** * Passphrases *)

(** The key that the commands derive from a passphrase. *)
Theorem C87_key_length text : List.length (create_chacha_key text) = 32.
Proof. unfold create_chacha_key. rewrite app_length, repeat_length, firstn_length. lia. Qed.

(** Different passphrases may give the same key: only the first 32 bytes count,
    and zeros at the end do not. *)
Theorem C87_injective_refuted :
  (exists p q, p <> q /\ create_chacha_key p = create_chacha_key q)
  /\ (forall p q, 32 <= List.length p -> create_chacha_key (p ++ q) = create_chacha_key p)
  /\ create_chacha_key [] = default_key.
Proof.
  splits.
  - exists [Byte.x61], [Byte.x61; Byte.x00]. split; [discriminate|reflexivity].
  - intros p q H. unfold create_chacha_key. rewrite firstn_app. replace (32 - List.length p) with 0 by lia. cbn [firstn]. now rewrite app_nil_r.
  - reflexivity.
Qed.

(** A text that a key can tell from others: it fits, and no zero is at its end. *)
Definition plain_pass (p : bytes) : Prop := List.length p <= 32 /\ forall q, p <> q ++ [Byte.x00].

Lemma strip_zeros : forall (p q : bytes) a b, (forall p', p <> p' ++ [Byte.x00]) -> (forall q', q <> q' ++ [Byte.x00]) ->
  p ++ repeat Byte.x00 a = q ++ repeat Byte.x00 b -> p = q.
Proof.
  intros p q a. revert p q. induction a as [|a IH]; intros p q b Hp Hq E.
  - cbn in E. rewrite app_nil_r in E. destruct b as [|b]; [cbn in E; now rewrite app_nil_r in E|].
    rewrite <- Nat.add_1_r, repeat_app, app_assoc in E. cbn in E. now apply Hp in E.
  - rewrite <- (Nat.add_1_r a), repeat_app, app_assoc in E. cbn in E. destruct b as [|b].
    + cbn in E. rewrite app_nil_r in E. symmetry in E. now apply Hq in E.
    + rewrite <- (Nat.add_1_r b), repeat_app, app_assoc in E. cbn in E. apply app_inj_tail in E as [E _]. eauto.
Qed.

Theorem C87_injective_partial p q : plain_pass p -> plain_pass q -> create_chacha_key p = create_chacha_key q -> p = q.
Proof.
  unfold create_chacha_key. intros [H1 H2] [H3 H4]. rewrite !firstn_all2 by assumption. now apply strip_zeros.
Qed.

Example C87_case : plain_pass [Byte.x61; Byte.x00; Byte.x62] /\ plain_pass [Byte.x61].
Proof. split; (split; [cbn; lia|]); intros q E; apply (f_equal (@rev _)) in E; rewrite rev_app_distr in E; discriminate. Qed.

(** * Examples *)
Definition nfo : @Forest ITypes IBackend := sy_fo (efresh 1000000).
Definition nev (i : nat) : @K ITypes * @V ITypes := (N.of_nat i, N.of_nat (100 + i)).
Lemma nstart sec : start ecfg sec (net_sys (net_new nfo ecfg sec)).
Proof. splits; try easy. Qed.

Definition net_okb (o : @net_op ITypes IBackend) : bool := match o with NStore _ => false | _ => true end.
Fixpoint net_run (sec : Secrets) (os : list (@net_op ITypes IBackend)) (n : net) : net :=
  match os with [] => n | o :: os => net_run sec os (net_exec sec nev o n) end.
Lemma net_run_nets k sec n0 : forall os n, forallb net_okb os = true -> nets k sec nev n0 n -> nets k sec nev n0 (net_run sec os n).
Proof.
  induction os as [|o os IH]; intros n H R; [exact R|]. cbn in H. apply andb_prop in H as [Ho H].
  apply IH; [exact H|]. apply nets_step; [exact R|]. destruct o; cbn in *; easy.
Qed.

(** Three rounds, of which the messages of the first and the third arrive, the
    third one first. *)
Definition nops : list (@net_op ITypes IBackend) :=
  [NTick; NTick; NTick; NRecv 2; NNext; NNext; NNext; NNext; NRecv 0; NNext; NTick; NNext; NRecv 3; NNext; NNext; NNext; NNext].
Definition nst : net := net_run esec nops (net_new nfo ecfg esec).

Example C85_case :
  nets no_loss esec nev (net_new nfo ecfg esec) nst
  /\ n_got nst = [2; 0; 3] /\ n_offset nst = 4 /\ n_alive nst = true /\ sm_cur (n_st nst) = None /\ small_branches (n_fo nst)
  /\ flatten_chunks (n_out nst) = map Ok (sent_events nev 4).
Proof.
  split; [apply net_run_nets; [reflexivity|constructor]|].
  split; [vm_compute; reflexivity|]. split; [vm_compute; reflexivity|]. split; [vm_compute; reflexivity|].
  split; [vm_compute; reflexivity|]. split; [apply smallb_ok; vm_compute; reflexivity|]. vm_compute; reflexivity.
Qed.

(** A round of the sender. *)
Example C85_tick_case :
  exists fo' b', tick (sy_fo st3) (sy_b st3) (nev 11) = (Ok tt, fo', b') /\ small_branches fo'
    /\ builder_count b' = S (builder_count (sy_b st3)) /\ PropsProgress.good_value ecfg (snd (nev 11)).
Proof.
  destruct (tick (sy_fo st3) (sy_b st3) (nev 11)) as [[r fo'] b'] eqn:E.
  assert (H : let '(r, fo', b') := tick (sy_fo st3) (sy_b st3) (nev 11) in
              match r with Ok tt => smallb fo' && Nat.eqb (builder_count b') (S (builder_count (sy_b st3))) | _ => false end = true)
    by (vm_compute; reflexivity).
  rewrite E in H. destruct r as [[]|?|?|]; [|discriminate H ..]. apply andb_prop in H as [H1 H2]. apply Nat.eqb_eq in H2.
  exists fo', b'. split; [reflexivity|]. split; [now apply smallb_ok|]. split; [exact H2|].
  exact (PropsProgress.good_value_case _).
Qed.

Example C17_packed_case :
  exists s', reach no_loss ecfg esec st3 /\ 2 <= builder_level (sy_b st3)
  /\ exec OPack st3 = (Ok tt, s') /\ small_branches (sy_fo s') /\ builder_link (sy_b s') <> None.
Proof.
  exists (snd (exec OPack st3)). split; [exact st3_ok|]. split; [apply Nat.leb_le; vm_compute; reflexivity|].
  split; [|split; [apply smallb_ok; vm_compute; reflexivity|]].
  - assert (H : match fst (exec OPack st3) with Ok tt => true | _ => false end = true) by (vm_compute; reflexivity).
    destruct (exec OPack st3) as [[[]|?|?|] s']; cbn [fst snd] in H |- *; (reflexivity || discriminate H).
  - assert (H : match builder_link (sy_b (snd (exec OPack st3))) with Some _ => true | None => false end = true) by (vm_compute; reflexivity).
    intros E. rewrite E in H. discriminate H.
Qed.

(** * A receiver that is given the passphrases of the sender *)

(** recv-stream uses the default secrets, whatever passphrases it is given: it
    drops every link of a sender with a passphrase. *)
Definition npass : option bytes := Some [Byte.x61].
Definition nwrong : net := net_run default_secrets nops (net_new nfo ecfg (cli_secrets npass npass)).
Theorem C86_passphrases_refuted :
  exists (n : @net ITypes IBackend),
    nets no_loss default_secrets nev (net_new nfo ecfg (cli_secrets npass npass)) n
    /\ n_offset n = 4 /\ n_got n = [2; 0; 3] /\ n_alive n = true /\ sm_cur (n_st n) = None /\ small_branches (n_fo n)
    /\ n_out n = [].
Proof.
  exists nwrong. split; [apply net_run_nets; [reflexivity|constructor]|].
  split; [vm_compute; reflexivity|]. split; [vm_compute; reflexivity|]. split; [vm_compute; reflexivity|].
  split; [vm_compute; reflexivity|]. split; [apply smallb_ok; vm_compute; reflexivity|]. vm_compute; reflexivity.
Qed.

(** Without passphrases, or with empty ones, the receiver has the keys of the sender. *)
Theorem C86_no_passphrases_partial {T : Types} {TL : TypesLaws T} {X : Ext} {XL : ExtLaws X} {B : Backend T} {BL : BackendLaws T B}
    cfg k ev ip vp (fo : Forest) n :
  config_ok cfg -> ip = None \/ ip = Some [] -> vp = None \/ vp = Some [] ->
  k_repair k = false -> start cfg (cli_secrets ip vp) (net_sys (net_new fo cfg (cli_secrets ip vp))) ->
  nets k default_secrets ev (net_new fo cfg (cli_secrets ip vp)) n ->
  exists m, flatten_chunks (n_out n) = map Ok (sent_events ev m) /\ m <= n_offset n
    /\ (ReliableReads T B -> k_lose k = false -> small_branches (n_fo n) -> sm_cur (n_st n) = None ->
        forall j, In j (n_got n) -> j < m).
Proof.
  intros Hcfg Hi Hv. replace (cli_secrets ip vp) with default_secrets; [now apply C85_delivered|].
  destruct Hi as [-> | ->], Hv as [-> | ->]; reflexivity.
Qed.

Example C86_case : start ecfg (cli_secrets None (Some [])) (net_sys (net_new nfo ecfg (cli_secrets None (Some []))))
  /\ flatten_chunks (n_out (net_run default_secrets nops (net_new nfo ecfg (cli_secrets None (Some []))))) = map Ok (sent_events nev 4).
Proof. split; [apply nstart|]. vm_compute. reflexivity. Qed.

(** The configuration of the program. *)
Example C85_config_case : config_ok config_debug_fast /\ config_ok config_debug.
Proof. split; repeat split; cbv; congruence || lia. Qed.

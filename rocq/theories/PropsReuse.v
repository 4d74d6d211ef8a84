(** Properties of what writing keeps: C64, C65. *)
From Coq Require Import List NArith ZArith Lia Bool String Arith.
From Verif Require Import Base BaseProofs Cbor Types Seq SeqProofs Query World Read Write Api Iter History Spec Ghost Frame ReadProofs Packable WriteProofs ApiProofs SysProofs HistProofs Instance Example PropsWrite PropsRead PropsMaintain PropsLocal.
Import ListNotations.

Lemma skipn_plus {A} m n (l : list A) : skipn n (skipn m l) = skipn (m + n) l.
Proof. revert l. induction m as [|m IH]; intros l; [easy|]. destruct l; [now rewrite !skipn_nil|]. apply IH. Qed.

(** ** Specification *)

Section Spec.
  Context {T : Types} {X : Ext} {B : Backend T}.
  Variable sec : Secrets.
  Variable s : Store.

  (** [j] is a node of the tree with the root [i]: the same index record, so the
      same link. The store holds the blocks in between. *)
  Inductive node_in : Index -> Index -> Prop :=
  | node_root i : node_in i i
  | node_child x cs c j : opens sec s x cs -> In c cs -> node_in c j -> node_in (IBranch x) j.
End Spec.

Section Reuse.
  Context {T : Types} {TL : TypesLaws T} {X : Ext} {XL : ExtLaws X}
          {B : Backend T} {BL : BackendLaws T B}.
  Variable cfg : Config.
  Variable sec : Secrets.
  Notation key := (index_key sec).
  Notation source := (list (K * V)).

  (** If [m] succeeds [Q] holds. *)
  Definition ok {A} (m : M A) (w : world) (Q : A -> world -> Prop) : Prop :=
    forall a w', m w = (Ok a, w') -> Q a w'.

  Lemma ok_ret {A} (a : A) w (Q : A -> world -> Prop) : Q a w -> ok (ret a) w Q.
  Proof. intros H a' w' [= <- <-]. exact H. Qed.
  Lemma ok_bind {A C} (m : M A) (f : A -> M C) w Q R :
    ok m w Q -> (forall a w', m w = (Ok a, w') -> Q a w' -> ok (f a) w' R) -> ok (mbind m f) w R.
  Proof.
    intros Hm Hf c w' E. unfold mbind in E. destruct (m w) as [[a|e|p|] w1] eqn:Em; try discriminate.
    eapply Hf; eauto.
  Qed.
  Lemma ok_step {A C} (m : M A) (f : A -> M C) w R :
    (forall a w', m w = (Ok a, w') -> ok (f a) w' R) -> ok (mbind m f) w R.
  Proof. intros H. eapply ok_bind with (Q := fun _ _ => True); [easy|]. auto. Qed.
  Lemma ok_assert {A} b msg (f : unit -> M A) w R : (b = true -> ok (f tt) w R) -> ok (mbind (massert b msg) f) w R.
  Proof. intros H. destruct b; [now apply H|]. intros a w' E. discriminate E. Qed.
  Lemma ok_none {A} (m : M A) w Q : (forall a w', m w <> (Ok a, w')) -> ok m w Q.
  Proof. intros H a w' E. now apply H in E. Qed.
  Lemma ok_conseq {A} (m : M A) w (Q R : A -> world -> Prop) :
    ok m w Q -> (forall a w', Q a w' -> R a w') -> ok m w R.
  Proof. intros H1 H2 a w' E. auto. Qed.

  Notation N w := (node_in sec (w_store w)).

  Lemma node_mono s s' i j : (forall l d, sblocks s l = Some d -> sblocks s' l = Some d) ->
    node_in sec s i j -> node_in sec s' i j.
  Proof.
    intros H. induction 1 as [i|x cs c j (l & d & r & H1 & H2 & H3) Hin _ IH]; [constructor|].
    eapply node_child; eauto. exists l, d, r. auto.
  Qed.
  Lemma node_wext w w' i j : wext key w w' -> N w i j -> N w' i j.
  Proof. intros W. apply node_mono. intros l d. now apply (wext_blocks key). Qed.
  Lemma node_frame {A} (m : M A) w r w' i j : frame (wext key) m -> m w = (r, w') -> N w i j -> N w' i j.
  Proof. intros F E. apply node_wext. eapply F; eauto. Qed.

  (** ** Branches *)
  Lemma ok_new_branch cs mode w :
    ok (new_branch cfg sec cs mode) w (fun x w' => log_fits w' -> opens sec (w_store w') x cs).
  Proof.
    unfold new_branch. apply ok_assert. intros _. apply ok_assert. intros _. apply ok_step.
    intros [l len] w1 E. apply ok_ret. intros Hf.
    pose proof (post_persist_branch cfg sec cs w False) as P. unfold post in P. cbn [s_now only] in P. rewrite E in P. cbn [fst] in P.
    destruct P as (blk & r & -> & Hb & _ & _ & Hfit & Hst).
    exists (digest blk), blk, r. splits; auto. now rewrite (deserialize_spec _ _ _ _ Hb), (Hfit Hf).
  Qed.

  Lemma ok_fill_children f n : forall cs from w,
    ok (fill_children f n cs from) w (fun p _ => exists new, fst p = cs ++ new).
  Proof.
    induction n as [|n IH]; intros cs from w; cbn [fill_children].
    - apply ok_ret. exists []. now rewrite app_nil_r.
    - destruct from as [|p from]; [apply ok_ret; exists []; now rewrite app_nil_r|].
      apply ok_step. intros [c from1] w1 _. eapply ok_conseq; [apply IH|]. intros a w' (new & ->).
      exists (c :: new). now rewrite <- app_assoc.
  Qed.

  Lemma ok_extend_branch cs level from mode w :
    ok (extend_branch cfg sec cs level from mode) w
       (fun p w' => log_fits w' -> exists new, opens sec (w_store w') (fst p) (cs ++ new)).
  Proof.
    unfold extend_branch, extend_branch_with. do 3 (apply ok_assert; intros _).
    eapply ok_bind; [apply ok_fill_children|]. intros [cs1 from1] w1 _ (new & Hnew). cbn [fst] in Hnew. subst cs1.
    eapply ok_bind; [apply ok_new_branch|]. intros x w2 _ Hx. apply ok_assert. intros _. apply ok_ret. eauto.
  Qed.

  Lemma ok_climb fuel : forall i bnd from w j,
    ok (climb cfg sec fuel i bnd from) w (fun p w' => log_fits w' -> N w i j -> N w' (fst p) j).
  Proof.
    induction fuel as [|fuel IH]; intros i bnd from w j; cbn [climb];
      (match goal with |- ok (if ?b then _ else _) _ _ => destruct b end; [|now apply ok_ret]).
    - apply ok_none. discriminate.
    - eapply ok_bind; [apply ok_extend_branch|]. intros [x from1] w1 E1 Hx. cbn [fst] in Hx.
      intros p w' E2 Hf Hn. pose proof (wf_climb sec cfg _ _ _ _ _ _ _ E2) as W2.
      apply (IH _ _ _ _ j _ _ E2 Hf). destruct (Hx (log_fits_mono sec _ _ W2 Hf)) as (new & Ho).
      eapply node_child; [exact Ho|now left|]. eapply node_frame; [|exact E1|exact Hn]. apply wf_extend_branch.
  Qed.

  (** ** Extending *)

  Lemma load_opens l w b w' : wok key w -> load_branch_cached sec l w = (Ok b, w') ->
    forall x cs, bi_link x = Some l -> opens sec (w_store w) x cs -> br_children b = cs.
  Proof.
    intros W E x cs Hl (l' & d & r & H1 & H2 & H3). rewrite Hl in H1. injection H1 as <-.
    pose proof (proj1 W _ _ H2) as Hd. unfold load_branch_cached, mbind at 1 in E.
    destruct (cache_get l w) as [o w1] eqn:Ec. pose proof (rf_cache_get sec _ _ _ _ Ec) as F. unfold cache_get in Ec.
    destruct (cget (w_cache w) l) as [[b'|] c] eqn:G; injection Ec as <- <-.
    - injection E as <- <-. apply cget_sound in G. destruct (proj2 W _ _ G) as [(blk & E1 & E2 & _)|U].
      2:{ destruct (deserialize_opens _ _ _ H3) as (z & r0 & D1 & D2). now rewrite (U _ _ _ Hd D1) in D2. }
      rewrite Hd in E1. apply digest_inj in E1 as <-. rewrite H3 in E2. now injection E2 as -> _.
    - unfold mbind at 1 in E. destruct (load_branch_from_link sec l (set_cache w c)) as [[b1|e|p|] w2] eqn:El; try discriminate.
      cbn in E. injection E as <- <-. unfold load_branch_from_link, mbind, get_block in El.
      destruct (sget (w_store (set_cache w c)) l) as [[d'|] s'] eqn:Es; try discriminate.
      cbn in Es. pose proof (sget_keeps _ _ _ _ _ _ Es H2) as Hk. apply sget_sound in Es. rewrite Hk in Es. injection Es as <-. unfold lift in El. rewrite H3 in El.
      unfold new_branch_data in El. cbn in El. destruct cs; [discriminate|]. now injection El as <- _.
  Qed.

  Lemma ok_extend0 rec i from w j :
    (forall c lvl from w, wok key w ->
       ok (rec c lvl from) w (fun p w' => log_fits w' -> N w c j -> N w' (fst p) j)) ->
    (forall i l f, frame (wext key) (rec i l f)) ->
    wok key w -> isealed j = true ->
    ok (extend0 cfg sec rec i from) w (fun p w' => log_fits w' -> N w i j -> N w' (fst p) j).
  Proof.
    intros Hrec Frec W Hj. unfold extend0. destruct (isealed i || Write.is_nil from) eqn:Es; [now apply ok_ret|].
    apply orb_false_elim in Es as [Es _].
    destruct (node_info_of i) as [x l|x l|x|x] eqn:En; try now apply ok_ret.
    - assert (i = IBranch x /\ bi_link x = Some l) as [-> Hl].
      { destruct i as [y|y]; cbn in En; [destruct (li_link y); discriminate|]. destruct (bi_link y) eqn:E; [|discriminate].
        injection En as -> ->. auto. }
      apply ok_step. intros b w1 E1. pose proof (rf_load_branch_cached sec _ _ _ _ E1) as R1.
      apply rext_wext in R1 as W1. pose proof (wext_ok _ _ _ W1 W) as Wok1.
      eapply ok_bind with (Q := fun p w2 => wext key w1 w2 /\ (log_fits w2 -> forall c, In c (br_children b) -> N w c j -> exists c', In c' (fst p) /\ N w2 c' j)).
      { destruct (rev (br_children b)) as [|last rest] eqn:Er.
        - apply ok_ret. split; [apply wext_refl|]. intros _ c Hc Hn. exists c. split; [exact Hc|]. eapply node_wext; eauto.
        - assert (Ech : br_children b = rev rest ++ [last]) by (rewrite <- (rev_involutive (br_children b)), Er; reflexivity).
          eapply ok_bind; [now apply Hrec|]. intros [last' from1] w2 E2 H2. cbn [fst] in H2.
          pose proof (Frec _ _ _ _ _ _ E2) as W2. apply ok_ret. split; [exact W2|]. cbn [fst].
          intros Hf c Hc Hn. rewrite Ech in Hc. apply in_app_or in Hc as [Hc|[->|[]]].
          + exists c. split; [now apply in_or_app; left|]. eapply node_wext; [exact W2|]. eapply node_wext; eauto.
          + exists last'. split; [apply in_or_app; right; now left|]. apply H2; [exact Hf|]. eapply node_wext; eauto. }
      intros [cs1 from1] w2 _ [W2 H2]. cbn [fst] in H2.
      eapply ok_bind; [apply ok_extend_branch|]. intros [x' from2] w3 E3 H3. cbn [fst] in H3. apply ok_ret. cbn [fst].
      pose proof (wf_extend_branch sec cfg _ _ _ _ _ _ _ E3) as W3.
      intros Hf Hn. inversion Hn as [i0|x0 cs c j0 Ho Hc Hn']; subst; [congruence|].
      rewrite (load_opens _ _ _ _ W E1 _ _ Hl Ho) in H2.
      destruct (H2 (log_fits_mono sec _ _ W3 Hf) _ Hc Hn') as (c' & Hc' & Hn2). destruct (H3 Hf) as (new & Ho').
      eapply node_child; [exact Ho'|apply in_or_app; left; exact Hc'|]. eapply node_wext; eauto.
    - assert (i = ILeaf x) as ->.
      { destruct i as [y|y]; cbn in En; [|destruct (bi_link y); discriminate]. destruct (li_link y) eqn:E; [|discriminate].
        now injection En as ->. }
      intros p w' _ _ Hn. inversion Hn; subst. congruence.
  Qed.

  Lemma ok_extend_above d : forall node bnd from w j, wok key w -> isealed j = true ->
    ok (extend_above cfg sec d node bnd from) w
       (fun p w' => log_fits w' -> forall i, node = Some i -> N w i j -> N w' (fst p) j).
  Proof.
    induction d as [|d IH]; intros node bnd from w j W Hj; cbn [extend_above]; [apply ok_none; discriminate|].
    destruct (Write.is_nil from); [apply ok_none; discriminate|]. apply ok_assert. intros _.
    eapply ok_bind with (Q := fun p w' => wext key w w' /\ (log_fits w' -> forall i, node = Some i -> N w i j -> N w' (fst p) j)).
    - intros p w' E.
      assert (W1 : wext key w w').
      { revert E. destruct node; [apply wf_extend0; intros; apply wf_extend_above|].
        apply wf_bind; [apply wf_leaf_from_iter|]. intros []. apply wf_ret. }
      split; [exact W1|]. destruct node as [i|]; [|discriminate]. intros Hf i' [= <-].
      clear W1. revert Hf. revert p w' E. apply (ok_extend0 _ i from w j); [|intros; apply wf_extend_above|exact W|exact Hj].
      intros c lvl from1 w1 W1 p w' E Hf Hn. exact (IH _ _ _ _ j W1 Hj _ _ E Hf _ eq_refl Hn).
    - intros [i1 from1] w1 _ [W1 H1]. cbn [fst] in H1.
      eapply ok_bind; [apply ok_climb with (j := j)|]. intros [i2 from2] w2 E2 H2. cbn [fst] in H2.
      apply ok_assert. intros _. apply ok_ret. cbn [fst]. intros Hf i -> Hn. apply H2; [exact Hf|].
      apply (H1 (log_fits_mono sec _ _ (wf_climb sec cfg _ _ _ _ _ _ _ E2) Hf) _ eq_refl Hn).
  Qed.

  Lemma ok_extend_unpacked0 index from w j :
    ok (extend_unpacked0 cfg sec index from) w
       (fun r w' => log_fits w' -> forall i, index = Some i -> N w i j -> exists i', r = Some i' /\ N w' i' j).
  Proof.
    unfold extend_unpacked0. destruct (Write.is_nil from); [apply ok_ret; eauto|].
    apply ok_step. intros [b from1] w1 E1. destruct index as [a|]; [|apply ok_ret; discriminate].
    eapply ok_bind; [apply ok_extend_branch|]. intros [x from2] w2 E2 H2. cbn [fst] in H2. apply ok_ret.
    intros Hf i [= <-] Hn. eexists. split; [reflexivity|]. destruct (H2 Hf) as (new & Ho).
    eapply node_child; [exact Ho|now left|]. eapply node_frame; [apply wf_extend_branch|exact E2|].
    eapply node_frame; [apply wf_extend_above|exact E1|exact Hn].
  Qed.

  (** ** Packing *)

  Definition some_in (w : world) (j : Index) (rs : list Index) : Prop := exists r, In r rs /\ N w r j.

  Lemma ok_simplify_roots fuel : forall rs from w j,
    ok (simplify_roots cfg sec fuel rs from) w (fun rs' w' => log_fits w' -> some_in w j rs -> some_in w' j rs').
  Proof.
    induction fuel as [|fuel IH]; intros rs from w j; cbn [simplify_roots];
      do 2 (apply ok_assert; intros _); apply ok_step; intros r w1 E1;
      (assert (w1 = w) as -> by now injection E1);
      (destruct r as [n|n|n]; [| |first [apply ok_none; discriminate|apply IH]]).
    all: eapply ok_bind; [apply ok_new_branch|]; intros x w2 E2 H2; apply ok_ret; intros Hf (r & Hr & Hn);
      apply (node_frame _ _ _ _ _ _ (wf_new_branch sec cfg _ _) E2) in Hn;
      rewrite <- (firstn_skipn from rs) in Hr; apply in_app_or in Hr as [Hr|Hr];
      [exists r; split; [now apply in_or_app; left|exact Hn]|];
      rewrite <- (firstn_skipn n (skipn from rs)) in Hr; apply in_app_or in Hr as [Hr|Hr];
      [exists (IBranch x); split; [apply in_or_app; right; now left|]; eapply node_child; [exact (H2 Hf)|exact Hr|exact Hn]|];
      exists r; split; [|exact Hn]; apply in_or_app; right; right;
      rewrite skipn_plus in Hr; exact Hr.
  Qed.

  Lemma ok_simplify_all fuel : forall rs w j,
    ok (simplify_all cfg sec fuel rs) w (fun rs' w' => List.length rs' <= 1 /\ (log_fits w' -> some_in w j rs -> some_in w' j rs')).
  Proof.
    induction fuel as [|fuel IH]; intros rs w j; cbn [simplify_all];
      (destruct (Nat.ltb_spec 1 (List.length rs)); [|apply ok_ret; split; [lia|auto]]).
    - apply ok_none; discriminate.
    - eapply ok_bind; [apply ok_simplify_roots with (j := j)|]. intros rs1 w1 _ H1 rs2 w2 E2.
      destruct (IH _ _ j _ _ E2) as [L2 H2]. split; [exact L2|]. intros Hf Hs. apply H2; [exact Hf|].
      apply H1; [|exact Hs]. eapply log_fits_mono; [|exact Hf]. eapply wf_simplify_all; eauto.
  Qed.

  Lemma ok_tree_from_roots rs w j :
    ok (tree_from_roots cfg sec rs) w
       (fun o w' => log_fits w' -> some_in w j rs -> exists i, o = Some i /\ N w' i j).
  Proof.
    unfold tree_from_roots. do 2 (apply ok_assert; intros _).
    eapply ok_bind; [apply ok_simplify_all with (j := j)|]. intros rs1 w1 _ [Hl H1]. apply ok_ret.
    intros Hf Hs. destruct (H1 Hf Hs) as (r & Hr & Hn). destruct rs1 as [|a [|]]; cbn in Hl; try lia; [destruct Hr|].
    destruct Hr as [->|[]]. cbn. eauto.
  Qed.

  (** ** Builders *)
  Lemma node_fsame fo fo' i j : fsame sec fo fo' -> node_in sec (fo_store fo) i j -> node_in sec (fo_store fo') i j.
  Proof. intros (_ & H & _). apply node_mono. intros l d. cbn in H. apply H. Qed.

  Lemma extend_fext fo b items r fo' b' : b_sec b = sec -> b_cfg b = cfg ->
    extend fo b items = (r, fo', b') -> fext sec fo (b_off b) fo' (b_off b').
  Proof.
    intros Es Ec E. unfold extend in E. destruct items as [|p items]; [injection E as <- <- <-; apply fext_refl|].
    rewrite Es, Ec in E. destruct (run fo b _) as [[r0 fo1] b1] eqn:Erun.
    apply (run_fext sec) in Erun; [|apply wf_extend_above]. destruct r0 as [[i rest]|e|p0|]; injection E as <- <- <-; exact Erun.
  Qed.

  Lemma extend_reuse fo b items fo' b' r j : fok sec fo -> b_sec b = sec -> b_cfg b = cfg -> b_root b = Some r ->
    extend fo b items = (Ok tt, fo', b') -> small_branches fo' ->
    node_in sec (fo_store fo) r j -> isealed j = true ->
    exists r', b_root b' = Some r' /\ node_in sec (fo_store fo') r' j.
  Proof.
    intros F Es Ec Er E Hs Hn Hj. unfold extend in E. destruct items as [|p items].
    { injection E as <- <-. eauto. }
    set (from := p :: items) in *. rewrite Es, Ec, Er in E. destruct (run fo b _) as [[r0 fo1] b1] eqn:Erun.
    apply run_inv in Erun as (Em & _). destruct r0 as [[i rest]|e|p0|]; try discriminate. injection E as <- <-.
    exists i. split; [easy|].
    refine (ok_extend_above _ _ _ _ _ j _ Hj _ _ Em _ _ eq_refl Hn); [|now apply small_fits].
    now apply fok_wok.
  Qed.

  Lemma extend_unpacked_reuse fo b items fo' b' r j : b_sec b = sec -> b_cfg b = cfg -> b_root b = Some r ->
    extend_unpacked fo b items = (Ok tt, fo', b') -> small_branches fo' ->
    node_in sec (fo_store fo) r j ->
    exists r', b_root b' = Some r' /\ node_in sec (fo_store fo') r' j.
  Proof.
    intros Es Ec Er E Hs Hn. unfold extend_unpacked in E. rewrite Es, Ec, Er in E. destruct (run fo b _) as [[r0 fo1] b1] eqn:Erun.
    apply run_inv in Erun as (Em & _). destruct r0 as [i|e|p0|]; try discriminate. injection E as <- <-.
    refine (ok_extend_unpacked0 _ _ _ j _ _ Em _ _ eq_refl Hn). now apply small_fits.
  Qed.

  Lemma pack_reuse Av Ps fo b n fo' b' rs fo1 r j : config_ok cfg -> bgood cfg sec Av Ps fo b n ->
    roots fo b = (Ok rs, fo1) -> In r rs ->
    pack fo b = (Ok tt, fo', b') -> small_branches fo' ->
    node_in sec (fo_store fo) r j -> isealed j = true ->
    exists r', b_root b' = Some r' /\ node_in sec (fo_store fo') r' j.
  Proof.
    intros Hcfg I Eroots Hr E Hs Hn Hj. pose proof I as (F & Es & Ec & Er & G). cbn [s_now only] in Ec. unfold pack in E. rewrite Eroots in E.
    pose proof (roots_api cfg sec Av Ps _ _ _ _ _ I Eroots) as (S1 & _).
    pose proof (fsame_fext sec _ _ (b_off b) S1) as W1.
    rewrite Es, Ec in E. destruct (run fo1 b _) as [[r1 fo2] b1] eqn:Erun.
    destruct r1 as [i|e|p|]; try discriminate. pose proof Erun as Erun'. apply run_inv in Erun' as (Em & Er1 & Es1 & Ec1).
    pose proof (wf_tree_from_roots sec cfg rs _ _ _ Em) as W2.
    destruct (collect_from fo2 _ _) as [rr3 fo3] eqn:Ecol. destruct rr3 as [l|e|p|]; try discriminate.
    assert (F2 : fok sec fo2). { eapply fext_fok; [exact W2|]. eapply fext_fok; eauto. }
    assert (S3 : fsame sec fo2 fo3).
    { unfold collect_from in Ecol. destruct (snapshot b) as [[[i0 s0] o0]|] eqn:En; [|injection Ecol as <- <-; apply fsame_refl].
      assert (s0 = sec) as -> by (unfold snapshot in En; rewrite Es in En; destruct (b_root b); [now injection En|discriminate]).
      eapply read_fsame; [|exact Ecol]. apply rf_collect0. }
    destruct (omapM _ l) as [rest|]; [|discriminate].
    assert (Es' : b_sec (set_root b1 i) = sec) by (cbn; congruence).
    assert (Ec' : b_cfg (set_root b1 i) = cfg) by (cbn; congruence).
    assert (Hf2 : small_branches fo2).
    { apply (small_fits fo2 (b_off b1)). eapply log_fits_mono; [exact (fsame_fext sec _ _ (b_off b1) S3)|].
      eapply log_fits_mono; [|apply (small_fits fo' (b_off b')); exact Hs]. exact (extend_fext _ _ _ _ _ _ Es' Ec' E). }
    assert (exists r', i = Some r' /\ node_in sec (fo_store fo2) r' j) as (r' & -> & Hn').
    { refine (ok_tree_from_roots rs _ j _ _ Em _ _); [now apply small_fits|]. exists r. split; [exact Hr|].
      apply (node_fsame _ _ _ _ S1 Hn). }
    refine (extend_reuse fo3 (set_root b1 (Some r')) rest fo' b' r' j _ Es' Ec' eq_refl E Hs _ Hj).
    - exact (fext_fok sec _ _ _ _ (fsame_fext sec _ _ 0 S3) F2).
    - exact (node_fsame _ _ _ _ S3 Hn').
  Qed.

  (** The sealed nodes of a packed tree are below the roots found by [pack]. *)
  Lemma groots_cover s (W : store_ok s) j t : isealed j = true -> forall lim cur, packed t = true -> repr sec lim t ->
    cur_le (ilevel (root_ix t)) cur = true -> node_in sec s (root_ix t) j ->
    exists r, In r (fst (groots t cur)) /\ node_in sec s (root_ix r) j.
  Proof.
    intros Hj. induction t using tree_ind'; intros lim cur Hp R Hc Hn.
    all: match goal with |- context [groots ?u _] => destruct (isealed (root_ix u)) eqn:Es end;
      [rewrite groots_taken by (rewrite Es, Hc; easy); eexists; split; [now left|exact Hn]|].
    1, 2: inversion Hn; subst; congruence.
    2:{ inversion Hn as [i|x0 cs' c j0 (l & d & r & Hl & _) Hin Hn' E1 E2]; subst; [congruence|]. cbn in R. congruence. }
    cbn [root_ix isealed ilevel] in Es, Hc. rewrite groots_branch by (cbn; now rewrite Es).
    inversion Hn as [i|x0 cs' c j0 Ho Hin Hn' E1 E2]; subst; [cbn in Hj; congruence|].
    destruct (opens_children sec lim s x cs cs' W R Ho) as [-> _]. apply in_map_iff in Hin as (c0 & <- & Hin).
    assert (Hm : cur_min cur (Z.of_nat (bi_level x) - 1) = Some (Z.of_nat (bi_level x) - 1)%Z).
    { unfold cur_min. destruct cur; [|easy]. cbn in Hc. f_equal. lia. }
    rewrite Hm. assert (Hne : cs <> []) by (destruct cs; [destruct Hin|discriminate]).
    destruct (exists_last Hne) as (pre & last & ->).
    rewrite packed_branch, Es in Hp. cbn [orb] in Hp. apply andb_prop in Hp as [P1 P2].
    apply andb_prop in P2 as [P2 P3]. apply Nat.ltb_lt in P2.
    apply Forall_app in H as [_ H]. apply Forall_inv in H.
    apply repr_branch in R as (_ & _ & _ & _ & blk & rg & _ & _ & _ & R). apply Forall_app in R as [_ R]. apply Forall_inv in R.
    assert (G : forall l, fst (groots_list (pre ++ l) (Some (Z.of_nat (bi_level x) - 1)%Z)) =
                          pre ++ fst (groots_list l (Some (Z.of_nat (bi_level x) - 1)%Z))).
    { clear -P1 P2. intros l. induction pre as [|c pre IH]; [easy|]. cbn [forallb] in P1. apply andb_prop in P1 as [P1 P1'].
      apply andb_prop in P1 as [Q1 Q2]. apply Nat.eqb_eq in Q2.
      assert (E : isealed (root_ix c) && cur_le (ilevel (root_ix c)) (Some (Z.of_nat (bi_level x) - 1)%Z) = true).
      { rewrite Q1, Q2. cbn. apply Z.leb_le. lia. }
      cbn [app]. rewrite groots_list_cons, groots_taken by exact E.
      cbn [fst snd]. rewrite Q2. replace (Z.of_nat (bi_level x - 1)) with (Z.of_nat (bi_level x) - 1)%Z by lia.
      rewrite (IH P1'). reflexivity. }
    rewrite G, groots_list_cons. cbn [fst groots_list]. rewrite app_nil_r. apply in_app_or in Hin as [Hin|[->|[]]].
    - exists c0. split; [apply in_or_app; now left|exact Hn'].
    - destruct (H _ (Some (Z.of_nat (bi_level x) - 1)%Z) P3 R) as (r & Hr & Hnr); [cbn; apply Z.leb_le; lia|exact Hn'|].
      exists r. split; [apply in_or_app; now right|exact Hnr].
  Qed.
End Reuse.

(** ** Theorems *)

Section Props.
  Context {T : Types} {TL : TypesLaws T} {X : Ext} {XL : ExtLaws X}
          {B : Backend T} {BL : BackendLaws T B}.
  Variable cfg : Config.
  Variable sec : Secrets.
  Hypothesis Hcfg : config_ok cfg.

  (** [extend] keeps the sealed nodes of the tree, as they are. *)
  Theorem C64_extend s items fo' b' r j :
    reach anything cfg sec s -> b_root (sy_b s) = Some r ->
    extend (sy_fo s) (sy_b s) items = (Ok tt, fo', b') -> small_branches fo' ->
    node_in sec (fo_store (sy_fo s)) r j -> isealed j = true ->
    exists r', b_root b' = Some r' /\ node_in sec (fo_store fo') r' j.
  Proof.
    intros R Er E Hs Hn Hj. destruct (reach_b cfg sec Hcfg _ _ R) as (n & F & Es & Ec & _).
    exact (extend_reuse cfg sec _ _ _ _ _ _ _ F Es Ec Er E Hs Hn Hj).
  Qed.

  (** [extend_unpacked] keeps every node of the tree. *)
  Theorem C64_extend_unpacked s items fo' b' r j :
    reach anything cfg sec s -> b_root (sy_b s) = Some r ->
    extend_unpacked (sy_fo s) (sy_b s) items = (Ok tt, fo', b') -> small_branches fo' ->
    node_in sec (fo_store (sy_fo s)) r j ->
    exists r', b_root b' = Some r' /\ node_in sec (fo_store fo') r' j.
  Proof.
    intros R Er E Hs Hn. destruct (reach_b cfg sec Hcfg _ _ R) as (n & F & Es & Ec & _).
    exact (extend_unpacked_reuse cfg sec _ _ _ _ _ _ _ Es Ec Er E Hs Hn).
  Qed.

  (** [pack] keeps the sealed nodes below the roots that [roots] lists. *)
  Theorem C64_pack s rs fo1 fo' b' r j :
    reach anything cfg sec s -> roots (sy_fo s) (sy_b s) = (Ok rs, fo1) -> In r rs ->
    pack (sy_fo s) (sy_b s) = (Ok tt, fo', b') -> small_branches fo' ->
    node_in sec (fo_store (sy_fo s)) r j -> isealed j = true ->
    exists r', b_root b' = Some r' /\ node_in sec (fo_store fo') r' j.
  Proof.
    intros R Ers Hr E Hs Hn Hj. destruct (reach_b cfg sec Hcfg _ _ R) as (n & I).
    exact (pack_reuse cfg sec _ _ _ _ _ _ _ _ _ _ _ Hcfg I Ers Hr E Hs Hn Hj).
  Qed.

  (** Of a packed tree [pack] keeps all sealed nodes. *)
  Theorem C64_pack_packed s fo' b' r j :
    reach anything cfg sec s -> says_packed (sy_fo s) (snapshot (sy_b s)) true -> b_root (sy_b s) = Some r ->
    pack (sy_fo s) (sy_b s) = (Ok tt, fo', b') -> small_branches fo' ->
    node_in sec (fo_store (sy_fo s)) r j -> isealed j = true ->
    exists r', b_root b' = Some r' /\ node_in sec (fo_store fo') r' j.
  Proof.
    intros R P Er E Hs Hn Hj. destruct (reach_b cfg sec Hcfg _ _ R) as (n & I).
    pose proof (packed_b _ _ _ _ _ _ _ _ I P) as Hp. pose proof I as (F & Es & Ec & Er' & G).
    destruct n as [t|]; cbn in Er'; [|congruence]. assert (r = root_ix t) as -> by congruence.
    destruct (roots (sy_fo s) (sy_b s)) as [rr fo1] eqn:Eroots.
    pose proof (roots_api cfg sec _ _ _ _ _ _ _ I Eroots) as (_ & [->|[e ->]] & _).
    2:{ unfold pack in E. rewrite Eroots in E. discriminate. }
    destruct G as ((G & _) & _).
    destruct (groots_cover sec _ (proj1 F) j t Hj _ None (eq_sym Hp) G eq_refl Hn) as (r & Hr & Hnr).
    exact (pack_reuse cfg sec _ _ _ _ _ _ _ _ _ _ _ Hcfg I Eroots (in_map _ _ _ Hr) E Hs Hnr Hj).
  Qed.

  (** ** C65: [pack] of a packed tree *)

  (** Nothing happens if the root is sealed: no new root, no new blocks
      (in the store: unless others write to it). *)
  Theorem C65_sealed_partial s fo' b' r :
    reach anything cfg sec s -> b_root (sy_b s) = Some r -> isealed r = true ->
    pack (sy_fo s) (sy_b s) = (Ok tt, fo', b') ->
    b_root b' = Some r /\ b_off b' = b_off (sy_b s) /\ fo_log fo' = fo_log (sy_fo s)
    /\ (Alone T B -> forall l, sblocks (fo_store fo') l = sblocks (fo_store (sy_fo s)) l).
  Proof.
    intros R Er Hr E. destruct (reach_b cfg sec Hcfg _ _ R) as (n & I). pose proof I as (F & Es & Ec & Er' & G).
    destruct n as [t|]; cbn in Er'; [|congruence]. assert (r = root_ix t) as -> by congruence.
    unfold pack in E. destruct (roots (sy_fo s) (sy_b s)) as [rr fo1] eqn:Eroots.
    pose proof (roots_api cfg sec _ _ _ _ _ _ _ I Eroots) as (S1 & [->|[e ->]] & _); [|discriminate].
    rewrite groots_taken in E by (now rewrite Hr). cbn [fst map] in E. rewrite Es, Ec in E.
    destruct (run fo1 (sy_b s) _) as [[r1 fo2] b1] eqn:Erun.
    assert (r1 = Ok (Some (root_ix t)) /\ fo2 = fo1 /\ b1 = sy_b s) as (-> & -> & ->).
    { unfold run, tree_from_roots, simplify_all, massert, mbind in Erun. cbn [forallb levels_desc] in Erun. rewrite Hr in Erun.
      cbn in Erun. injection Erun as <- <- <-. split; [easy|]. split; [now destruct fo1|now destruct (sy_b s)]. }
    assert (Hb : set_root (sy_b s) (Some (root_ix t)) = sy_b s) by (rewrite <- Er; now destruct (sy_b s)).
    rewrite Hb in E. destruct (collect_from fo1 _ _) as [rr3 fo3] eqn:Ecol.
    assert (I1 : bgood cfg sec (k_lose anything = false) (k_repair anything = false) fo1 (sy_b s) (Some t)).
    { pose proof (fsame_fext sec _ _ (b_off (sy_b s)) S1) as W1. split; [eapply fext_fok; eauto|]. splits; auto.
      exact (gn_mono cfg sec _ _ _ _ _ _ _ W1 G). }
    pose proof (collect_api cfg sec _ _ _ _ _ _ _ _ I1 Ecol) as (S3 & [->|[e ->]] & _); [|discriminate].
    assert (Hc : skipn (builder_count (sy_b s)) (ocontent (Some t)) = []).
    { rewrite (b_count _ _ _ _ _ _ _ I). apply skipn_all. }
    rewrite Hc in E. cbn in E. injection E as <- <-. split; [exact Er|]. split; [easy|].
    destruct (fsame_trans sec _ _ _ S1 S3) as (_ & (_ & A1) & _ & A2). cbn in A1, A2. auto.
  Qed.
End Props.

(** * Cases *)

(** The nodes of a tree, by computation. *)
Section Tests.
  Context {T : Types} {X : Ext} {B : Backend T}.
  Variable sec : Secrets.
  Variable s : Store.
  Fixpoint nodes (d : nat) (i : Index) : list Index :=
    i :: match d, i with
         | S d, IBranch x =>
             match bi_link x with
             | Some l => match sblocks s l with
                         | Some b => match deserialize_compressed (index_key sec) b with
                                     | Ok (cs, _) => flat_map (nodes d) cs
                                     | _ => []
                                     end
                         | None => []
                         end
             | None => []
             end
         | _, _ => []
         end.
  Lemma nodes_ok d : forall i j, In j (nodes d i) -> node_in sec s i j.
  Proof.
    induction d as [|d IH]; intros i j; cbn [nodes]; [intros [->|[]]; constructor|].
    intros [->|H]; [constructor|]. destruct i as [x|x]; [destruct H|].
    destruct (bi_link x) as [l|] eqn:E1; [|destruct H]. destruct (sblocks s l) as [b|] eqn:E2; [|destruct H].
    destruct (deserialize_compressed (index_key sec) b) as [[cs r]| | |] eqn:E3; try (destruct H; fail).
    apply in_flat_map in H as (c & Hc & H). eapply node_child; [exists l, b, r; eauto|exact Hc|now apply IH].
  Qed.
End Tests.

(** A successful operation on a tree with an inner node that satisfies [f]. *)
Definition case64 (f : Index -> bool) (s : @sys ITypes IBackend) (r : res unit * Forest * Builder) : bool :=
  match b_root (sy_b s), r with
  | Some i, (Ok _, fo', _) => smallb fo' && existsb f (tl (nodes esec (fo_store (sy_fo s)) 10 i))
  | _, _ => false
  end.
Lemma case64_ok f s r : case64 f s r = true ->
  exists i fo' b' j, b_root (sy_b s) = Some i /\ r = (Ok tt, fo', b') /\ small_branches fo'
    /\ node_in esec (fo_store (sy_fo s)) i j /\ f j = true.
Proof.
  unfold case64. destruct (b_root (sy_b s)) as [i|]; [|discriminate]. destruct r as [[[[]|e|p|] fo'] b']; try discriminate.
  intros H. apply andb_prop in H as [H1 H2]. apply existsb_exists in H2 as (j & H2 & H3).
  exists i, fo', b', j. splits; auto; [now apply smallb_ok|]. apply nodes_ok with (d := 10). now right.
Qed.
Definition sealed_branch (j : Index) : bool := isealed j && Nat.ltb 1 (ilevel j).
Definition open_branch (j : Index) : bool := negb (isealed j) && Nat.ltb 0 (ilevel j).

Example C64_case :
  (exists i fo' b' j, b_root (sy_b st2) = Some i /\ extend (sy_fo st2) (sy_b st2) (pairs 12 3) = (Ok tt, fo', b')
     /\ small_branches fo' /\ node_in esec (fo_store (sy_fo st2)) i j /\ sealed_branch j = true)
  /\ (exists i fo' b' j, b_root (sy_b st3) = Some i /\ extend_unpacked (sy_fo st3) (sy_b st3) (pairs 11 3) = (Ok tt, fo', b')
     /\ small_branches fo' /\ node_in esec (fo_store (sy_fo st3)) i j /\ open_branch j = true)
  /\ says_packed (sy_fo st2) (snapshot (sy_b st2)) true
  /\ (exists i fo' b' j, b_root (sy_b st2) = Some i /\ pack (sy_fo st2) (sy_b st2) = (Ok tt, fo', b')
     /\ small_branches fo' /\ node_in esec (fo_store (sy_fo st2)) i j /\ sealed_branch j = true).
Proof.
  splits.
  - apply case64_ok. vm_compute; reflexivity.
  - apply case64_ok. vm_compute; reflexivity.
  - apply packed_c. vm_compute; reflexivity.
  - apply case64_ok. vm_compute; reflexivity.
Qed.

(** Of the tree of [st3], which is not packed, [pack] finds three roots, and the
    first of them is a branch. *)
Definition case64r (s : @sys ITypes IBackend) : bool :=
  match roots (sy_fo s) (sy_b s), pack (sy_fo s) (sy_b s) with
  | (Ok rs, _), (Ok _, fo', _) =>
      smallb fo' && existsb (fun r => existsb (fun j => isealed j && Nat.eqb (ilevel j) 0) (tl (nodes esec (fo_store (sy_fo s)) 10 r))) rs
  | _, _ => false
  end.
Lemma case64r_ok s : case64r s = true ->
  exists rs fo1 r fo' b' j, roots (sy_fo s) (sy_b s) = (Ok rs, fo1) /\ In r rs
    /\ pack (sy_fo s) (sy_b s) = (Ok tt, fo', b') /\ small_branches fo'
    /\ node_in esec (fo_store (sy_fo s)) r j /\ isealed j = true.
Proof.
  unfold case64r. destruct (roots (sy_fo s) (sy_b s)) as [[rs|e|p|] fo1]; try discriminate.
  destruct (pack (sy_fo s) (sy_b s)) as [[[[]|e|p|] fo'] b']; try discriminate.
  intros H. apply andb_prop in H as [H1 H2]. apply existsb_exists in H2 as (r & Hr & H2).
  apply existsb_exists in H2 as (j & H2 & H3). apply andb_prop in H3 as [H3 _].
  exists rs, fo1, r, fo', b', j. splits; auto; [now apply smallb_ok|]. apply nodes_ok with (d := 10). now right.
Qed.
Example C64_case_roots :
  says_packed (sy_fo st3) (snapshot (sy_b st3)) false
  /\ exists rs fo1 r fo' b' j, roots (sy_fo st3) (sy_b st3) = (Ok rs, fo1) /\ In r rs
    /\ pack (sy_fo st3) (sy_b st3) = (Ok tt, fo', b') /\ small_branches fo'
    /\ node_in esec (fo_store (sy_fo st3)) r j /\ isealed j = true.
Proof. split; [apply packed_c; vm_compute; reflexivity|]. apply case64r_ok. vm_compute; reflexivity. Qed.

(** Four entries fill a tree. *)
Definition st65 : sys := state no_loss 1000000 [OExtend (pairs 0 4)].
Lemma st65_ok : reach no_loss ecfg esec st65. Proof. reached. Qed.
Example C65_case : exists i fo' b' j, b_root (sy_b st65) = Some i /\ pack (sy_fo st65) (sy_b st65) = (Ok tt, fo', b')
     /\ small_branches fo' /\ node_in esec (fo_store (sy_fo st65)) i j /\ isealed j = true.
Proof. apply case64_ok. vm_compute; reflexivity. Qed.
Example C65_case_sealed : match b_root (sy_b st65) with Some i => isealed i | None => false end = true.
Proof. vm_compute; reflexivity. Qed.

(** [pack] is documented to do nothing for a tree that is already packed
    (tree.rs 526-530). For a packed tree whose root is not sealed it writes the
    unsealed nodes again: the root gets another link. *)
Definition changed (s : @sys ITypes IBackend) : bool :=
  match b_root (sy_b s), pack (sy_fo s) (sy_b s) with
  | Some i, (Ok _, fo', b') =>
      match b_root b' with
      | Some i' => match ilink i, ilink i' with
                   | Some l, Some l' => negb (bytes_eqb l l') && Nat.ltb (List.length (fo_log (sy_fo s))) (List.length (fo_log fo'))
                   | _, _ => false
                   end
      | None => false
      end
  | _, _ => false
  end.
Lemma changed_ok s : changed s = true ->
  exists fo' b', pack (sy_fo s) (sy_b s) = (Ok tt, fo', b') /\ b_root b' <> b_root (sy_b s)
    /\ List.length (fo_log (sy_fo s)) < List.length (fo_log fo').
Proof.
  unfold changed. destruct (b_root (sy_b s)) as [i|]; [|discriminate].
  destruct (pack (sy_fo s) (sy_b s)) as [[[[]|e|p|] fo'] b']; try discriminate.
  destruct (b_root b') as [i'|] eqn:E'; [|discriminate].
  destruct (ilink i) as [l|] eqn:E1; [|discriminate]. destruct (ilink i') as [l'|] eqn:E2; [|discriminate].
  intros H. apply andb_prop in H as [H1 H2]. exists fo', b'. rewrite E'. splits; [easy| |now apply Nat.ltb_lt].
  intros [= ->]. rewrite E1 in E2. injection E2 as ->. now rewrite (proj2 (bytes_eqb_eq _ _) eq_refl) in H1.
Qed.
Theorem C65_refuted :
  exists s fo' b', reach no_loss ecfg esec s /\ says_packed (sy_fo s) (snapshot (sy_b s)) true
    /\ pack (sy_fo s) (sy_b s) = (Ok tt, fo', b') /\ b_root b' <> b_root (sy_b s)
    /\ List.length (fo_log (sy_fo s)) < List.length (fo_log fo').
Proof.
  exists st2. assert (H : changed st2 = true) by (vm_compute; reflexivity). apply changed_ok in H as (fo' & b' & H).
  exists fo', b'. split; [exact st2_ok|]. split; [apply packed_c; vm_compute; reflexivity|exact H].
Qed.

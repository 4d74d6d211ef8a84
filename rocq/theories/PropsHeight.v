(** Properties of how high trees are and how much reading costs: C67, C68. *)
From Coq Require Import List NArith ZArith Lia Bool String Arith.
From Verif Require Import Base BaseProofs Cbor Types Seq SeqProofs Query World Read Write Api Iter History Spec Ghost Frame ReadProofs Packable WriteProofs QueryProofs PackProofs RetainProofs NoPurged ApiProofs SysProofs HistProofs Instance Example PropsWrite PropsRead PropsReuse PropsCost.
Import ListNotations.

Section Wide.
  Context {T : Types} {TL : TypesLaws T} {X : Ext} {XL : ExtLaws X}
          {B : Backend T} {BL : BackendLaws T B}.
  Variable cfg : Config.
  Variable sec : Secrets.
  Hypothesis Hcfg : config_ok cfg.
  Notation key := (index_key sec).
  Notation len := List.length.

  (** Above level 1 a root has at least two children. *)
  Definition wide (i : Index) : Prop :=
    match i with ILeaf _ => True | IBranch x => bi_level x <= 1 \/ 2 <= len (branch_sums x) end.
  Definition owide (o : option Index) : Prop := match o with Some i => wide i | None => True end.

  Lemma wide_low i : ilevel i <= 1 -> wide i.
  Proof. destruct i; cbn; auto. Qed.

  Lemma ok_new_branch_wide cs mode w :
    ok (new_branch cfg sec cs mode) w (fun x _ => len (branch_sums x) = len cs /\ bi_level x = S (max_nat (map ilevel cs))).
  Proof.
    unfold new_branch. apply ok_assert. intros _. apply ok_assert. intros _. apply ok_step. intros [l n] w1 E. apply ok_ret.
    split; [|easy]. unfold branch_sums. cbn. now rewrite ss_to_of, map_length.
  Qed.

  Lemma ok_fill_children_wide f n : forall cs from w,
    ok (fill_children f n cs from) w (fun p _ => len cs <= len (fst p) /\ (from <> [] -> 1 <= n -> len cs < len (fst p))).
  Proof.
    induction n as [|n IH]; intros cs from w; cbn [fill_children].
    - apply ok_ret. split; [auto|lia].
    - destruct from as [|p from]; [apply ok_ret; split; [auto|congruence]|].
      apply ok_step. intros [c from1] w1 _. eapply ok_conseq; [apply IH|]. cbn beta. intros a w' [H _].
      rewrite app_length in H. cbn in H. split; [lia|]. lia.
  Qed.

  Lemma ok_extend_branch_wide cs level from mode w :
    ok (extend_branch cfg sec cs level from mode) w
       (fun p _ => len cs <= len (branch_sums (fst p)) /\ bi_level (fst p) <= level
          /\ (from <> [] -> len cs < max_branches cfg level -> len cs < len (branch_sums (fst p)))).
  Proof.
    unfold extend_branch, extend_branch_with. do 3 (apply ok_assert; intros _).
    eapply ok_bind; [apply ok_fill_children_wide|]. intros [cs1 from1] w1 _ [H1 H2]. cbn [fst] in *.
    eapply ok_bind; [apply ok_new_branch_wide|]. intros x w2 _ [H3 H4]. apply ok_assert. intros Ha. apply ok_ret. cbn [fst].
    rewrite H3. splits; [lia| |intros; apply H2; [easy|lia]].
    destruct (Write.is_nil from1); [now apply Nat.leb_le|]. apply andb_prop in Ha as [Ha _]. apply Nat.eqb_eq in Ha. lia.
  Qed.

  Lemma ok_climb_wide fuel : forall i bnd from w, wide i ->
    ok (climb cfg sec fuel i bnd from) w (fun p _ => wide (fst p)).
  Proof.
    induction fuel as [|fuel IH]; intros i bnd from w Hi; cbn [climb];
      (match goal with |- ok (if ?b then _ else _) _ _ => destruct b eqn:Eb end; [|now apply ok_ret]).
    - apply ok_none. discriminate.
    - eapply ok_bind; [apply ok_extend_branch_wide|]. intros [x from1] w1 _ (_ & H2 & H3). cbn [fst List.length] in *.
      apply IH. apply andb_prop in Eb as [Eb _]. destruct (Nat.eqb_spec (ilevel i) 0) as [E|E]; [left; lia|].
      rewrite orb_false_r in Eb. right. apply H3; [now destruct from|]. unfold max_branches.
      destruct (Nat.eqb_spec (S (ilevel i)) 1); [lia|]. destruct Hcfg as (_ & _ & H & _). lia.
  Qed.

  (** What is loaded for a root has as many children as the root says. *)
  Definition counted (i : Index) (w : world) : Prop :=
    forall x l b w1, i = IBranch x -> bi_link x = Some l -> load_branch_cached sec l w = (Ok b, w1) ->
      len (br_children b) = len (branch_sums x).

  Lemma repr_counted lim t w : wok key w -> repr sec lim t -> counted (root_ix t) w.
  Proof.
    intros W R x l b w1 E El Eb. destruct t as [y vs|y|y cs|y]; try discriminate; injection E as ->.
    - pose proof R as R'. apply repr_branch_load in R as (l' & r & Hl & H & _). rewrite El in Hl. injection Hl as <-.
      destruct (H _ (fun s h => h)) as [H1 _]. destruct (H1 _ _ _ W Eb) as [[[= ->]|[e H2]] _]; [|discriminate].
      cbn. rewrite map_length. symmetry. now apply repr_branch in R' as (_ & _ & R & _).
    - cbn in R. congruence.
  Qed.

  Lemma ok_extend0_wide rec i from w : wide i -> counted i w ->
    ok (extend0 cfg sec rec i from) w (fun p _ => wide (fst p)).
  Proof.
    intros Hi Hc. unfold extend0. destruct (isealed i || Write.is_nil from) eqn:Es; [now apply ok_ret|].
    destruct (node_info_of i) as [x l|x l|x|x] eqn:En; try now apply ok_ret.
    - assert (i = IBranch x /\ bi_link x = Some l) as [-> Hl].
      { destruct i as [y|y]; cbn in En; [destruct (li_link y); discriminate|]. destruct (bi_link y) eqn:E; [|discriminate].
        injection En as -> ->. auto. }
      apply ok_step. intros b w1 E1. specialize (Hc _ _ _ _ eq_refl Hl E1).
      eapply ok_bind with (Q := fun p _ => len (fst p) = len (br_children b)).
      { destruct (rev (br_children b)) as [|last rest] eqn:Er; [now apply ok_ret|].
        apply ok_step. intros [last' from1] w2 _. apply ok_ret. cbn [fst]. rewrite <- (rev_length (br_children b)), Er.
        rewrite app_length, rev_length. cbn. lia. }
      intros [cs1 from1] w2 _ H2. cbn [fst] in H2.
      eapply ok_bind; [apply ok_extend_branch_wide|]. intros [x' from2] w3 _ (H3 & H4 & _). cbn [fst] in *. apply ok_ret. cbn [fst wide].
      destruct Hi as [Hi|Hi]; [left|right]; lia.
    - apply ok_step. intros z w1 _. apply ok_step. intros [x' from1] w2 _. now apply ok_ret.
  Qed.

  Lemma ok_extend_above_wide d node bnd from w : owide node -> (forall i, node = Some i -> counted i w) ->
    ok (extend_above cfg sec d node bnd from) w (fun p _ => wide (fst p)).
  Proof.
    intros Hn Hc. destruct d as [|d]; cbn [extend_above]; [apply ok_none; discriminate|].
    destruct (Write.is_nil from); [apply ok_none; discriminate|]. apply ok_assert. intros _.
    eapply ok_bind with (Q := fun p _ => wide (fst p)).
    - destruct node as [i|]; [apply ok_extend0_wide; auto|]. apply ok_step. intros [x from1] w1 _. now apply ok_ret.
    - intros [i1 from1] w1 _ H1. eapply ok_bind; [apply ok_climb_wide; exact H1|]. intros [i2 from2] w2 _ H2.
      apply ok_assert. intros _. apply ok_ret. exact H2.
  Qed.

  Lemma ok_extend_unpacked0_wide index from w : owide index ->
    ok (extend_unpacked0 cfg sec index from) w (fun r _ => owide r).
  Proof.
    intros Hi. unfold extend_unpacked0. destruct (Write.is_nil from); [now apply ok_ret|].
    eapply ok_bind; [apply (ok_extend_above_wide 1 None None); [exact Logic.I|discriminate]|].
    intros [b from1] w1 _ H1. destruct index as [a|]; [|now apply ok_ret].
    eapply ok_bind; [apply ok_extend_branch_wide|]. intros [x from2] w2 _ (H2 & _). cbn [fst List.length] in H2. apply ok_ret.
    right. exact H2.
  Qed.

  Lemma ok_fill_children_pre f n : forall cs from w,
    ok (fill_children f n cs from) w (fun p _ => incl cs (fst p)).
  Proof.
    induction n as [|n IH]; intros cs from w; cbn [fill_children]; [apply ok_ret; now intros ?|].
    destruct from as [|p from]; [apply ok_ret; now intros ?|].
    apply ok_step. intros [c from1] w1 _. eapply ok_conseq; [apply IH|]. cbn beta. intros a w' H x Hx. apply H, in_or_app. now left.
  Qed.

  Lemma max_nat_in l n : In n l -> n <= max_nat l.
  Proof. induction l as [|a l IH]; [easy|]. intros [->|H]; cbn; [lia|]. specialize (IH H). unfold max_nat in IH. lia. Qed.

  Lemma ok_extend_unpacked0_up a from w : from <> [] ->
    ok (extend_unpacked0 cfg sec (Some a) from) w (fun r _ => exists j, r = Some j /\ ilevel a < ilevel j).
  Proof.
    intros Hf. unfold extend_unpacked0. destruct from as [|p from]; [easy|]. cbn [Write.is_nil].
    apply ok_step. intros [b from1] w1 _. eapply ok_bind with (Q := fun q _ => ilevel a < bi_level (fst q)).
    - unfold extend_branch, extend_branch_with. do 3 (apply ok_assert; intros _).
      eapply ok_bind; [apply ok_fill_children_pre|]. intros [cs1 from2] w2 _ H1. cbn [fst] in H1.
      eapply ok_bind; [apply ok_new_branch_wide|]. intros x w3 _ [_ H4]. apply ok_assert. intros _. apply ok_ret. cbn [fst]. rewrite H4.
      assert (H : ilevel a <= max_nat (map ilevel cs1)); [|lia]. apply max_nat_in, in_map, H1. now left.
    - intros [x from2] w2 _ H. apply ok_ret. exists (IBranch x). now split.
  Qed.

  Lemma position_le n (l : list Index) : position_below n l <= len l.
  Proof. induction l as [|a l IH]; cbn [position_below List.length]; [lia|]. destruct (_ <? _); lia. Qed.

  Lemma find_valid_wide cs r : find_valid_branch cfg cs = Ok r ->
    match r with RSealed n | RUnsealed n => n <= len cs /\ (2 <= n \/ Forall (fun c => ilevel c = 0) (firstn n cs)) | RSkip _ => True end.
  Proof.
    destruct Hcfg as (Hc1 & Hc2 & Hc3 & _). unfold find_valid_branch.
    destruct (Nat.ltb_spec 1 (len cs)); [|discriminate]. cbn [negb]. destruct (levels_desc cs) eqn:Ed; [|discriminate]. cbn [negb].
    destruct cs as [|c cs]; [discriminate|]. set (all := c :: cs) in *.
    assert (Hpos : position_below (ilevel c) all <= len all).
    { apply position_le. }
    set (mx := if ilevel c =? 0 then _ else _).
    assert (Hmx : 1 <= mx /\ (2 <= mx \/ ilevel c = 0)).
    { unfold mx. destruct (Nat.eqb_spec (ilevel c) 0); lia. }
    assert (H0 : ilevel c = 0 -> Forall (fun c => ilevel c = 0) all).
    { intros E. subst all. clear -Ed E. revert c Ed E. induction cs as [|a cs IH]; intros c Ed E; [now repeat constructor|].
      cbn [levels_desc] in Ed. apply andb_prop in Ed as [E1 E2]. apply Nat.leb_le in E1. constructor; [exact E|]. apply IH; [exact E2|lia]. }
    assert (H1 : forall n, ilevel c = 0 -> Forall (fun c => ilevel c = 0) (firstn n all)).
    { intros n E. apply H0 in E. rewrite <- (firstn_skipn n all) in E. now apply Forall_app in E. }
    destruct (Nat.leb_spec mx (position_below (ilevel c) all)).
    - intros [= <-]. split; [lia|]. destruct Hmx as [_ [?|?]]; auto.
    - destruct (_ || _); intros [= <-]; [|easy]. split; [apply Nat.le_min_r|]. destruct Hmx as [_ [?|?]]; [left; apply Nat.min_glb; [easy|exact H]|auto].
  Qed.

  Lemma max_nat_zero l : Forall (fun a => a = 0) l -> max_nat l = 0.
  Proof. unfold max_nat. induction 1; cbn; [easy|]. lia. Qed.

  Lemma ok_simplify_roots_wide fuel : forall rs from w, Forall wide rs ->
    ok (simplify_roots cfg sec fuel rs from) w (fun rs' _ => Forall wide rs').
  Proof.
    induction fuel as [|fuel IH]; intros rs from w Hw; cbn [simplify_roots];
      do 2 (apply ok_assert; intros _); apply ok_step; intros r w1 E1;
      (assert (w1 = w) as -> by now injection E1); (assert (Er : find_valid_branch cfg (skipn from rs) = Ok r) by now injection E1);
      pose proof (find_valid_wide _ _ Er) as Hn;
      (destruct r as [n|n|n]; [| |first [apply ok_none; discriminate|now apply IH]]).
    all: destruct Hn as [Hn1 Hn2]; eapply ok_bind; [apply ok_new_branch_wide|]; intros x w2 _ [H2 H3]; apply ok_ret;
      rewrite <- (firstn_skipn from rs) in Hw; apply Forall_app in Hw as [Hw1 Hw2];
      (apply Forall_app; split; [exact Hw1|]; constructor; [|rewrite <- skipn_plus; rewrite <- (firstn_skipn n (skipn from rs)) in Hw2; now apply Forall_app in Hw2]);
      cbn [wide]; (destruct Hn2 as [Hn2|Hn2]; [right; rewrite H2, firstn_length; lia|left]);
      rewrite H3, max_nat_zero; [lia|now rewrite Forall_map].
  Qed.

  Lemma ok_simplify_all_wide fuel : forall rs w, Forall wide rs ->
    ok (simplify_all cfg sec fuel rs) w (fun rs' _ => Forall wide rs').
  Proof.
    induction fuel as [|fuel IH]; intros rs w Hw; cbn [simplify_all];
      (destruct (Nat.ltb_spec 1 (len rs)); [|now apply ok_ret]).
    - apply ok_none; discriminate.
    - eapply ok_bind; [now apply ok_simplify_roots_wide|]. intros rs1 w1 _ H1. now apply IH.
  Qed.

  Lemma ok_tree_from_roots_wide rs w : Forall wide rs ->
    ok (tree_from_roots cfg sec rs) w (fun o _ => owide o).
  Proof.
    intros Hw. unfold tree_from_roots. do 2 (apply ok_assert; intros _).
    eapply ok_bind; [now apply ok_simplify_all_wide|]. intros rs1 w1 _ H1. apply ok_ret.
    clear -H1. induction H1 as [|a l Ha Hl IH]; [exact Logic.I|]. cbn [map last]. destruct l; [exact Ha|exact IH].
  Qed.

  Lemma retain0_wide q d off i cur w : wide i -> ok (retain0 cfg sec q d off i cur) w (fun p _ => wide (fst p)).
  Proof.
    intros Hi. destruct i as [x|x]; [destruct d; now apply ok_ret|].
    assert (Hs : forall l, wide (IBranch (branch_set_link x l))) by (intros l; exact Hi).
    destruct d as [|d]; cbn [retain0];
      (match goal with |- ok (match bi_link ?y with _ => _ end) _ _ => assert (Hy : wide (IBranch y)) by (destruct (_ && _); auto);
         set (z := y) in *; clearbody z end);
      (destruct (bi_link z) as [l|]; [|now apply ok_ret]).
    - apply ok_none; discriminate.
    - apply ok_step. intros b w1 _. apply ok_step. intros [[cs ch] cur1] w2 _. destruct ch; [|now apply ok_ret].
      apply ok_step. intros [l1 n1] w3 _. now apply ok_ret.
  Qed.

  Lemma repair0_wide d i cur w : wide i -> ok (repair0 cfg sec d i cur) w (fun p _ => wide (fst (fst p))).
  Proof.
    intros Hi. destruct i as [x|x].
    - destruct d; cbn [repair0]; apply ok_step; intros [r|e] w1 _; now apply ok_ret.
    - assert (Hs : forall l, wide (IBranch (branch_set_link x l))) by (intros l; exact Hi).
      destruct d as [|d]; cbn [repair0]; apply ok_step; intros [[b|]|e] w1 _; try (now apply ok_ret).
      + apply ok_none; discriminate.
      + apply ok_step. intros [[[cs ch] rep] cur1] w2 _. destruct ch; [|now apply ok_ret].
        apply ok_step. intros [l1 n1] w3 _. now apply ok_ret.
  Qed.

  (** ** Histories *)

  Lemma sealed_wide lim t : repr sec lim t -> inv cfg t -> isealed (root_ix t) = true -> wide (root_ix t).
  Proof.
    intros R I Hs. destruct t as [x vs|x|x cs|x]; try exact Logic.I; cbn [root_ix wide isealed] in *.
    - destruct (sealed_purge _ _ _ _ _ R I Hs) as [_ H]. cbn [s_lo only] in H. unfold max_branches in H. destruct Hcfg as (_ & _ & Hs2 & _).
      apply inv_branch in I as (I & _). destruct (Nat.eqb_spec (bi_level x) 1); [left|right]; lia.
    - destruct I as (I & _ & H). destruct (H Hs) as [_ H']. cbn [s_lo only] in H'. unfold max_branches in H'. destruct Hcfg as (_ & _ & Hs2 & _).
      destruct (Nat.eqb_spec (bi_level x) 1); [left|right]; lia.
  Qed.

  Lemma relabel_wide t t' : relabel t t' -> wide (root_ix t) -> wide (root_ix t').
  Proof.
    destruct t as [x vs|x|x cs|x], t' as [x' vs'|x'|x' cs'|x']; cbn; try discriminate; auto; try (now intros [= ->]); try (now intros [= -> ->]).
    now intros [(H1 & -> & H3 & -> & H5) _].
  Qed.

  Section Kind.
    Variable Av Ps : Prop.
    Notation binv := (bgood cfg sec Av Ps).

    Lemma binv_counted fo b n : binv fo b n -> forall i, b_root b = Some i -> counted i (wof fo (b_off b)).
    Proof.
      intros (F & Es & Ec & Er & G) i E. rewrite E in Er. destruct n as [t|]; [|discriminate]. injection Er as ->.
      apply repr_counted with (lim := b_off b); [now apply fok_wok|apply G].
    Qed.

    Lemma extend_wide fo b n items r fo' b' : binv fo b n -> owide (b_root b) ->
      extend fo b items = (r, fo', b') -> owide (b_root b').
    Proof.
      intros I Hw E. pose proof I as (F & Es & Ec & Er & G). unfold extend in E. destruct items as [|p items].
      { now injection E as <- <- <-. }
      set (from := p :: items) in *. rewrite Es, Ec in E. destruct (run fo b _) as [[r0 fo1] b1] eqn:Erun.
      apply run_inv in Erun as (Em & Er1 & _). destruct r0 as [[i rest]|e|p0|]; injection E as <- <- <-; try (rewrite Er1; exact Hw).
      cbn [b_root set_root owide]. exact (ok_extend_above_wide _ _ _ _ _ Hw (binv_counted _ _ _ I) _ _ Em).
    Qed.

    Lemma extend_unpacked_wide fo b n items r fo' b' : binv fo b n -> owide (b_root b) ->
      extend_unpacked fo b items = (r, fo', b') -> owide (b_root b').
    Proof.
      intros I Hw E. pose proof I as (F & Es & Ec & Er & G). unfold extend_unpacked in E.
      rewrite Es, Ec in E. destruct (run fo b _) as [[r0 fo1] b1] eqn:Erun.
      apply run_inv in Erun as (Em & Er1 & _). destruct r0 as [i|e|p0|]; injection E as <- <- <-; try (rewrite Er1; exact Hw).
      cbn [b_root set_root]. exact (ok_extend_unpacked0_wide _ _ _ Hw _ _ Em).
    Qed.

    Lemma pack_wide fo b n r fo' b' : binv fo b n -> owide (b_root b) -> pack fo b = (r, fo', b') -> owide (b_root b').
    Proof.
      intros I Hw E. pose proof I as (F & Es & Ec & Er & G). unfold pack in E.
      assert (Hstay : forall fo2, fext sec fo (b_off b) fo2 (b_off b) -> binv fo2 b n).
      { intros fo2 W. split; [eapply fext_fok; eauto|]. splits; auto. exact (gn_mono cfg sec Av Ps _ _ _ _ _ W G). }
      set (rts := match n with Some t => fst (groots t None) | None => [] end).
      destruct (roots fo b) as [rr fo1] eqn:Eroots.
      pose proof (roots_api cfg sec Av Ps _ _ _ _ _ I Eroots) as (S1 & H1 & _). fold rts in H1.
      pose proof (fsame_fext sec _ _ (b_off b) S1) as W1.
      destruct H1 as [->|[e ->]]; [|now injection E as <- <- <-].
      pose proof (Hstay _ W1) as I1. rewrite Es, Ec in E.
      destruct (run fo1 b _) as [[r1 fo2] b1] eqn:Erun.
      assert (Gr : Forall (gd cfg sec Av Ps (wof fo1 (b_off b))) rts).
      { unfold rts. destruct n as [t|]; [|constructor]. destruct I1 as (_ & _ & _ & _ & G1).
        apply groots_sub; [|apply G1]. intros x cs. apply gd_children. }
      assert (Hr : Forall (fun c => isealed (root_ix c) = true) rts /\ levels_desc (map root_ix rts) = true).
      { unfold rts. destruct n as [t|]; [|split; [constructor|easy]].
        destruct (groots_sealed t None) as (A1 & A2 & _). split; [|easy].
        eapply Forall_impl; [|exact A1]. now intros c []. }
      destruct Hr as [Hr1 Hr2].
      pose proof (run_wrote cfg sec Av Ps fo1 b n _ (fun i => i) Ps
                   (fun n' => ocontent n' = flat_map content rts /\ opacked n') r1 fo2 b1 I1
                   (wf_tree_from_roots sec cfg (map root_ix rts))) as H2.
      match type of H2 with ?P -> _ => assert (Hpost : P) end.
      { eapply post_conseq; [apply (post_tree_from_roots cfg sec Hcfg Av Ps Ps); auto|].
        intros i w' (node & A1 & A2 & A3). exists node. split; [easy|]. destruct node as [t|].
        - destruct A2 as [A2 A4]. splits; auto. intros ps. apply (packed_pk cfg); auto; try apply A2; auto.
        - cbn. splits; auto. }
      specialize (H2 Hpost Erun). clear Hpost. destruct H2 as (W2 & (n1 & I2 & _) & _).
      pose proof Erun as Erun'. apply run_inv in Erun' as (Em & Er1 & _).
      destruct r1 as [i|e|p|]; try (injection E as <- <- <-; rewrite Er1; exact Hw).
      assert (Hi : owide i).
      { refine (ok_tree_from_roots_wide _ _ _ _ _ Em). rewrite Forall_map. rewrite Forall_forall in *. intros c Hc.
        destruct (Gr c Hc) as (Rc & Ic & _). exact (sealed_wide _ _ Rc Ic (Hr1 c Hc)). }
      destruct (collect_from fo2 _ _) as [rr3 fo3] eqn:Ecol.
      destruct rr3 as [l|e|p|]; try (injection E as <- <- <-; exact Hi).
      destruct (omapM _ l) as [rest|]; [|injection E as <- <- <-; exact Hi].
      eapply (extend_wide fo3 (set_root b1 i) n1); [|exact Hi|exact E].
      assert (S3 : fsame sec fo2 fo3).
      { unfold collect_from in Ecol. destruct (snapshot b) as [[[i0 s0] o0]|] eqn:En; [|injection Ecol as <- <-; apply fsame_refl].
        assert (s0 = sec) as -> by (unfold snapshot in En; rewrite Es in En; destruct (b_root b); [now injection En|discriminate]).
        eapply read_fsame; [|exact Ecol]. apply rf_collect0. }
      destruct I2 as (J1 & J2 & J3 & J4 & J5). pose proof (fsame_fext sec _ _ (b_off b1) S3) as W3.
      split; [eapply fext_fok; eauto|]. splits; auto. exact (gn_mono cfg sec Av Ps _ _ _ _ _ W3 J5).
    Qed.

    Lemma retain_wide fo b q r fo' b' : b_sec b = sec -> b_cfg b = cfg -> owide (b_root b) ->
      retain fo b q = (r, fo', b') -> owide (b_root b').
    Proof.
      intros Es Ec Hw E. unfold retain in E. destruct (b_root b) as [i|] eqn:Er; [|injection E as <- <- <-; now rewrite Er].
      rewrite Es, Ec in E. destruct (run fo b _) as [[r0 fo1] b1] eqn:Erun.
      apply run_inv in Erun as (Em & Er1 & _). rewrite Er in Er1. destruct r0 as [[i' cur]|e|p0|]; injection E as <- <- <-; try (rewrite Er1; exact Hw).
      exact (retain0_wide _ _ _ _ _ _ Hw _ _ Em).
    Qed.

    Lemma repair_wide fo b r fo' b' : b_sec b = sec -> b_cfg b = cfg -> owide (b_root b) ->
      repair fo b = (r, fo', b') -> owide (b_root b').
    Proof.
      intros Es Ec Hw E. unfold repair in E. destruct (b_root b) as [i|] eqn:Er; [|injection E as <- <- <-; now rewrite Er].
      rewrite Es, Ec in E. destruct (run fo b _) as [[r0 fo1] b1] eqn:Erun.
      apply run_inv in Erun as (Em & Er1 & _). rewrite Er in Er1. destruct r0 as [[[i' rep] cur]|e|p0|]; injection E as <- <- <-; try (rewrite Er1; exact Hw).
      exact (repair0_wide _ _ _ _ Hw _ _ Em).
    Qed.
  End Kind.

  Definition snap_wide (t : Tree) : Prop := match t with Some (i, _, _) => wide i | None => True end.
  Definition sys_wide (s : sys) : Prop :=
    owide (b_root (sy_b s)) /\ Forall owide (se_saved (sy_se s)) /\ Forall snap_wide (sy_snaps s).

  Ltac wsplit := split; [|split]; auto.

  Lemma wide_step k o s r s' : sys_good cfg sec (k_lose k = false) (k_repair k = false) s -> op_ok o s ->
    exec o s = (r, s') -> sys_wide s -> sys_wide s'.
  Proof.
    intros S Hok E (H1 & H2 & H3). pose proof S as ((n & I) & _ & Hsnaps).
    pose proof (sys_b_eqs cfg sec k _ S) as [Es Ec]. pose proof (sys_fok cfg sec k _ S) as F.
    destruct o; cbn [exec] in E.
    - destruct (extend _ _ _) as [[r0 fo] b] eqn:E0. injection E as <- <-. wsplit. eapply extend_wide; eauto.
    - destruct (push _ _ _ _) as [[r0 fo] b] eqn:E0. injection E as <- <-. wsplit. unfold push in E0. eapply extend_wide; eauto.
    - destruct (extend_unpacked _ _ _) as [[r0 fo] b] eqn:E0. injection E as <- <-. wsplit. eapply extend_unpacked_wide; eauto.
    - destruct (pack _ _) as [[r0 fo] b] eqn:E0. injection E as <- <-. wsplit. eapply pack_wide; eauto.
    - destruct (retain _ _ _) as [[r0 fo] b] eqn:E0. injection E as <- <-. wsplit. eapply retain_wide; eauto.
    - destruct (repair _ _) as [[r0 fo] b] eqn:E0. injection E as <- <-. wsplit. eapply repair_wide; eauto.
    - injection E as <- <-. wsplit. cbn. constructor; auto.
    - injection E as <- <-. wsplit. cbn. destruct H2; [constructor|auto].
    - injection E as <- <-. unfold sys_wide, sy_b, tx_drop in *. cbn. destruct (se_saved (sy_se s)) as [|r0 rs] eqn:Esv; [rewrite Esv; auto|].
      inversion H2; subst. cbn. auto.
    - injection E as <- <-. wsplit. cbn. apply Forall_app. split; [exact H3|]. constructor; [|constructor].
      unfold snapshot. destruct (b_root (sy_b s)); [exact H1|exact Logic.I].
    - destruct (obind _ _) as [l|] eqn:El; [|injection E as <- <-; easy].
      destruct (nth_error (sy_snaps s) n0) as [t|] eqn:En; [|discriminate]. cbn in El.
      pose proof (Hok _ En) as Hbr. cbn in Hbr. pose proof (nth_error_Forall _ _ _ _ Hsnaps En) as Hg.
      pose proof (nth_error_Forall _ _ _ _ H3 En) as Hw.
      destruct t as [[[i sec'] o]|]; [|discriminate]. destruct Hg as (-> & lim & t & Hg). cbn in El, Hw. rewrite Es, Ec in E.
      destruct (load_stream_builder _ _ _ _) as [r0 fo] eqn:E0.
      destruct (load_builder cfg sec Hcfg _ _ _ _ _ _ _ _ _ F Hg Hbr El E0) as (_ & H4 & H5 & _).
      destruct H5 as [(b' & ->)|(e & ->)]; injection E as <- <-; [|wsplit].
      destruct (H4 b' eq_refl) as (t' & (_ & _ & _ & Er & _) & Hrl & _).
      split; [|split; [constructor|exact H3]]. unfold sy_b. cbn. rewrite Er. cbn. eapply relabel_wide; [exact Hrl|].
      destruct Hg as (-> & _). exact Hw.
    - destruct (obind _ _) as [l|] eqn:El; [|injection E as <- <-; easy].
      destruct (nth_error (sy_snaps s) n0) as [t|] eqn:En; [|discriminate]. cbn in El.
      pose proof (Hok _ En) as Hbr. cbn in Hbr. pose proof (nth_error_Forall _ _ _ _ Hsnaps En) as Hg.
      pose proof (nth_error_Forall _ _ _ _ H3 En) as Hw.
      destruct t as [[[i sec'] o]|]; [|discriminate]. destruct Hg as (-> & lim & t & Hg). cbn in El, Hw. rewrite Es in E.
      destruct (load_tree _ _ _) as [r0 fo] eqn:E0.
      destruct (load_tree_ok cfg sec _ _ _ _ _ _ _ _ _ F Hg Hbr El E0) as (_ & H4 & H5 & _).
      destruct H5 as [(b' & ->)|(e & ->)]; injection E as <- <-; [|wsplit].
      destruct (H4 b' eq_refl) as (i' & o' & t' & -> & (<- & _) & Hrl & _).
      wsplit. cbn. apply Forall_app. split; [exact H3|]. constructor; [|constructor]. cbn. eapply relabel_wide; [exact Hrl|].
      destruct Hg as (-> & _). exact Hw.
    - destruct (nth_error (sy_snaps s) n0) as [t|] eqn:En; [|injection E as <- <-; easy].
      destruct (do_read _ _ _) as [r1 fo] eqn:E0. injection E as <- <-. wsplit.
    - destruct (check_invariants _ _) as [r1 fo] eqn:E0. injection E as <- <-. wsplit.
    - injection E as <- <-. wsplit.
    - injection E as <- <-. wsplit.
    - injection E as <- <-. wsplit.
  Qed.

  Lemma reach_wide k s : reach k cfg sec s -> sys_wide s.
  Proof.
    intros (s0 & Hs & H). induction H as [|s o r s' H IH Hok Hin E].
    - destruct Hs as (-> & _). split; [exact Logic.I|split; constructor].
    - eapply wide_step; [|exact Hok|exact E|exact IH]. apply (reach_ok cfg sec Hcfg k). exists s0. auto.
  Qed.
End Wide.

Section Height.
  Context {T : Types} {TL : TypesLaws T} {X : Ext} {XL : ExtLaws X}
          {B : Backend T} {BL : BackendLaws T B}.
  Variable cfg : Config.
  Variable sec : Secrets.
  Hypothesis Hcfg : config_ok cfg.

  Lemma least_count_pow l : least_count cfg (S l) = max_key_branches cfg * max_summary_branches cfg ^ l.
  Proof.
    induction l as [|l IH]; [cbn; unfold max_branches; cbn; lia|].
    change (least_count cfg (S (S l))) with (max_branches cfg (S (S l)) * least_count cfg (S l)).
    rewrite IH. unfold max_branches. cbn [Nat.eqb Nat.pow]. lia.
  Qed.

  Lemma packed_height lim t : repr sec lim t -> inv cfg t -> packed t = true -> psealed t -> wide (root_ix t) ->
    forall l, ilevel (root_ix t) = S (S l) -> least_count cfg (S l) < icount (root_ix t).
  Proof.
    intros R I P Hp W l El. destruct Hcfg as (_ & Hk & Hs & _).
    assert (Hpos : 1 <= least_count cfg (S l)).
    { rewrite least_count_pow. assert (max_summary_branches cfg ^ l <> 0) by (apply Nat.pow_nonzero; lia). nia. }
    destruct (isealed (root_ix t)) eqn:Es.
    { pose proof (sealed_count _ _ _ _ R I Es) as H. cbn [s_lo only] in H. rewrite El in H.
      change (least_count cfg (S (S l))) with (max_branches cfg (S (S l)) * least_count cfg (S l)) in H.
      unfold max_branches in H. cbn [Nat.eqb] in H. nia. }
    destruct t as [x vs|x|x cs|x]; cbn [root_ix ilevel icount isealed wide] in *; try discriminate.
    - pose proof (repr_branch_load sec _ _ _ R) as (? & ? & _ & _ & _ & _ & _ & Rc & Hne & _).
      pose proof R as R'. apply repr_branch in R' as (_ & Hcnt & Hlen & _).
      pose proof I as I'. apply inv_branch in I' as (_ & _ & _ & _ & Ic).
      destruct (exists_last Hne) as (cs0 & last & ->). rewrite packed_branch, Es in P. cbn [orb] in P.
      apply andb_prop in P as [P _].
      destruct cs0 as [|c cs0].
      { exfalso. cbn in Hlen. lia. }
      cbn [forallb] in P. apply andb_prop in P as [P _]. apply andb_prop in P as [P1 P2]. apply Nat.eqb_eq in P2.
      cbn [app] in *. apply Forall_inv in Rc as R1. apply Forall_inv in Ic as I1.
      rewrite Forall_forall in Rc, Ic.
      pose proof (sealed_count _ _ _ _ R1 I1 P1) as H1. cbn [s_lo only] in H1. rewrite P2, El in H1. replace (S (S l) - 1) with (S l) in H1 by lia.
      assert (Hlast : In last (c :: cs0 ++ [last])) by (right; apply in_or_app; right; left; easy).
      pose proof (tree_nonempty _ _ _ _ (Rc _ Hlast) (Ic _ Hlast)) as H2.
      rewrite Hcnt. cbn [map]. rewrite !map_app. unfold sum_nat. cbn [fold_right]. fold (sum_nat (map icount (map root_ix cs0) ++ map icount (map root_ix [last]))).
      rewrite sum_nat_app. remember (least_count cfg (S l)) as q. cbn. lia.
    - cbn in Hp. congruence.
  Qed.

  (** ** Theorems *)

  (** C68: the height of a packed tree is logarithmic in the number of its
      entries: a tree of level [2 + n] has more than
      [max_key_branches * max_summary_branches ^ n] entries. *)
  Theorem C68_height s i n :
    reach no_repair cfg sec s -> says_packed (sy_fo s) (snapshot (sy_b s)) true ->
    b_root (sy_b s) = Some i -> ilevel i = 2 + n ->
    max_key_branches cfg * max_summary_branches cfg ^ n < builder_count (sy_b s).
  Proof.
    intros R P E El. pose proof (reach_wide cfg sec Hcfg _ _ R) as (W & _).
    destruct (reach_b cfg sec Hcfg _ _ R) as (t & I). pose proof (packed_b _ _ _ _ _ _ _ _ I P) as Hp.
    destruct I as (_ & _ & _ & Er & G). rewrite E in Er, W. destruct t as [t|]; [|discriminate]. injection Er as ->.
    destruct G as ((Rt & It & _ & Ps) & _). unfold builder_count. rewrite E, <- least_count_pow.
    exact (packed_height _ _ Rt It (eq_sym Hp) (Ps eq_refl) W _ El).
  Qed.

  (** At least two children per branch: the level is at most the binary
      logarithm and two more, whatever the configuration. *)
  Theorem C68_log s :
    reach no_repair cfg sec s -> says_packed (sy_fo s) (snapshot (sy_b s)) true ->
    height (sy_b s) <= 2 + Nat.log2 (builder_count (sy_b s)).
  Proof.
    intros R P. unfold height. destruct (b_root (sy_b s)) as [i|] eqn:E; [|cbn; lia]. cbn [level0].
    destruct (Nat.le_gt_cases (ilevel i) 2) as [|Hl]; [lia|].
    pose proof (C68_height s i (ilevel i - 2) R P E ltac:(lia)) as H. destruct Hcfg as (_ & Hk & Hs & _).
    assert (2 ^ (ilevel i - 2) <= max_summary_branches cfg ^ (ilevel i - 2)) by (apply Nat.pow_le_mono_l; lia).
    assert (H2 : 2 ^ (ilevel i - 2) <= builder_count (sy_b s)) by nia.
    apply Nat.log2_le_mono in H2. rewrite Nat.log2_pow2 in H2; lia.
  Qed.

  (** Each [extend_unpacked] on a tree that has entries makes it higher, however
      few items it appends and whatever the configuration. So the bounds above
      are lost after a few calls, until [pack] is called. *)
  Theorem C68_unpacked s items fo' b' :
    reach anything cfg sec s -> builder_count (sy_b s) <> 0 -> items <> [] ->
    extend_unpacked (sy_fo s) (sy_b s) items = (Ok tt, fo', b') ->
    height (sy_b s) < height b'.
  Proof.
    intros R Hc Hi E. destruct (reach_b cfg sec Hcfg _ _ R) as (t & _ & Es & Ec & _).
    unfold builder_count in Hc. unfold extend_unpacked in E. rewrite Es, Ec in E. unfold height.
    destruct (b_root (sy_b s)) as [a|]; [|easy]. destruct (run (sy_fo s) (sy_b s) _) as [[r0 fo1] b1] eqn:Erun.
    apply run_inv in Erun as (Em & _). destruct r0 as [i|e|p0|]; try discriminate. injection E as <- <-.
    destruct (ok_extend_unpacked0_up cfg sec a _ _ Hi _ _ Em) as (j & -> & H). exact H.
  Qed.

  Lemma reach_anything k s : reach k cfg sec s -> reach anything cfg sec s.
  Proof.
    intros (s0 & H0 & H). exists s0. split; [exact H0|]. induction H as [|s o r s' H IH Hok Hin E]; [constructor|].
    econstructor; eauto. destruct o; easy.
  Qed.

  (** With C66: [push] on a packed tree writes a logarithmic number of blocks. *)
  Theorem C68_push s k v r fo' b' : 2 <= max_key_branches cfg ->
    reach no_repair cfg sec s -> says_packed (sy_fo s) (snapshot (sy_b s)) true ->
    push (sy_fo s) (sy_b s) k v = (r, fo', b') ->
    exists n, wrote_blocks (sy_fo s) fo' n /\ n <= 2 * Nat.log2 (builder_count (sy_b s)) + 7.
  Proof.
    intros Hkeys R P E. pose proof (C68_log s R P) as Hl.
    destruct (C66_push cfg sec Hcfg Hkeys s k v r fo' b' (reach_anything _ _ R) E) as (n & H1 & H2). exists n. split; [exact H1|]. lia.
  Qed.
End Height.

Section Meter.
  Context {T : Types} {TL : TypesLaws T} {X : Ext} {XL : ExtLaws X}
          {B : Backend T} {BL : BackendLaws T B}.
  Variable cfg : Config.
  Variable sec : Secrets.
  Hypothesis Hcfg : config_ok cfg.
  Notation key := (index_key sec).

  (** [seen] counts the blocks the store was asked for, or fewer. *)
  Definition meter (seen : Store -> nat) : Prop := forall s l, seen (snd (sget s l)) <= S (seen s).

  Variable seen : Store -> nat.
  Hypothesis Hseen : meter seen.

  (** [m] asks for at most [n] blocks. *)
  Definition within {A} (m : M A) (n : nat) : Prop :=
    forall w r w', wok key w -> m w = (r, w') -> seen (w_store w') <= seen (w_store w) + n.

  Lemma within_ret {A} (a : A) n : within (ret a) n.
  Proof. intros w r w' _ [= <- <-]. lia. Qed.
  Lemma within_lift {A} (a : res A) n : within (lift a) n.
  Proof. intros w r w' _ [= <- <-]. lia. Qed.
  Lemma within_fail {A} e n : within (@fail _ _ A e) n.
  Proof. intros w r w' _ [= <- <-]. lia. Qed.
  Lemma within_mpanic {A} e n : within (@mpanic _ _ A e) n.
  Proof. intros w r w' _ [= <- <-]. lia. Qed.
  Lemma within_more {A} (m : M A) n n' : within m n -> n <= n' -> within m n'.
  Proof. intros H Hn w r w' W E. specialize (H _ _ _ W E). lia. Qed.
  Lemma within_bind {A C} (m : M A) (f : A -> M C) n n' :
    frame (rext key) m -> within m n -> (forall a, within (f a) n') -> within (mbind m f) (n + n').
  Proof.
    intros Fm Hm Hf w r w' W E. unfold mbind in E. destruct (m w) as [ra w1] eqn:Em.
    pose proof (Fm _ _ _ Em) as (F1 & _). specialize (Hm _ _ _ W Em).
    destruct ra; try (injection E as <- <-; lia). specialize (Hf _ _ _ _ (proj1 F1 W) E). lia.
  Qed.
  (** The same if the first part can only return [a]. *)
  Lemma within_rd {A C} (m : M A) (f : A -> M C) P a n n' :
    frame (rext key) m -> rd sec m P a -> within m n -> within (f a) n' -> within (mbind m f) (n + n').
  Proof.
    intros Fm Hr Hm Hf w r w' W E. unfold mbind in E. destruct (m w) as [ra w1] eqn:Em.
    pose proof (Fm _ _ _ Em) as (F1 & _). specialize (Hm _ _ _ W Em). destruct (Hr _ _ _ W Em) as [[->|[e ->]] _].
    - specialize (Hf _ _ _ (proj1 F1 W) E). lia.
    - injection E as <- <-. lia.
  Qed.

  Lemma within_get_block l : within (get_block l) 1.
  Proof.
    intros w r w' _ E. unfold get_block in E. pose proof (Hseen (w_store w) l) as H.
    destruct (sget (w_store w) l) as [[d|] s']; injection E as <- <-; cbn in *; lia.
  Qed.
  Lemma within_load_leaf l : within (load_leaf_from_link sec l) 1.
  Proof.
    unfold load_leaf_from_link. change 1 with (1 + 0). apply within_bind; [apply rf_get_block|apply within_get_block|].
    intros d. change 0 with (0 + 0) at 1. apply within_bind; [apply rf_lift|apply within_lift|]. intros [z ?]. apply within_ret.
  Qed.
  Lemma within_load_branch l : within (load_branch_from_link sec l) 1.
  Proof.
    unfold load_branch_from_link. change 1 with (1 + 0). apply within_bind; [apply rf_get_block|apply within_get_block|].
    intros d. change 0 with (0 + 0) at 1. apply within_bind; [apply rf_lift|apply within_lift|]. intros r.
    unfold new_branch_data. destruct (fst r); [apply within_mpanic|apply within_ret].
  Qed.
  Lemma within_cached l : within (load_branch_cached sec l) 1.
  Proof.
    intros w r w' W E. unfold load_branch_cached, mbind at 1 in E. destruct (cache_get l w) as [o w1] eqn:Ec.
    pose proof (rf_cache_get sec _ _ _ _ Ec) as F. unfold cache_get in Ec.
    destruct (cget (w_cache w) l) as [b c]; injection Ec as <- <-. destruct b as [b|]; [injection E as <- <-; cbn; lia|].
    unfold mbind in E. destruct (load_branch_from_link sec l (set_cache w c)) as [rb w2] eqn:El.
    pose proof (within_load_branch l _ _ _ (proj1 (proj1 F) W) El) as H. cbn in H.
    destruct rb; injection E as <- <-; cbn; lia.
  Qed.

  Lemma within_get0 lim d : forall t off, repr sec lim t -> ilevel (root_ix t) < d ->
    within (get0 sec d (root_ix t) off) (S (ilevel (root_ix t))).
  Proof.
    revert lim. induction d as [|d IH]; intros lim t off R Hd; [lia|].
    cbn [get0]. destruct (Nat.leb (icount (root_ix t)) off); [apply within_ret|].
    destruct t as [x vs|x|x cs|x]; cbn [root_ix node_info_of ilevel] in *.
    - destruct (repr_leaf_avail sec _ _ _ R) as (l & z & Hl & _). rewrite Hl.
      destruct (nth_error (leaf_keys x) off); [|apply within_mpanic].
      change 1 with (1 + 0). apply within_bind; [apply rf_load_leaf_from_link|apply within_load_leaf|]. intros z'.
      change 0 with (0 + 0) at 1. apply within_bind; [apply rf_lift|apply within_lift|]. intros v. apply within_ret.
    - cbn in R. rewrite R. apply within_ret.
    - destruct (repr_branch_load sec _ _ _ R) as (l & r & Hl & Hld & Hch & _ & _ & _ & _ & Hlv). rewrite Hl.
      change (S (bi_level x)) with (1 + bi_level x).
      eapply within_rd; [apply rf_load_branch_cached|apply (Hld (fun s => avail_branches s (TBranch x cs))); auto|apply within_cached|].
      cbn [br_children]. clear R Hld Hl. revert off. induction cs as [|c cs IHcs]; intros off; [apply within_fail|].
      inversion Hch; subst. inversion Hlv; subst. cbn [map]. destruct (Nat.ltb off (icount (root_ix c))); [|now apply IHcs].
      eapply within_more; [eapply IH; eauto; lia|lia].
    - cbn in R. rewrite R. apply within_ret.
  Qed.

  Lemma within_is_packed0 lim d : forall t, repr sec lim t -> ilevel (root_ix t) < d ->
    within (is_packed0 sec d (root_ix t)) (ilevel (root_ix t)).
  Proof.
    revert lim. induction d as [|d IH]; intros lim t R Hd; [lia|].
    destruct t as [x vs|x|x cs|x]; cbn [root_ix is_packed0 node_info_of ilevel] in *.
    - destruct (li_link x); apply within_ret.
    - destruct (li_link x); apply within_ret.
    - destruct (repr_branch_load sec _ _ _ R) as (l & r & Hl & Hld & Hch & _ & _ & _ & Hne & Hlv). rewrite Hl.
      destruct (bi_sealed x); [apply within_ret|]. destruct (exists_last Hne) as (cs0 & last & ->).
      apply Forall_app in Hch as [_ Hch], Hlv as [_ Hlv]. apply Forall_inv in Hch. apply Forall_inv in Hlv.
      replace (bi_level x) with (1 + (bi_level x - 1)) by lia.
      eapply within_rd; [apply rf_load_branch_cached|eapply (Hld (fun s => avail_branches s (TBranch x (cs0 ++ [last])))); auto|apply within_cached|].
      cbn [br_children]. rewrite map_app, rev_app_distr. cbn [map rev app].
      eapply within_more; [apply (within_bind _ _ (ilevel (root_ix last)) 0); [apply rf_is_packed0| |intros; apply within_ret]|lia].
      eapply IH; eauto. lia.
    - cbn in R. rewrite R. apply within_ret.
  Qed.

  (** How many nodes a tree has. *)
  Fixpoint nodes (t : tree) : nat :=
    match t with
    | TBranch _ cs => S ((fix go (l : list tree) : nat := match l with [] => 0 | c :: l' => nodes c + go l' end) cs)
    | _ => 1
    end.
  Definition nodes_all (cs : list tree) : nat := sum_nat (map nodes cs).
  Lemma nodes_branch x cs : nodes (TBranch x cs) = S (nodes_all cs).
  Proof. cbn [nodes]. f_equal. induction cs as [|c cs IH]; [easy|]. rewrite IH. easy. Qed.

  Lemma gdump_nodes {S} (f : nat -> Index -> S) t : forall p id, List.length (snd (gdump f p id t)) = nodes t.
  Proof.
    induction t as [x vs|x|x cs IH|x] using tree_ind'; intros p id; try easy. rewrite nodes_branch. cbn [gdump].
    assert (G : forall cur edges nds, List.length (snd (
        (fix go (cs : list tree) (cur : nat) edges nodes :=
           match cs with
           | [] => (edges, nodes)
           | c :: cs' =>
               let '(e, n) := gdump f (Some id) (cur + 1) c in
               go cs' (cur + List.length n) (edges ++ e) (nodes ++ n)
           end) cs cur edges nds)) = List.length nds + nodes_all cs).
    { induction IH as [|c cs Hc _ IHcs]; intros cur edges nds; [cbn; lia|].
      specialize (Hc (Some id) (cur + 1)). destruct (gdump f (Some id) (cur + 1) c) as [e n]. cbn [snd] in Hc.
      rewrite IHcs, app_length, Hc. change (nodes_all (c :: cs)) with (nodes c + nodes_all cs). lia. }
    rewrite G. cbn. lia.
  Qed.

  Lemma within_collect0 lim d : forall t off, repr sec lim t -> ilevel (root_ix t) < d ->
    within (collect0 sec d (root_ix t) off) (nodes t).
  Proof.
    revert lim. induction d as [|d IH]; intros lim t off R Hd; [lia|].
    cbn [collect0]. destruct (Nat.leb (icount (root_ix t)) off); [apply within_ret|].
    destruct t as [x vs|x|x cs|x]; cbn [root_ix node_info_of ilevel] in *.
    - destruct (repr_leaf_avail sec _ _ _ R) as (l & z & Hl & _). rewrite Hl.
      change (nodes (TLeaf x vs)) with (1 + 0). apply within_bind; [apply rf_load_leaf_from_link|apply within_load_leaf|]. intros z'.
      change 0 with (0 + 0) at 1. apply within_bind; [apply rf_lift|apply within_lift|]. intros v. apply within_ret.
    - cbn in R. rewrite R. apply within_ret.
    - destruct (repr_branch_load sec _ _ _ R) as (l & r & Hl & Hld & Hch & _ & _ & _ & _ & Hlv). rewrite Hl.
      rewrite nodes_branch. change (S (nodes_all cs)) with (1 + nodes_all cs).
      eapply within_rd; [apply rf_load_branch_cached|apply (Hld (fun s => avail_branches s (TBranch x cs))); auto|apply within_cached|].
      cbn [br_children]. clear R Hld Hl. revert off. induction cs as [|c cs IHcs]; intros off; [apply within_ret|].
      inversion Hch; subst. inversion Hlv; subst. cbn [map]. change (nodes_all (c :: cs)) with (nodes c + nodes_all cs).
      apply within_bind.
      + destruct (Nat.ltb off (icount (root_ix c))); [apply rf_collect0|apply rf_ret].
      + destruct (Nat.ltb off (icount (root_ix c))); [eapply IH; eauto; lia|apply within_ret].
      + intros r1. replace (nodes_all cs) with (nodes_all cs + 0) by lia. apply within_bind; [|now apply IHcs|intros; apply within_ret].
        generalize (off - icount (root_ix c)). clear -TL XL BL. induction cs as [|c' cs IH]; intros off; [apply rf_ret|]. cbn [map].
        apply rf_bind; [destruct (Nat.ltb off (icount (root_ix c'))); [apply rf_collect0|apply rf_ret]|].
        intros. apply rf_bind; [apply IH|]. intros. apply rf_ret.
    - cbn in R. rewrite R. apply within_ret.
  Qed.

  (** Between [fo] and [fo'] the store was asked for at most [n] blocks. *)
  Definition asked (fo fo' : Forest) (n : nat) : Prop := seen (fo_store fo') <= seen (fo_store fo) + n.

  Lemma read_asked {A} fo (m : M A) n r fo' : fok sec fo -> within m n -> read fo m = (r, fo') -> asked fo fo' n.
  Proof.
    intros F Hm E. unfold read in E. destruct (m _) as [r0 w] eqn:Em in E. injection E as <- <-.
    exact (Hm _ _ _ F Em).
  Qed.

  Lemma known_repr s t i sec' o : reach anything cfg sec s -> known s t -> t = Some (i, sec', o) ->
    fok sec (sy_fo s) /\ sec' = sec /\ exists lim g, root_ix g = i /\ repr sec lim g.
  Proof.
    intros R K ->. destruct (known_good cfg sec Hcfg _ _ _ R K) as (F & -> & lim & g & G).
    split; [exact F|]. split; [easy|]. pose proof (snap_repr _ _ _ _ _ _ _ _ G) as Rg. destruct G as (<- & _). eauto.
  Qed.

  (** ** Theorems *)

  (** C67: looking up an entry asks the store for at most one block per level
      of the tree. *)
  Theorem C67_get s t i sec' o off r fo' :
    reach anything cfg sec s -> known s t -> t = Some (i, sec', o) ->
    get (sy_fo s) t off = (r, fo') -> asked (sy_fo s) fo' (ilevel i + 1).
  Proof.
    intros R K Et E. destruct (known_repr _ _ _ _ _ R K Et) as (F & -> & lim & g & <- & Rg). subst t.
    eapply read_asked; [exact F| |exact E]. rewrite Nat.add_1_r. eapply within_get0; [exact Rg|unfold depth; lia].
  Qed.

  (** [is_packed] reads no leaf. *)
  Theorem C67_is_packed s t i sec' o r fo' :
    reach anything cfg sec s -> known s t -> t = Some (i, sec', o) ->
    is_packed (sy_fo s) t = (r, fo') -> asked (sy_fo s) fo' (ilevel i).
  Proof.
    intros R K Et E. destruct (known_repr _ _ _ _ _ R K Et) as (F & -> & lim & g & <- & Rg). subst t.
    eapply read_asked; [exact F| |exact E]. eapply within_is_packed0; [exact Rg|unfold depth; lia].
  Qed.

  (** Reading everything, from any offset, asks at most once for each of the
      nodes that [dump_graph] lists. *)
  Theorem C67_collect {S} s t (f : nat -> Index -> S) edges nds fo1 off r fo' :
    reach anything cfg sec s -> known s t ->
    dump_graph (sy_fo s) t f = (Ok (edges, nds), fo1) ->
    collect_from (sy_fo s) t off = (r, fo') -> asked (sy_fo s) fo' (List.length nds).
  Proof.
    intros R K Ed E. destruct t as [[[i sec'] o]|]; [|injection E as <- <-; unfold asked; lia].
    destruct (known_good cfg sec Hcfg _ _ _ R K) as (F & -> & lim & g & G).
    destruct (dump_graph_snap _ _ _ _ f _ _ _ _ _ _ _ F G Ed) as (_ & [H|(e & H)] & _); [|discriminate].
    injection H as H. assert (Hn : nds = snd (gdump f None 0 g)) by (now rewrite <- H). rewrite Hn, gdump_nodes.
    pose proof (snap_repr _ _ _ _ _ _ _ _ G) as Rg. destruct G as (<- & _).
    eapply read_asked; [exact F| |exact E]. eapply within_collect0; [exact Rg|unfold depth; lia].
  Qed.

  (** With C68: on a packed tree a lookup asks for a logarithmic number of blocks. *)
  Theorem C67_packed s off r fo' :
    reach no_repair cfg sec s -> says_packed (sy_fo s) (snapshot (sy_b s)) true ->
    get (sy_fo s) (snapshot (sy_b s)) off = (r, fo') ->
    asked (sy_fo s) fo' (Nat.log2 (builder_count (sy_b s)) + 3).
  Proof.
    intros R P E. pose proof (C68_log cfg sec Hcfg s R P) as Hl. unfold height in Hl.
    destruct (snapshot (sy_b s)) as [[[i sec'] o]|] eqn:Es; [|injection E as <- <-; unfold asked; lia].
    pose proof (C67_get s (snapshot (sy_b s)) i sec' o off r fo' (reach_anything cfg sec _ _ R) (or_introl eq_refl) Es) as H.
    rewrite Es in H. specialize (H E). unfold snapshot in Es. destruct (b_root (sy_b s)) as [j|]; [|discriminate].
    injection Es as -> _ _. cbn in Hl. unfold asked in *. lia.
  Qed.
End Meter.

(** ** The hypotheses are met, and how close the bounds are *)

(** Twelve entries in a packed tree of height 3: more than 2 * 2 ^ 1. *)
Example C68_case_packed : fst (is_packed (sy_fo st2) (snapshot (sy_b st2))) = Ok true. Proof. vm_compute; reflexivity. Qed.
Example C68_case : reach no_repair ecfg esec st2 /\ says_packed (sy_fo st2) (snapshot (sy_b st2)) true.
Proof. split; [exact (no_loss_no_repair _ st2_ok)|exact (packed_c _ _ _ C68_case_packed)]. Qed.
Example C68_case_height : height (sy_b st2) = 3 /\ builder_count (sy_b st2) = 12. Proof. vm_compute; auto. Qed.
(** Nine entries, appended one by one: a tree of height 9. *)
Definition st68u : sys := state no_loss 1000000 (map (fun n => OExtendUnpacked (pairs n 1)) (seq 0 9)).
Example C68_case_unpacked_reach : reach no_loss ecfg esec st68u. Proof. reached. Qed.
Example C68_case_unpacked : height (sy_b st68u) = 9 /\ builder_count (sy_b st68u) = 9
  /\ fst (is_packed (sy_fo st68u) (snapshot (sy_b st68u))) = Ok false.
Proof. vm_compute; auto. Qed.
(** After [pack]. *)
Example C68_case_pack : match pack (sy_fo st68u) (sy_b st68u) with
  | (Ok _, _, b') => (height b', builder_count b') = (3, 9)
  | _ => False
  end.
Proof. vm_compute; auto. Qed.

(** A store that counts requests, and no cache. *)
Definition CBackend : Backend ITypes := {|
  Store := nat * IStore;
  sblocks := fun s => @sblocks ITypes IBackend (snd s);
  sget := fun s l => let '(r, s') := @sget ITypes IBackend (snd s) l in (r, (S (fst s), s'));
  sput := fun s d => let '(r, s') := @sput ITypes IBackend (snd s) d in (r, (fst s, s'));
  digest := @digest ITypes IBackend;
  Cache := unit;
  cin := fun _ _ _ => False;
  cget := fun c _ => (None, c);
  cput := fun c _ _ => c
|}.
Lemma CBackendLaws : BackendLaws ITypes CBackend.
Proof.
  constructor; cbn [CBackend Store sblocks sget sput digest Cache cin cget cput]; intros; try easy.
  - injection H as _ <-. exact H0.
  - injection H as _ <-. auto.
  - injection H as H <-. exact H.
  - destruct (@sput ITypes IBackend (snd s) d) as [r1 s1] eqn:E. injection H as <- <-. eapply sput_keeps; [exact E|exact H0].
  - destruct (@sput ITypes IBackend (snd s) d) as [r1 s1] eqn:E. injection H as <- <-. eapply sput_adds; [exact E|exact H0].
  - destruct (@sput ITypes IBackend (snd s) d) as [r1 s1] eqn:E. injection H as -> <-. eapply sput_link; exact E.
Qed.

Section Counting.
  Local Existing Instance CBackend.
  Local Existing Instance CBackendLaws.

  Example C67_case_meter : meter (fst : @Store ITypes CBackend -> nat).
  Proof. intros s l. cbn. lia. Qed.

  Definition c0 : @sys ITypes CBackend :=
    {| sy_fo := {| fo_store := ((0, (1000000%N, [])) : @Store ITypes CBackend); fo_cache := (tt : @Cache ITypes CBackend); fo_log := [] |};
       sy_se := {| se_b := builder_new ecfg esec; se_saved := [] |};
       sy_snaps := [] |}.
  Definition o1 : @op ITypes CBackend := OExtend (pairs 0 12).
  Definition c1 : @sys ITypes CBackend := snd (exec o1 c0).
  Example C67_case_reach : reach no_repair ecfg esec c1.
  Proof.
    exists c0. split; [splits; try easy|]. apply (hist_step _ _ c0 o1 (fst (exec o1 c0))).
    - constructor.
    - exact Logic.I.
    - exact Logic.I.
    - apply surjective_pairing.
  Qed.

  (** Whether it is packed, the height, and the blocks read by [get], [is_packed], [collect]. *)
  Definition reads_of {A} (r : res A * @Forest ITypes CBackend) : nat :=
    fst (fo_store (snd r)) - fst (fo_store (sy_fo c1)).
  Example C67_case : height (sy_b c1) = 3 /\ fst (is_packed (sy_fo c1) (snapshot (sy_b c1))) = Ok true
    /\ fst (get (sy_fo c1) (snapshot (sy_b c1)) 7) = Ok (Some (7%N, 107%N))
    /\ reads_of (get (sy_fo c1) (snapshot (sy_b c1)) 7) = 4
    /\ reads_of (is_packed (sy_fo c1) (snapshot (sy_b c1))) = 2
    /\ reads_of (collect (sy_fo c1) (snapshot (sy_b c1))) = 12
    /\ rmap (fun x => List.length (snd x)) (fst (dump_graph (sy_fo c1) (snapshot (sy_b c1)) (fun _ _ => tt))) = Ok 12.
  Proof. vm_compute; repeat split. Qed.
End Counting.

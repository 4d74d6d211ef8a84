(** Repairing: forgets only what cannot be loaded. *)
From Coq Require Import List NArith ZArith Lia Bool String Arith.
From Verif Require Import Base BaseProofs Cbor Types Seq SeqProofs Query QuerySpec World Read Write Ghost Frame ReadProofs Packable WriteProofs QueryProofs RetainProofs.
Import ListNotations.
#[local] Coercion s_now : Setting >-> Config.

Section RepairProofs.
  Context {T : Types} {TL : TypesLaws T} {X : Ext} {XL : ExtLaws X}
          {B : Backend T} {BL : BackendLaws T B} {Rl : Rel T X B}.
  Variable cfg : Setting.
  Variable sec : Secrets.
  Notation key := (index_key sec).
  Hypothesis Hcfg : setting_ok cfg.
  Variable Sf : Prop.
  Notation gd := (gd cfg sec True False).

  Definition stored (s : Store) (l : option L) : bool :=
    match l with
    | Some l => match sblocks s l with Some _ => true | None => false end
    | None => false
    end.

  (** Events with a missing (or undecodable) block on their path. *)
  Fixpoint lost (s : Store) (t : tree) : list bool :=
    match t with
    | TLeaf x _ => repeat (negb (stored s (li_link x))) (List.length (leaf_keys x))
    | TLeafP x => repeat false (List.length (leaf_keys x))
    | TBranch x cs =>
        if stored s (bi_link x) && fits (idxs_raw (map root_ix cs)) then flat_map (lost s) cs
        else repeat true (bi_count x)
    | TBranchP x => repeat false (bi_count x)
    end.

  Lemma lost_length s sec' lim t : repr sec' lim t -> List.length (lost s t) = icount (root_ix t).
  Proof.
    revert lim. induction t using tree_ind'; intros lim R; cbn [lost].
    1, 2, 4: apply repeat_length.
    apply repr_branch in R as (A1 & A2 & A3 & A4 & blk & r & A5 & A6 & A7 & A8).
    destruct (_ && _); [|apply repeat_length]. cbn. rewrite A2. clear -H A8. induction cs as [|c cs IH]; cbn; [easy|].
    inversion H; subst. inversion A8; subst. rewrite app_length, IH by auto. erewrite H2; eauto.
  Qed.

  Definition imp (a b : bool) : Prop := a = true -> b = true.

  Lemma Forall2_repeat2 {A} (R : A -> A -> Prop) a b n : R a b -> Forall2 R (repeat a n) (repeat b n).
  Proof. intros H. induction n; constructor; auto. Qed.

  Lemma Forall2_true l : Forall2 imp l (repeat true (List.length l)).
  Proof. induction l; constructor; auto. now intros _. Qed.

  Lemma stored_mono s s' l : (forall l d, sblocks s l = Some d -> sblocks s' l = Some d) ->
    stored s l = true -> stored s' l = true.
  Proof.
    intros H. destruct l as [l|]; cbn; [|easy]. destruct (sblocks s l) eqn:E; [|easy]. now rewrite (H _ _ E).
  Qed.

  Lemma lost_mono s s' t : (forall l d, sblocks s l = Some d -> sblocks s' l = Some d) ->
    forall lim, repr sec lim t -> Forall2 imp (lost s' t) (lost s t).
  Proof.
    intros Hs. induction t using tree_ind'; intros lim R.
    1: { apply Forall2_repeat2. intros E. destruct (stored s (li_link x)) eqn:E1; [|easy].
         now rewrite (stored_mono _ _ _ Hs E1) in E. }
    1, 3: apply Forall2_repeat2; easy.
    pose proof (lost_length s' _ _ _ R) as L. cbn [root_ix icount] in L.
    apply repr_branch in R as (A1 & A2 & A3 & A4 & blk & r & A5 & A6 & A7 & A8).
    cbn [lost] in *. destruct (stored s (bi_link x) && fits _) eqn:E.
    - apply andb_prop in E as [E1 E2]. rewrite (stored_mono _ _ _ Hs E1), E2. cbn [andb].
      clear -H A8. induction cs as [|c cs IH]; cbn; [constructor|].
      inversion H; subst. inversion A8; subst. apply Forall2_app; eauto.
    - rewrite <- L at 2. apply Forall2_true.
  Qed.

  Lemma lost_avail s t : forall lim, repr sec lim t -> inv cfg t -> Forall (fun b => b = false) (lost s t) -> avail s t.
  Proof.
    induction t using tree_ind'; intros lim R I0 H0; try exact I.
    - split; [|apply I0]. destruct R as (R & blk & r & R1 & _). cbn [lost] in H0. cbn in I0.
      destruct (leaf_keys x); [cbn in I0; lia|]. cbn in H0. apply Forall_inv in H0. rewrite R1 in *. cbn in H0.
      destruct (sblocks s (digest blk)) eqn:E; [eauto|discriminate].
    - pose proof (tree_nonempty _ _ _ _ R I0) as Hne. cbn in Hne.
      apply repr_branch in R as (A1 & A2 & A3 & A4 & blk & r & A5 & A6 & A7 & A8).
      apply invs_branch in I0 as (_ & _ & _ & _ & I5).
      cbn [lost] in H0. destruct (_ && _) eqn:E.
      2:{ destruct (bi_count x); [lia|]. cbn in H0. now apply Forall_inv in H0. }
      apply andb_prop in E as [E1 E2]. apply avail_branch. split; [|split; [easy|]].
      + rewrite A5 in *. cbn in E1. destruct (sblocks s (digest blk)) eqn:E; [eauto|discriminate].
      + clear -H A8 I5 H0. induction cs as [|c cs IH]; constructor; cbn in H0; apply Forall_app in H0 as [H1 H2];
          inversion H; inversion A8; inversion I5; subst; eauto.
  Qed.

  (** Entry by entry: unchanged, or forgotten; and forgotten only if lost when
      the store is reliable. *)
  Fixpoint forgets (c : list (option (K * V))) (ls : list bool) (c' : list (option (K * V))) : Prop :=
    match c, ls, c' with
    | [], [], [] => True
    | e :: c, l :: ls, e' :: c' =>
        (e' = e \/ (e' = None /\ (ReliableReads T B -> l = true))) /\ forgets c ls c'
    | _, _, _ => False
    end.

  Lemma forgets_refl c ls : List.length ls = List.length c -> forgets c ls c.
  Proof. revert ls; induction c as [|e c IH]; intros [|l ls] H; try discriminate; cbn; auto. Qed.

  Lemma forgets_app c1 ls1 c1' c2 ls2 c2' :
    forgets c1 ls1 c1' -> forgets c2 ls2 c2' -> forgets (c1 ++ c2) (ls1 ++ ls2) (c1' ++ c2').
  Proof.
    revert ls1 c1'; induction c1 as [|e c IH]; intros [|l ls] [|e' c'] H1 H2; cbn in *; try easy.
    destruct H1. split; auto.
  Qed.

  Lemma forgets_mono c ls ls' c' : Forall2 imp ls ls' -> forgets c ls c' -> forgets c ls' c'.
  Proof.
    intros H. revert c c'; induction H as [|a b ls ls' H1 H2 IH]; intros [|e c] [|e' c'] F; cbn in *; try easy.
    destruct F as [[F|[F G]] F']; split; auto.
  Qed.

  Lemma forgets_all c ls : List.length ls = List.length c ->
    (ReliableReads T B -> Forall (fun b => b = true) ls) ->
    forgets c ls (repeat None (List.length c)).
  Proof.
    revert ls; induction c as [|e c IH]; intros [|l ls] H G; try discriminate; cbn; auto. split.
    - right. split; [easy|]. intros r. apply G in r. now inversion r.
    - apply IH; [now injection H|]. intros r. apply G in r. now inversion r.
  Qed.

  Lemma forgets_nth c ls c' : forgets c ls c' ->
    List.length c' = List.length c /\
    forall i e, nth_error c i = Some e ->
      nth_error c' i = Some e
      \/ (nth_error c' i = Some None /\ (ReliableReads T B -> nth_error ls i = Some true)).
  Proof.
    revert ls c'; induction c as [|e0 c IH]; intros [|l ls] [|e' c'] H; cbn in H; try easy.
    - split; [easy|]. intros [|i]; discriminate.
    - destruct H as [H1 H2]. apply IH in H2 as [H2 H3]. split; [cbn; congruence|].
      intros [|i] e E; cbn in *; [|now apply H3]. injection E as ->. destruct H1 as [->|[-> H1]]; auto.
      right. split; [easy|]. intros r. now rewrite (H1 r).
  Qed.

  (** Success of a load means that the block is there. *)
  Lemma load_branch_ok l w b w' blk cs r : wok key w ->
    branch_block key blk cs r -> l = digest blk ->
    load_branch_from_link sec l w = (Ok b, w') ->
    stored (w_store w') (Some l) = true /\ fits (idxs_raw cs) = true.
  Proof.
    intros W Hb -> E. pose proof (rf_load_branch_from_link sec _ _ _ _ E) as (Hw & _). apply Hw in W as [W1 W2]. unfold load_branch_from_link, mbind, get_block, lift in E.
    destruct (sget (w_store w) (digest blk)) as [[d|] s] eqn:G; [|discriminate].
    apply sget_sound in G.
    assert (Hs : w_store w' = s).
    { destruct (deserialize_compressed _ _) as [[cs0 r0]|e|p|]; try discriminate.
      unfold new_branch_data in E. cbn [fst] in E. destruct cs0; [discriminate|]. now injection E as _ <-. }
    rewrite Hs in *. cbn [stored]. rewrite G. split; [easy|].
    apply W1 in G. apply digest_inj in G as <-.
    rewrite (deserialize_spec _ _ _ _ Hb) in E. destruct (fits (idxs_raw cs)); [easy|discriminate].
  Qed.

  Lemma load_leaf_ok l w b w' : load_leaf_from_link sec l w = (Ok b, w') -> stored (w_store w') (Some l) = true.
  Proof.
    intros E. unfold load_leaf_from_link, mbind, get_block, lift in E.
    destruct (sget (w_store w) l) as [[d|] s] eqn:G; [|discriminate].
    apply sget_sound in G. destruct (decrypt _ _ _) as [[z0 r]|e|p|]; try discriminate.
    injection E as _ <-. cbn. now rewrite G.
  Qed.

  Definition repaired (w : world) (t : tree) (p : Index * list report * option Z) (w' : world) : Prop :=
    exists t', fst (fst p) = root_ix t' /\ gd w' t' /\ same t t'
      /\ (ilink (root_ix t') = ilink (root_ix t) -> t' = t)
      /\ forgets (content t) (lost (w_store w) t) (content t')
      /\ (snd (fst p) = [] -> t' = t)
      /\ (ReliableReads T B -> avail (w_store w) t -> snd (fst p) = []).

  Lemma post_try {A C} (m : M A) (f : A + error -> M C) w S Q R :
    frame (wext key) m ->
    (forall a w', m w = (Ok a, w') -> wext key w w' -> Q (inl a) w') ->
    (forall e w', m w = (Err e, w') -> wext key w w' -> Q (inr e) w') ->
    (forall e w', m w = (Panic e, w') -> False) -> (forall w', m w = (NoFuel, w') -> False) ->
    (forall r w', wext key w w' -> Q r w' -> post (f r) w' S R) -> post (mbind (try m) f) w S R.
  Proof.
    unfold post, mbind, try. intros Fm H1 H2 H3 H4 H5. destruct (m w) as [[a|e|p|] w'] eqn:E.
    - pose proof (Fm _ _ _ E). apply H5; auto.
    - pose proof (Fm _ _ _ E). apply H5; auto.
    - destruct (H3 _ _ eq_refl).
    - destruct (H4 _ eq_refl).
  Qed.

  Lemma ok_in_leaf w x vs l : li_link x = Some l -> stored (w_store w) (Some l) = true ->
    fits (vals_raw vs) = true -> ok_in w (TLeaf x vs).
  Proof.
    intros Hl Hs Hf _. split; [|easy]. cbn in Hs. destruct (sblocks (w_store w) l) eqn:E; [|discriminate]. eauto.
  Qed.

  Lemma rd_from {A} (m : M A) P a w r w' : wok key w -> rd sec m P a -> m w = (r, w') ->
    (r = Ok a \/ exists e, r = Err e) /\ (ReliableReads T B -> P (w_store w) -> r = Ok a).
  Proof. intros W H E. exact (H _ _ _ W E). Qed.

  Lemma repr_purge_leaf x : repr sec 0 (TLeafP (leaf_set_link x None)).
  Proof. reflexivity. Qed.

  Lemma post_repair0 d : forall t cur w, wok key w -> repr sec (w_off w) t -> inv cfg t -> ilevel (root_ix t) < d ->
    post (repair0 cfg sec d (root_ix t) cur) w Sf (repaired w t).
  Proof.
    induction d as [|d IH]; intros t cur w W R I Hd; [lia|].
    pose proof (lost_length (w_store w) _ _ _ R) as Ll. pose proof (length_content _ _ _ R) as Lc.
    destruct t as [x vs|x|x cs|x]; cbn [root_ix repair0].
    - (* leaf *)
      destruct (repr_leaf_avail _ _ _ _ R) as (l & z & Hl & Z1 & _).
      eapply post_try with (Q := fun r w' => match r with
          | inl _ => stored (w_store w') (Some l) = true
          | inr _ => ReliableReads T B -> stored (w_store w) (Some l) = false end).
      + apply wf_r, rf_load_leaf.
      + intros a w' E _. unfold load_leaf in E. rewrite Hl in E. unfold mbind in E.
        destruct (load_leaf_from_link sec l w) as [[z'|e|p|] w1] eqn:E1; try discriminate.
        injection E as _ <-. now apply load_leaf_ok in E1.
      + intros e w' E _ Rel. unfold load_leaf in E. rewrite Hl in E. unfold mbind in E.
        destruct (load_leaf_from_link sec l w) as [[z'|e'|p|] w1] eqn:E1; try discriminate.
        destruct (stored (w_store w) (Some l)) eqn:E2; [|easy].
        apply (rd_from _ _ _ _ _ _ W Z1) in E1 as [_ E1].
        assert (C : Err e' = Ok z); [|discriminate]. apply E1; auto.
        split; [|apply I]. cbn in E2. destruct (sblocks (w_store w) l) eqn:E3; [eauto|discriminate].
      + intros p w' E. unfold load_leaf in E. rewrite Hl in E. unfold mbind in E.
        destruct (load_leaf_from_link sec l w) as [[z'|e'|p'|] w1] eqn:E1; try discriminate.
        apply (rd_from _ _ _ _ _ _ W Z1) in E1 as [[E1|[e E1]] _]; discriminate.
      + intros w' E. unfold load_leaf in E. rewrite Hl in E. unfold mbind in E.
        destruct (load_leaf_from_link sec l w) as [[z'|e'|p'|] w1] eqn:E1; try discriminate.
        apply (rd_from _ _ _ _ _ _ W Z1) in E1 as [[E1|[e E1]] _]; discriminate.
      + intros [o|e] w1 W1 Q; apply post_ret.
        * exists (TLeaf x vs). cbn [fst snd root_ix]. split; [easy|]. split.
          { split; [eapply repr_weaken; [|exact R]; eapply wext_off; eauto|]. split; [easy|]. split; [|easy].
            intros _. eapply ok_in_leaf; eauto. apply I. }
          splits; auto using same_refl. apply forgets_refl. congruence.
        * exists (TLeafP (leaf_set_link x None)). cbn [fst snd root_ix]. split; [easy|]. split.
          { split; [easy|]. split; [apply I|]. split; [|easy]. intros _ _. exact Logic.I. }
          split; [now repeat split|]. split; [cbn; rewrite Hl; discriminate|]. split; [|split; [discriminate|]].
          -- replace (content (TLeafP (leaf_set_link x None))) with (repeat (@None (K * V)) (List.length (content (TLeaf x vs)))).
             2:{ rewrite Lc. reflexivity. }
             apply forgets_all; [congruence|]. intros Rel. cbn [lost]. rewrite Hl, (Q Rel). apply Forall_forall.
             intros b Hb. now apply repeat_spec in Hb.
          -- intros Rel ((l' & d' & A1 & A2) & _). specialize (Q Rel). rewrite Hl in A1. injection A1 as <-.
             cbn in Q. now rewrite A2 in Q.
    - (* purged leaf *)
      cbn in R. unfold load_leaf. rewrite R.
      change (try (ret (@None zseq))) with (@ret T B _ (@inl (option zseq) error None)).
      eapply post_bind with (sec := sec) (Q := fun r w' => w' = w /\ r = inl None); [apply wf_ret|now apply post_ret|].
      intros r w' W1 [-> ->]. apply post_ret.
      exists (TLeafP x). cbn [fst snd root_ix]. split; [easy|]. split.
      { split; [easy|]. split; [easy|]. split; [|easy]. intros _ _. exact Logic.I. }
      splits; auto using same_refl. apply forgets_refl. congruence.
    - (* branch *)
      destruct (repr_branch_load _ _ _ _ R) as (l & r & Hl & Hld & Hch & Hr1 & Hr2 & Hrc & Hnec & Hlv).
      pose proof R as R'. apply repr_branch in R' as (_ & A2 & _ & _ & blk & r0 & A5 & A6 & A7 & A8).
      rewrite Hl in A5. injection A5 as A5.
      set (P := fun s => stored s (Some l) = true /\ fits (idxs_raw (map root_ix cs)) = true).
      assert (HP : rd sec (load_branch_from_link sec l) P {| br_children := map root_ix cs; br_range := r0 |}).
      { rewrite A5. eapply rd_weaken; [|apply rd_load_branch_from_link; [exact A6|]].
        - intros s [H1 H2]. split; [|easy]. rewrite A5 in H1. cbn in H1. destruct (sblocks s (digest blk)) eqn:E; [eauto|discriminate].
        - destruct cs; [congruence|discriminate]. }
      eapply post_try with (Q := fun r w' => match r with
          | inl (Some b) => br_children b = map root_ix cs /\ P (w_store w')
          | inl None => False
          | inr _ => ReliableReads T B -> ~ P (w_store w) end).
      + apply wf_r, rf_load_branch.
      + intros a w' E _. unfold load_branch in E. rewrite Hl in E. unfold mbind in E.
        destruct (load_branch_from_link sec l w) as [[b|e|p|] w1] eqn:E1; try discriminate.
        injection E as <- <-. pose proof E1 as E2.
        apply (rd_from _ _ _ _ _ _ W HP) in E2 as [[E2|[e E2]] _]; [|discriminate]. injection E2 as ->.
        split; [easy|]. eapply load_branch_ok; eauto.
      + intros e w' E _ Rel HPw. unfold load_branch in E. rewrite Hl in E. unfold mbind in E.
        destruct (load_branch_from_link sec l w) as [[b|e'|p|] w1] eqn:E1; try discriminate.
        apply (rd_from _ _ _ _ _ _ W HP) in E1 as [_ E1]. discriminate (E1 Rel HPw).
      + intros p w' E. unfold load_branch in E. rewrite Hl in E. unfold mbind in E.
        destruct (load_branch_from_link sec l w) as [[b|e'|p'|] w1] eqn:E1; try discriminate.
        apply (rd_from _ _ _ _ _ _ W HP) in E1 as [[E1|[e E1]] _]; discriminate.
      + intros w' E. unfold load_branch in E. rewrite Hl in E. unfold mbind in E.
        destruct (load_branch_from_link sec l w) as [[b|e'|p'|] w1] eqn:E1; try discriminate.
        apply (rd_from _ _ _ _ _ _ W HP) in E1 as [[E1|[e E1]] _]; discriminate.
      + intros [[b|]|e] w1 W1 Q; [|destruct Q|].
        * destruct Q as (Qb & QP). rewrite Qb.
          pose proof (wext_ok _ _ _ W1 W) as Wok1.
          pose proof R as R'. apply repr_branch in R' as (_ & _ & _ & _ & _).
          pose proof I as I'. apply invs_branch in I' as (_ & _ & _ & _ & Ic).
          set (go := fix go (cs : list Index) (cur : option Z) : M (list Index * bool * list report * option Z) :=
                      match cs with
                      | [] => ret ([], false, [], cur)
                      | c :: cs' => _
                      end).
          assert (Fgo : forall cs cur, frame (wext key) (go cs cur)).
          { induction cs0 as [|c cs0 IHc]; intros; cbn [go]; [apply wf_ret|].
            apply wf_bind; [apply wf_repair0|]. intros [[]]. apply wf_bind; [apply IHc|]. intros [[[]]]. apply wf_ret. }
          assert (Hgo : forall cs cur w, wok key w -> Forall (repr sec (w_off w)) cs -> Forall (inv cfg) cs ->
                    Forall (fun c => ilevel (root_ix c) < d) cs ->
                    post (go (map root_ix cs) cur) w Sf (fun p w' =>
                      exists cs', fst (fst (fst p)) = map root_ix cs' /\ Forall (gd w') cs' /\ Forall2 same cs cs'
                        /\ (snd (fst (fst p)) = false -> cs' = cs)
                        /\ forgets (flat_map content cs) (flat_map (lost (w_store w)) cs) (flat_map content cs')
                        /\ (snd (fst p) = [] -> cs' = cs /\ snd (fst (fst p)) = false)
                        /\ (ReliableReads T B -> Forall (avail (w_store w)) cs -> snd (fst p) = []))).
          { clear -IH Fgo TL XL BL. intros cs. induction cs as [|c cs IHc]; intros cur w W G Gi Hl; cbn [map go].
            - apply post_ret. exists []. cbn [fst snd]. splits; auto. constructor.
            - inversion G; inversion Gi; inversion Hl; subst.
              eapply post_bind with (sec := sec); [apply wf_repair0|apply IH; auto|].
              intros [[i rep1] cur1] w1 W1 (t1 & E1 & G1 & S1 & L1 & K1 & C1 & T1). cbn [fst snd] in *. subst i.
              pose proof (wext_ok _ _ _ W1 W) as Wok1.
              set (changed := negb (link_eqb (ilink (root_ix t1)) (ilink (root_ix c)))).
              replace (if changed then root_ix t1 else root_ix c) with (root_ix t1).
              2:{ subst changed. destruct (link_eqb _ _) eqn:E; [|easy]. apply link_eqb_eq in E. now rewrite (L1 E). }
              eapply post_bind with (sec := sec); [apply Fgo|apply IHc; auto|].
              { eapply repr_Forall_weaken; [|exact H2]. eapply wext_off; eauto. }
              intros [[[is ch2] rep2] cur2] w2 W2 (cs' & F1 & F2 & F3 & F4 & F5 & F6 & F7). cbn [fst snd] in *.
              apply post_ret. cbn [fst snd]. exists (t1 :: cs'). cbn [map flat_map]. splits.
              + now rewrite F1.
              + constructor; [eapply gd_mono; eauto|easy].
              + now constructor.
              + intros E. apply orb_false_elim in E as [E3 E4]. rewrite (F4 E4). f_equal. apply L1.
                apply link_eqb_eq. unfold changed in E3. now apply negb_false_iff in E3.
              + apply forgets_app; [exact K1|]. eapply forgets_mono; [|exact F5].
                assert (Hst : forall l d, sblocks (w_store w) l = Some d -> sblocks (w_store w1) l = Some d) by (intros; eapply wext_blocks; eauto).
                clear -H2 Hst BL XL TL. induction H2; cbn; [constructor|]. apply Forall2_app; [|easy]. eapply lost_mono; eauto.
              + intros E. apply app_eq_nil in E as [E3 E4]. destruct (F6 E4) as [F8 F9]. rewrite (C1 E3), F8. split; [easy|].
                rewrite F9, orb_false_r. unfold changed. rewrite (C1 E3). apply negb_false_iff, link_eqb_eq. reflexivity.
              + intros Rel Ha. inversion Ha; subst. rewrite T1, F7; auto.
                eapply Forall_impl; [|eassumption]. intros t. apply avail_mono. intros; eapply wext_blocks; eauto. }
          eapply post_bind with (sec := sec); [apply Fgo| |].
          { apply Hgo; auto.
            - eapply repr_Forall_weaken; [|exact Hrc]. eapply wext_off; eauto.
            - eapply Forall_impl; [|exact Hlv]. cbn beta. intros c Hc. cbn in Hd. lia. }
          intros [[[is ch] rep] cur2] w2 W2 (cs' & F1 & F2 & F3 & F4 & F5 & F6 & F7). cbn [fst snd] in *. subst is.
          pose proof (wext_trans _ _ _ _ W1 W2) as W02.
          assert (HP2 : forall l d, sblocks (w_store w1) l = Some d -> sblocks (w_store w2) l = Some d) by (intros l0 d0; apply (wext_blocks _ _ _ _ _ W2)).
          assert (Hforg : forgets (flat_map content cs) (lost (w_store w) (TBranch x cs)) (flat_map content cs')).
          { assert (Hst : forall l d, sblocks (w_store w) l = Some d -> sblocks (w_store w1) l = Some d) by (intros; eapply wext_blocks; eauto).
            eapply forgets_mono; [eapply lost_mono; [exact Hst|exact R]|].
            cbn [lost]. rewrite Hl. destruct QP as [Q1 Q2]. rewrite Q1, Q2. exact F5. }
          assert (Hrel : ReliableReads T B -> avail (w_store w) (TBranch x cs) -> rep = []).
          { intros Rel Ha. apply F7; [easy|]. apply avail_branch in Ha as (_ & _ & Ha).
            eapply Forall_impl; [|exact Ha]. intros t. apply avail_mono. intros; eapply wext_blocks; eauto. }
          destruct ch.
          -- eapply post_bind with (sec := sec); [apply wf_persist_branch| |].
             { eapply (post_rebuild cfg sec True False Sf x cs cs'); eauto.
               eapply repr_weaken; [|exact R]. eapply wext_off; eauto. }
             intros [l' n] w3 W3 (H1 & H2). cbn [fst] in *. apply post_ret.
             exists (TBranch (branch_set_link x (Some l')) cs'). cbn [fst snd root_ix].
             split; [easy|]. split; [easy|]. split; [now repeat split|]. split; [cbn; congruence|].
             split; [exact Hforg|]. split; [|exact Hrel].
             intros E. apply F6 in E as [_ E]. discriminate.
          -- rewrite (F4 eq_refl) in *. apply post_ret.
             exists (TBranch x cs). cbn [fst snd root_ix]. split; [easy|]. split.
             { split; [eapply repr_weaken; [|exact R]; eapply wext_off; eauto|]. split; [easy|]. split; [|easy].
               intros _ Hlog. apply avail_branch. destruct QP as [Q1 Q2]. split; [|split; [easy|]].
               - apply (stored_mono _ _ _ HP2) in Q1. cbn in Q1. rewrite Hl. destruct (sblocks (w_store w2) l) eqn:E; [eauto|discriminate].
               - eapply Forall_impl; [|exact F2]. intros t (_ & _ & H & _). now apply H. }
             splits; auto using same_refl.
        * apply post_ret. exists (TBranchP (branch_set_link x None)). cbn [fst snd root_ix]. split; [easy|]. split.
          { split; [easy|]. split; [|split; [|easy]; intros _ _; exact Logic.I].
            cbn [inv branch_set_link bi_level bi_count bi_sealed]. apply invs_branch in I as I'. destruct I' as (I1 & _). split; [lia|].
            split; [|exact (sealed_purge _ _ _ _ _ R I)].
            destruct (tree_keys _ _ _ _ R I) as (ks & K1 & K2 & _). exists ks. split; [exact K1|exact K2]. }
          split; [now repeat split|]. split; [cbn; rewrite Hl; discriminate|]. split; [|split; [discriminate|]].
          -- replace (content (TBranchP (branch_set_link x None))) with (repeat (@None (K * V)) (List.length (content (TBranch x cs)))).
             2:{ rewrite Lc. reflexivity. }
             apply forgets_all; [congruence|]. intros Rel. cbn [lost]. rewrite Hl.
             destruct (stored (w_store w) (Some l) && fits (idxs_raw (map root_ix cs))) eqn:E.
             { apply andb_prop in E. destruct (Q Rel). exact E. }
             apply Forall_forall. intros b Hb. now apply repeat_spec in Hb.
          -- intros Rel Ha. destruct (Q Rel). apply avail_branch in Ha as ((l' & d' & B1 & B2) & B3 & _).
             rewrite Hl in B1. injection B1 as <-. split; [cbn; now rewrite B2|easy].
    - (* purged branch *)
      cbn in R. unfold load_branch. rewrite R.
      change (try (ret (@None Branch))) with (@ret T B _ (@inl (option Branch) error None)).
      eapply post_bind with (sec := sec) (Q := fun r w' => w' = w /\ r = inl None); [apply wf_ret|now apply post_ret|].
      intros r w' W1 [-> ->]. apply post_ret.
      exists (TBranchP x). cbn [fst snd root_ix]. split; [easy|]. split.
      { split; [easy|]. split; [easy|]. split; [|easy]. intros _ _. exact Logic.I. }
      splits; auto using same_refl. apply forgets_refl. congruence.
  Qed.
End RepairProofs.

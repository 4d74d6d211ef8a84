(** The public operations against the tree specification. *)
From Coq Require Import List NArith ZArith Lia Bool String Arith.
From Verif Require Import Base BaseProofs Cbor Types Seq SeqProofs Query QuerySpec World Read Write Api Ghost Frame ReadProofs Packable WriteProofs QueryProofs PackProofs RetainProofs RepairProofs NoPurged.
Import ListNotations.
#[local] Coercion s_now : Setting >-> Config.

Section Api.
  Context {T : Types} {TL : TypesLaws T} {X : Ext} {XL : ExtLaws X}
          {B : Backend T} {BL : BackendLaws T B}.

  Definition wof (fo : Forest) (off : N) : world :=
    {| w_store := fo_store fo; w_cache := fo_cache fo; w_off := off; w_log := fo_log fo |}.
  Definition fof (w : world) : Forest :=
    {| fo_store := w_store w; fo_cache := w_cache w; fo_log := w_log w |}.

  Lemma run_inv {A} fo b (m : M A) r fo' b' : run fo b m = (r, fo', b') ->
    m (wof fo (b_off b)) = (r, wof fo' (b_off b'))
    /\ b_root b' = b_root b /\ b_sec b' = b_sec b /\ b_cfg b' = b_cfg b.
  Proof.
    unfold run. fold (wof fo (b_off b)). destruct (m (wof fo (b_off b))) as [r0 w] eqn:E.
    intros [= <- <- <-]. cbn. now destruct w.
  Qed.

  Lemma read_inv {A} fo (m : M A) r fo' : read fo m = (r, fo') ->
    m (wof fo 0) = (r, wof fo' (w_off (snd (m (wof fo 0))))).
  Proof.
    unfold read. fold (wof fo 0). destruct (m (wof fo 0)) as [r0 w] eqn:E. intros [= <- <-]. now destruct w.
  Qed.

  Lemma post_elim {A} (m : M A) w S Q r w' : post m w S Q -> m w = (r, w') ->
    (forall a, r = Ok a -> Q a w') /\ (S -> no_assert r).
  Proof.
    unfold post. intros H E. rewrite E in H. destruct r as [a|e|[]|]; split; intros; try discriminate; cbn; auto.
    now injection H0 as <-.
  Qed.

  Variable cfg : Setting.
  Variable sec : Secrets.
  Notation key := (index_key sec).
  Hypothesis Hcfg : setting_ok cfg.
  (** The store has lost nothing; nothing was repaired. *)
  Variable Av Ps : Prop.

  Definition fok (fo : Forest) : Prop := wok key (wof fo 0).

  Lemma fok_wok fo off : fok fo <-> wok key (wof fo off).
  Proof. unfold fok, wok. cbn. tauto. Qed.

  (** [t] is a good tree in [fo] whose keystream ranges end before [lim]. *)
  Definition gt (fo : Forest) (lim : N) (t : tree) : Prop :=
    gd cfg sec Av Ps (wof fo lim) t /\ (Ps -> pk t None).
  Definition gn (fo : Forest) (lim : N) (n : option tree) : Prop :=
    match n with Some t => gt fo lim t | None => True end.

  Definition bgood (fo : Forest) (b : Builder) (n : option tree) : Prop :=
    fok fo /\ b_sec b = sec /\ b_cfg b = cfg /\ b_root b = option_map root_ix n /\ gn fo (b_off b) n.

  (** Forests before and after an operation of a builder with the given offsets. *)
  Definition fext (fo : Forest) (off : N) (fo' : Forest) (off' : N) : Prop :=
    wext key (wof fo off) (wof fo' off').
  (** After an operation that only reads. *)
  Definition fsame (fo fo' : Forest) : Prop := rext key (wof fo 0) (wof fo' 0).

  Lemma fsame_fext fo fo' off : fsame fo fo' -> fext fo off fo' off.
  Proof.
    intros (H1 & H2 & H3 & H4). apply rext_wext. split; [|split; [exact H2|split; [easy|exact H4]]].
    split; [|exact (proj2 H1)]. intros W. apply fok_wok. apply H1. now apply fok_wok in W.
  Qed.
  Lemma fsame_refl fo : fsame fo fo. Proof. apply rext_refl. Qed.
  Lemma fsame_trans a b c : fsame a b -> fsame b c -> fsame a c. Proof. apply rext_trans. Qed.
  Lemma fext_refl fo off : fext fo off fo off. Proof. apply wext_refl. Qed.
  Lemma fext_trans a oa b ob c oc : fext a oa b ob -> fext b ob c oc -> fext a oa c oc.
  Proof. apply wext_trans. Qed.
  Lemma fext_fok a oa b ob : fext a oa b ob -> fok a -> fok b.
  Proof. intros H F. apply (fok_wok _ ob). eapply wext_ok; [exact H|]. now apply fok_wok. Qed.
  Lemma fext_off a oa b ob : fext a oa b ob -> (oa <= ob)%N.
  Proof. intros H. exact (wext_off _ _ _ H). Qed.

  (** Trees stay good when their limit is kept. *)
  Lemma gt_keep a oa b ob lim t : fext a oa b ob -> gt a lim t -> gt b lim t.
  Proof.
    intros W ((H1 & H2 & H3 & H4) & H5). split; [|easy]. split; [easy|]. split; [easy|]. split; [|easy].
    intros av Hf. specialize (H3 av). unfold ok_in in H3. eapply avail_mono; [|apply H3].
    - intros l d. apply (wext_blocks _ _ _ _ _ W).
    - exact (log_fits_mono sec _ _ W Hf).
  Qed.
  Lemma gt_weaken fo lim lim' t : (lim <= lim')%N -> gt fo lim t -> gt fo lim' t.
  Proof.
    intros Hl ((H1 & H2 & H3 & H4) & H5). split; [|easy]. split; [|easy]. eapply repr_weaken; eauto.
  Qed.
  Lemma gn_keep a oa b ob lim n : fext a oa b ob -> gn a lim n -> gn b lim n.
  Proof. destruct n; [apply gt_keep|easy]. Qed.
  Lemma gn_mono a oa b ob n : fext a oa b ob -> gn a oa n -> gn b ob n.
  Proof.
    intros W. destruct n; [|easy]. intros G. eapply gt_keep in G; [|exact W].
    eapply gt_weaken; [|exact G]. eapply fext_off; eauto.
  Qed.

  Lemma read_fsame {A} fo (m : M A) r fo' : frame (rext key) m -> read fo m = (r, fo') -> fsame fo fo'.
  Proof.
    intros Fm E. apply read_inv in E. apply Fm in E as E'. unfold fsame.
    destruct E' as (H1 & H2 & H3 & H4). split; [|easy]. split; [|exact (proj2 H1)]. intros W. apply fok_wok in W. apply fok_wok.
    eapply fok_wok. apply H1, fok_wok, W.
  Qed.

  (** A read of what the tree determines. *)
  Lemma read_rd {A} fo (m : M A) P a r fo' : fok fo -> frame (rext key) m -> rd sec m P a -> read fo m = (r, fo') ->
    fsame fo fo' /\ (r = Ok a \/ exists e, r = Err e)
    /\ (ReliableReads T B -> P (fo_store fo) -> r = Ok a).
  Proof.
    intros F Fm Hm E. split; [eapply read_fsame; eauto|]. apply read_inv in E. exact (Hm _ _ _ F E).
  Qed.

  Lemma run_fext {A} fo b (m : M A) r fo' b' : frame (wext key) m -> run fo b m = (r, fo', b') ->
    fext fo (b_off b) fo' (b_off b').
  Proof. intros Fm E. apply run_inv in E as [E _]. exact (Fm _ _ _ E). Qed.

  Lemma gt_gd fo lim t : gt fo lim t -> gd cfg sec Av Ps (wof fo lim) t.
  Proof. now intros []. Qed.

  (** ** Writing *)

  Lemma failed_not_ok {A C} (r : res A) (c : C) : (forall a, r <> Ok a) -> failed r <> Ok c.
  Proof. destruct r; cbn; try discriminate. Qed.
  Lemma failed_no_assert {A C} (r : res A) : (forall a, r <> Ok a) -> no_assert r -> no_assert (@failed A C r).
  Proof. destruct r as [|e|[]|]; cbn; auto. intros H. now destruct (H a). Qed.

  Definition opacked (n : option tree) : Prop := match n with Some t => packed t = true | None => True end.

  (** After an operation: the builder is good, [Ok] means [Q], and otherwise the
      root is as before; under [S] no assertion failed. *)
  Definition wrote (fo : Forest) (b : Builder) (n : option tree) (S : Prop) (r : res unit)
             (fo' : Forest) (b' : Builder) (Q : option tree -> Prop) : Prop :=
    fext fo (b_off b) fo' (b_off b')
    /\ (exists n', bgood fo' b' n' /\ (r = Ok tt -> Q n') /\ (r <> Ok tt -> n' = n))
    /\ (r <> Ok tt -> b_root b' = b_root b)
    /\ (S -> no_assert r).

  (** The common part of the operations that run one computation. *)
  Lemma run_wrote {A} fo b n (m : M A) (upd : A -> option Index) (S : Prop) Q r fo1 b1 :
    bgood fo b n -> frame (wext key) m ->
    post m (wof fo (b_off b)) S (fun a w' =>
      exists n', upd a = option_map root_ix n'
        /\ match n' with Some t => gd cfg sec Av Ps w' t | None => True end
        /\ (Ps -> opk n' None) /\ Q n') ->
    run fo b m = (r, fo1, b1) ->
    wrote fo b n S (match r with Ok _ => Ok tt | _ => failed r end) fo1
          (match r with Ok a => set_root b1 (upd a) | _ => b1 end) Q.
  Proof.
    intros (F & Es & Ec & Er & G) Fm P E.
    pose proof (run_fext _ _ _ _ _ _ Fm E) as W. apply run_inv in E as (E & E1 & E2 & E3).
    destruct (post_elim _ _ _ _ _ _ P E) as [P1 P2].
    assert (Ho : b_off (match r with Ok a => set_root b1 (upd a) | _ => b1 end) = b_off b1) by now destruct r.
    split; [now rewrite Ho|]. split; [|split].
    - destruct r as [a|e|p|].
      + destruct (P1 a eq_refl) as (n' & U & G' & Pk & HQ). exists n'. split.
        * split; [eapply fext_fok; eauto|]. cbn. rewrite E2, E3. split; [easy|]. split; [easy|]. split; [easy|].
          destruct n'; [|easy]. split; [exact G'|exact Pk].
        * split; [auto|]. intros H. now destruct H.
      + exists n. split; [|split; [discriminate|easy]].
        split; [eapply fext_fok; eauto|]. rewrite E1, E2, E3. splits; auto. eapply gn_mono; eauto.
      + exists n. split; [|split; [discriminate|easy]].
        split; [eapply fext_fok; eauto|]. rewrite E1, E2, E3. splits; auto. eapply gn_mono; eauto.
      + exists n. split; [|split; [discriminate|easy]].
        split; [eapply fext_fok; eauto|]. rewrite E1, E2, E3. splits; auto. eapply gn_mono; eauto.
    - destruct r; [intros H; now destruct H|..]; intros; exact E1.
    - intros s. specialize (P2 s). destruct r as [|e|[]|]; cbn in *; auto.
  Qed.

  Lemma wrote_refl fo b n (S : Prop) (Q : option tree -> Prop) : bgood fo b n -> Q n -> wrote fo b n S (Ok tt) fo b Q.
  Proof.
    intros H1 H2. split; [apply fext_refl|]. split; [|split; [easy|easy]].
    exists n. split; [easy|]. split; [auto|]. intros H. now destruct H.
  Qed.

  Lemma depth_ok i : ilevel i < depth i.
  Proof. unfold depth. lia. Qed.

  Lemma extend_api fo b n items r fo' b' : bgood fo b n -> extend fo b items = (r, fo', b') ->
    wrote fo b n (Ps /\ opacked n) r fo' b' (fun n' =>
      ocontent n' = ocontent n ++ map Some items /\ (Ps -> opacked n -> opacked n')).
  Proof.
    intros I E. pose proof I as (F & Es & Ec & Er & G). unfold extend in E. destruct items as [|p items].
    { injection E as <- <- <-. apply wrote_refl; [easy|]. cbn [map]. rewrite app_nil_r. auto. }
    set (from := p :: items) in *. rewrite Es, Ec, Er in E.
    destruct (run fo b _) as [[r0 fo1] b1] eqn:Erun.
    eapply (run_wrote fo b n _ (fun a => Some (fst a)) (Ps /\ opacked n)
             (fun n' => ocontent n' = ocontent n ++ map Some from /\ (Ps -> opacked n -> opacked n'))) in Erun; eauto.
    - destruct r0 as [[i rest]|e|p0|]; injection E as <- <- <-; exact Erun.
    - apply wf_extend_above.
    - eapply post_conseq.
      + apply (post_extend_above cfg sec Hcfg Av Ps (Ps /\ opacked n)).
        * now apply fok_wok.
        * destruct n; [|cbn; lia]. split; [apply G|]. cbn. apply depth_ok.
        * discriminate.
        * now intros [].
        * intros [ps op]. destruct n; auto.
      + intros [i rest] w' (t' & taken & H1 & H2 & H3 & H4 & H5 & H6 & H7 & H8 & H9 & H10). cbn [fst snd] in *.
        assert (rest = []) as ->. { destruct rest; [easy|]. destruct H7 as [H7 _]; [discriminate|]. discriminate. }
        rewrite app_nil_r in H3. exists (Some t'). cbn [option_map opk ocontent opacked]. rewrite H1. splits; auto.
        * intros ps. apply H10. destruct n; [|easy]. now apply G.
        * now rewrite H4, H3.
  Qed.

  Lemma extend_unpacked_api fo b n items r fo' b' : bgood fo b n -> extend_unpacked fo b items = (r, fo', b') ->
    wrote fo b n True r fo' b' (fun n' => ocontent n' = ocontent n ++ map Some items).
  Proof.
    intros I E. pose proof I as (F & Es & Ec & Er & G). unfold extend_unpacked in E. rewrite Es, Ec, Er in E.
    destruct (run fo b _) as [[r0 fo1] b1] eqn:Erun.
    eapply (run_wrote fo b n _ (fun a => a) True (fun n' => ocontent n' = ocontent n ++ map Some items)) in Erun; eauto.
    - destruct r0 as [i|e|p0|]; injection E as <- <- <-; exact Erun.
    - apply wf_extend_unpacked0.
    - eapply post_conseq.
      + apply (post_extend_unpacked0 cfg sec Hcfg Av Ps True n items).
        * now apply fok_wok.
        * destruct n; [apply G|easy].
        * now intros [].
      + intros i w' (n' & H1 & H2 & H3 & H4). exists n'. splits; auto.
        intros ps. apply H4. destruct n; [now apply G|easy].
  Qed.

  Definition okeeps (m : nat -> K -> bool) (n n' : option tree) : Prop :=
    keeps m 0 (ocontent n) (ocontent n').

  Definition odropped (q : Query) (n : option tree) : Prop :=
    match n with Some t => dropped q 0 t | None => True end.

  Lemma retain_api fo b n q m r fo' b' : bgood fo b n -> purge_ok cfg sec q m -> retain fo b q = (r, fo', b') ->
    wrote fo b n True r fo' b' (fun n' => okeeps m n n' /\ (opacked n -> opacked n') /\ odropped q n').
  Proof.
    intros I Hq E. pose proof I as (F & Es & Ec & Er & G). unfold retain in E. rewrite Er in E.
    destruct n as [t|]; cbn [option_map] in E.
    2: { injection E as <- <- <-. apply wrote_refl; [easy|]. split; [exact Logic.I|split; [auto|exact Logic.I]]. }
    rewrite Es, Ec in E. destruct (run fo b _) as [[r0 fo1] b1] eqn:Erun.
    eapply (run_wrote fo b (Some t) _ (fun a => Some (fst a)) True
              (fun n' => okeeps m (Some t) n' /\ (opacked (Some t) -> opacked n') /\ odropped q n')) in Erun; eauto.
    - destruct r0 as [[i rest]|e|p0|]; injection E as <- <- <-; exact Erun.
    - apply wf_retain0.
    - eapply post_conseq.
      + apply (post_retain0 cfg sec Av Ps True q m Hq).
        * now apply fok_wok.
        * apply G.
        * apply depth_ok.
      + intros [i cur] w' (t' & H1 & H2 & (H3 & H3p) & H4 & H5 & H6 & H7 & H8). cbn [fst snd] in *.
        exists (Some t'). cbn [option_map opk]. rewrite H1. splits; auto.
        * intros ps. destruct (H7 None) as (_ & Hp & _); [exact Logic.I|]. apply Hp. now apply G.
        * cbn [opacked]. now rewrite H3p.
        * apply H8. reflexivity.
  Qed.

  Definition oforgets (s : Store) (n n' : option tree) : Prop :=
    match n, n' with
    | Some t, Some t' => forgets (content t) (lost s t) (content t') /\ same t t'
    | None, None => True
    | _, _ => False
    end.
  Definition oavail (s : Store) (n : option tree) : Prop :=
    match n with Some t => avail s t | None => True end.

End Api.

Section Api2.
  Context {T : Types} {TL : TypesLaws T} {X : Ext} {XL : ExtLaws X}
          {B : Backend T} {BL : BackendLaws T B}.
  Variable cfg : Setting.
  Variable sec : Secrets.
  Notation key := (index_key sec).
  Hypothesis Hcfg : setting_ok cfg.
  Variable Av Ps : Prop.
  Notation binv := (bgood cfg sec Av Ps).
  Notation wrote := (wrote cfg sec Av Ps).
  Notation gn := (gn cfg sec Av Ps).
  Notation fext := (fext sec).

  (** Repair: the result is good for [Av := True]; the builder is as good as
      before only if nothing is claimed about purged nodes. *)
  Lemma repair_api fo b n r fo' b' : binv fo b n -> repair fo b = (r, fo', b') ->
    fext fo (b_off b) fo' (b_off b')
    /\ no_assert r
    /\ ((forall x, r <> Ok x) -> b_root b' = b_root b /\ binv fo' b' n)
    /\ (forall rep, r = Ok rep ->
          exists n', bgood cfg sec True False fo' b' n'
            /\ oforgets (fo_store fo) n n' /\ (rep = [] -> n' = n /\ b_root b' = b_root b)
            /\ (ReliableReads T B -> oavail (fo_store fo) n -> rep = [])).
  Proof.
    intros I E. pose proof I as (F & Es & Ec & Er & G). unfold repair in E. rewrite Er in E.
    destruct n as [t|]; cbn [option_map] in E.
    2: { injection E as <- <- <-. split; [apply fext_refl|]. split; [exact Logic.I|]. split; [intros H; now destruct (H [])|].
         intros rep [= <-]. exists None. split; [|split; [exact Logic.I|auto]]. cbn. splits; auto. }
    rewrite Es, Ec in E. destruct (run fo b _) as [[r0 fo1] b1] eqn:Erun.
    pose proof (run_fext sec _ _ _ _ _ _ (wf_repair0 _ _ _ _ _) Erun) as W.
    apply run_inv in Erun as (Erun & E1 & E2 & E3).
    pose proof (gt_gd _ _ _ _ _ _ _ G) as (R & Iv & _ & _).
    edestruct (fun H1 H2 => post_elim _ _ _ _ _ _ (post_repair0 cfg sec True (depth (root_ix t)) t None
                 (wof fo (b_off b)) H1 R Iv H2) Erun) as [P1 P2].
    { now apply fok_wok. }
    { apply depth_ok. }
    specialize (P2 Logic.I).
    destruct r0 as [[[i rep] cur]|e|p|]; injection E as <- <- <-.
    - split; [exact W|]. split; [exact Logic.I|]. split; [intros H; now destruct (H rep)|].
      intros rep0 [= <-]. destruct (P1 _ eq_refl) as (t' & H1 & H2 & H3 & H4 & H5 & H6 & H7). cbn [fst snd] in *.
      exists (Some t'). split; [|split; [|split]].
      + split; [eapply fext_fok; eauto|]. cbn. rewrite E2, E3, H1. splits; auto. split; [exact H2|easy].
      + split; auto.
      + intros E. rewrite (H6 E) in *. split; [easy|]. cbn. now rewrite Er, H1.
      + auto.
    - split; [exact W|]. split; [exact Logic.I|]. split; [|discriminate]. intros _. split; [easy|].
      split; [eapply fext_fok; eauto|]. rewrite E1, E2, E3. splits; auto. exact (gn_mono cfg sec Av Ps _ _ _ _ _ W G).
    - split; [exact W|]. split; [exact P2|]. split; [|discriminate]. intros _. split; [easy|].
      split; [eapply fext_fok; eauto|]. rewrite E1, E2, E3. splits; auto. exact (gn_mono cfg sec Av Ps _ _ _ _ _ W G).
    - destruct P2.
  Qed.

  (** ** Packing *)

  Lemma omapM_some {A} (l : list A) : omapM (fun x => x) (map Some l) = Some l.
  Proof. induction l as [|a l IH]; cbn; [easy|]. cbn in IH. now rewrite IH. Qed.

  Lemma omapM_inv {A} (l : list (option A)) l' : omapM (fun x => x) l = Some l' -> l = map Some l'.
  Proof.
    revert l'; induction l as [|[a|] l IH]; intros l' E; cbn in E; try discriminate.
    - now injection E as <-.
    - fold (omapM (fun x : option A => x) l) in E. destruct (omapM (fun x : option A => x) l); [|discriminate]. injection E as <-. cbn. now rewrite (IH l0).
  Qed.

  Lemma roots_api fo b n r fo' : binv fo b n -> roots fo b = (r, fo') ->
    fsame sec fo fo'
    /\ (r = Ok (map root_ix (match n with Some t => fst (groots t None) | None => [] end)) \/ exists e, r = Err e)
    /\ (ReliableReads T B -> oavail (fo_store fo) n -> exists rs, r = Ok rs).
  Proof.
    intros (F & Es & Ec & Er & G) E. unfold roots in E. rewrite Er, Es in E. destruct n as [t|]; cbn [option_map] in E.
    - destruct (read fo _) as [r0 fo0] eqn:Er0.
      eapply read_rd in Er0 as (H1 & H2 & H3); [| |apply rf_roots0|eapply roots0_rd; [apply G|apply depth_ok]]; [|exact F].
      injection E as <- <-. split; [exact H1|]. split.
      + destruct H2 as [->|[e ->]]; cbn; eauto.
      + intros Re Av'. rewrite (H3 Re (avail_avail_branches _ _ Av')). cbn. eauto.
    - injection E as <- <-. split; [apply fsame_refl|]. split; [auto|]. eauto.
  Qed.

  Lemma collect_api fo b n off r fo' : binv fo b n -> collect_from fo (snapshot b) off = (r, fo') ->
    fsame sec fo fo'
    /\ (r = Ok (skipn off (ocontent n)) \/ exists e, r = Err e)
    /\ (ReliableReads T B -> oavail (fo_store fo) n -> r = Ok (skipn off (ocontent n))).
  Proof.
    intros (F & Es & Ec & Er & G) E. unfold collect_from, snapshot in E. rewrite Er, Es in E.
    destruct n as [t|]; cbn [option_map] in E.
    - eapply read_rd in E as (H1 & H2 & H3); [| |apply rf_collect0|eapply collect0_rd; [apply G|apply depth_ok]]; [|exact F].
      split; [exact H1|]. split; auto.
    - injection E as <- <-. split; [apply fsame_refl|]. cbn. rewrite skipn_nil. auto.
  Qed.

  Lemma gd_Forall_keep w w' ts : wext key w w' -> Forall (gd cfg sec Av Ps w) ts -> Forall (gd cfg sec Av Ps w') ts.
  Proof. intros W. apply Forall_impl. intros t. now apply gd_mono. Qed.

  (** Whatever [pack] does, the builder stays good. *)
  Lemma groots_short t : forall cur, List.length (flat_map content (fst (groots t cur))) <= List.length (content t).
  Proof.
    induction t using tree_ind'; intros cur; cbn [groots].
    1, 2, 4: destruct (_ && _); cbn [fst flat_map List.length]; rewrite ?app_nil_r; lia.
    destruct (isealed (IBranch x) && cur_le (bi_level x) cur) eqn:E.
    { cbn [root_ix ilevel]. rewrite E. cbn [fst flat_map]. rewrite app_nil_r. lia. }
    change (List.length (flat_map content (fst (groots (TBranch x cs) cur))) <= List.length (content (TBranch x cs))).
    rewrite groots_branch by exact E. cbn [content]. generalize (cur_min cur (Z.of_nat (bi_level x) - 1)). clear E cur.
    induction cs as [|c cs IH]; intros cur; [cbn; lia|].
    inversion H as [|? ? Hc Hcs]; subst. rewrite groots_list_cons. cbn [flat_map fst].
    rewrite flat_map_app, !app_length. specialize (Hc cur). specialize (IH Hcs (snd (groots c cur))). lia.
  Qed.

  (** The last two parts: a failed [pack] leaves a prefix, and a successful one
      does not change the number of entries, even if something was repaired. *)
  Lemma pack_full fo b n r fo' b' : binv fo b n -> pack fo b = (r, fo', b') ->
    fext fo (b_off b) fo' (b_off b')
    /\ exists n', binv fo' b' n'
         /\ (Ps -> no_assert r /\ r <> Err EPurged)
         /\ (Ps -> r = Ok tt -> ocontent n' = ocontent n /\ opacked n')
         /\ (Ps -> exists rest, ocontent n = ocontent n' ++ rest)
         /\ (r = Ok tt -> List.length (ocontent n') = List.length (ocontent n))
         /\ (Ps -> opacked n -> opacked n').
  Proof.
    intros I E. pose proof I as (F & Es & Ec & Er & G). unfold pack in E.
    assert (Hstay : forall fo2, fext fo (b_off b) fo2 (b_off b) -> binv fo2 b n).
    { intros fo2 W. split; [eapply fext_fok; eauto|]. splits; auto. exact (gn_mono cfg sec Av Ps _ _ _ _ _ W G). }
    set (rts := match n with Some t => fst (groots t None) | None => [] end).
    (* roots *)
    destruct (roots fo b) as [rr fo1] eqn:Eroots.
    pose proof (roots_api _ _ _ _ _ I Eroots) as (S1 & H1 & _). fold rts in H1.
    pose proof (fsame_fext sec _ _ (b_off b) S1) as W1.
    destruct H1 as [->|[e ->]].
    2:{ injection E as <- <- <-. split; [easy|]. exists n. split; [auto|]. split; [|split; [discriminate|split; [exists []; now rewrite app_nil_r|split; [discriminate|auto]]]].
        intros _. split; [exact Logic.I|]. pose proof (rnp_roots fo b) as H. rewrite Eroots in H. exact (rnp_failed _ H). }
    pose proof (Hstay _ W1) as I1. rewrite Es, Ec in E.
    (* merge the roots *)
    destruct (run fo1 b _) as [[r1 fo2] b1] eqn:Erun.
    assert (Gr : Forall (gd cfg sec Av Ps (wof fo1 (b_off b))) rts).
    { unfold rts. destruct n as [t|]; [|constructor]. destruct I1 as (_ & _ & _ & _ & G1).
      apply groots_sub; [|apply G1]. intros x cs. apply gd_children. }
    assert (Hr : Forall (fun c => isealed (root_ix c) = true) rts /\ levels_desc (map root_ix rts) = true).
    { unfold rts. destruct n as [t|]; [|split; [constructor|easy]].
      destruct (groots_sealed t None) as (A1 & A2 & _). split; [|easy].
      eapply Forall_impl; [|exact A1]. now intros c []. }
    destruct Hr as [Hr1 Hr2].
    pose proof (rnp_run fo1 b _ (np_tree_from_roots cfg sec (map root_ix rts))) as Np1. rewrite Erun in Np1. cbn in Np1.
    pose proof (run_wrote cfg sec Av Ps fo1 b n _ (fun i => i) Ps
                 (fun n' => ocontent n' = flat_map content rts /\ opacked n') r1 fo2 b1 I1
                 (wf_tree_from_roots sec cfg (map root_ix rts))) as H2.
    match type of H2 with ?P -> _ => assert (Hpost : P) end.
    { eapply post_conseq; [apply (post_tree_from_roots cfg sec Hcfg Av Ps Ps); auto|].
      intros i w' (node & A1 & A2 & A3). exists node. split; [easy|]. destruct node as [t|].
      - destruct A2 as [A2 A4]. splits; auto. intros ps. apply (packed_pk cfg); auto; try apply A2; auto.
      - cbn. splits; auto. }
    specialize (H2 Hpost Erun). clear Hpost. destruct H2 as (W2 & (n1 & I2 & H2 & H2') & _ & H2s).
    destruct r1 as [i|e|p|].
    2,3,4: injection E as <- <- <-; split; [eapply fext_trans; eauto|]; exists n1; split; [easy|];
      (split; [|split; [discriminate|split; [intros _; exists []; rewrite H2' by discriminate; now rewrite app_nil_r|split; [discriminate|rewrite H2' by discriminate; auto]]]]);
      intros ps; split; [now apply H2s|]; exact (rnp_failed _ Np1).
    specialize (H2 eq_refl) as [C1 P1]. clear H2' H2s Np1.
    (* the rest *)
    destruct (collect_from fo2 _ _) as [rr3 fo3] eqn:Ecol.
    assert (I1' : bgood cfg sec Av Ps fo2 {| b_root := b_root b; b_off := b_off b1; b_sec := b_sec b; b_cfg := b_cfg b |} n).
    { destruct I2 as (J1 & J2 & J3 & J4 & J5). split; [easy|]. cbn. splits; auto.
      destruct I1 as (_ & _ & _ & _ & G1). exact (gn_mono cfg sec Av Ps _ _ _ _ _ W2 G1). }
    assert (Ecol' : collect_from fo2 (snapshot {| b_root := b_root b; b_off := b_off b1; b_sec := b_sec b; b_cfg := b_cfg b |}) (builder_count (set_root b1 i)) = (rr3, fo3)).
    { rewrite <- Ecol. unfold snapshot. cbn. now destruct (b_root b). }
    pose proof (rnp_collect_from fo2 (snapshot b) (builder_count (set_root b1 i))) as Np3. rewrite Ecol in Np3. cbn in Np3.
    pose proof (collect_api _ _ _ _ _ _ I1' Ecol') as (S3 & H3 & _).
    pose proof (fsame_fext sec _ _ (b_off b1) S3) as W3.
    assert (I3 : binv fo3 (set_root b1 i) n1).
    { destruct I2 as (J1 & J2 & J3 & J4 & J5). split; [eapply fext_fok; eauto|]. splits; auto. exact (gn_mono cfg sec Av Ps _ _ _ _ _ W3 J5). }
    assert (W : fext fo (b_off b) fo3 (b_off (set_root b1 i))).
    { eapply fext_trans; [exact W1|]. eapply fext_trans; [exact W2|]. exact W3. }
    assert (Hcnt : builder_count (set_root b1 i) = List.length (flat_map content rts)).
    { destruct I3 as (_ & _ & _ & J4 & J5). unfold builder_count. rewrite J4. rewrite <- C1.
      destruct n1 as [t|]; cbn; [|easy]. symmetry. eapply length_content. apply J5. }
    assert (Hrest : Ps -> exists rest, skipn (builder_count (set_root b1 i)) (ocontent n) = map Some rest
              /\ ocontent n = flat_map content rts ++ map Some rest).
    { intros ps. rewrite Hcnt. unfold rts. destruct n as [t|].
      - destruct (groots_prefix t None) as (rest & R1 & _); [now apply G|]. exists rest. cbn [ocontent]. split; [|exact R1].
        rewrite R1 at 1. now rewrite skipn_app, skipn_all, Nat.sub_diag.
      - exists []. now split. }
    assert (Hpre : Ps -> exists rest, ocontent n = ocontent n1 ++ rest).
    { intros ps. destruct (Hrest ps) as (rest & _ & R2). rewrite C1. eauto. }
    destruct H3 as [->|[e ->]].
    2:{ injection E as <- <- <-. split; [easy|]. exists n1. split; [easy|]. split; [|split; [discriminate|split; [exact Hpre|split; [discriminate|auto]]]].
        intros _. split; [exact Logic.I|]. exact (rnp_failed _ Np3). }
    destruct (omapM _ _) as [rest|] eqn:Eo.
    - apply omapM_inv in Eo. destruct (extend_api cfg sec Hcfg Av Ps _ _ _ _ _ _ _ I3 E) as (W4 & (n' & I4 & Q1 & Q2) & _ & Sf).
      split; [eapply fext_trans; [exact W|exact W4]|]. exists n'. split; [easy|].
      pose proof (rnp_extend fo3 (set_root b1 i) rest) as Np4. rewrite E in Np4. split; [|split; [|split; [|split]]].
      + intros ps. split; [now apply Sf|]. exact Np4.
      + intros ps ->. destruct (Q1 eq_refl) as [Q3 Q4]. split; [|auto]. rewrite Q3, C1, <- Eo.
        destruct (Hrest ps) as (rest' & R1 & R2). now rewrite R1, R2.
      + intros ps. destruct r as [[]|e|p|].
        * destruct (Q1 eq_refl) as [Q3 _]. exists []. rewrite app_nil_r, Q3, C1, <- Eo. destruct (Hrest ps) as (rest' & R1 & R2). now rewrite R1, R2.
        * rewrite Q2 by discriminate. auto.
        * rewrite Q2 by discriminate. auto.
        * rewrite Q2 by discriminate. auto.
      + intros ->. destruct (Q1 eq_refl) as [Q3 _]. rewrite Q3, C1, <- Eo, app_length, skipn_length, Hcnt.
        assert (Hs : List.length (flat_map content rts) <= List.length (ocontent n)).
        { unfold rts. destruct n as [t|]; [apply groots_short|cbn; lia]. }
        lia.
      + intros ps _. destruct r as [[]|e|p|]; [|rewrite Q2 by discriminate; auto ..]. destruct (Q1 eq_refl) as [_ Q4]. auto.
    - injection E as <- <- <-. split; [easy|]. exists n1. split; [easy|]. split; [|split; [discriminate|split; [exact Hpre|split; [discriminate|auto]]]].
      intros ps. exfalso. destruct (Hrest ps) as (rest' & R1 & _). rewrite R1, omapM_some in Eo. discriminate.
  Qed.

  Lemma pack_api fo b n r fo' b' : binv fo b n -> pack fo b = (r, fo', b') ->
    fext fo (b_off b) fo' (b_off b')
    /\ exists n', binv fo' b' n'
         /\ (Ps -> no_assert r /\ r <> Err EPurged)
         /\ (Ps -> r = Ok tt -> ocontent n' = ocontent n /\ opacked n').
  Proof. intros I E. destruct (pack_full _ _ _ _ _ _ I E) as (W & n' & H1 & H2 & H3 & _). eauto. Qed.
End Api2.

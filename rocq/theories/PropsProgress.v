(** C60: operations succeed. *)
From Coq Require Import List NArith ZArith Lia Bool String Arith.
From Coq Require Import Strings.Byte.
From Verif Require Import Base BaseProofs Cbor CborProofs Types Seq SeqProofs Query QuerySpec World Read Write Api History Spec Ghost Frame ReadProofs Packable WriteProofs QueryProofs PackProofs RetainProofs RepairProofs NoPurged ApiProofs SysProofs HistProofs Instance Example PropsWrite PropsShape PropsMaintain.
Import ListNotations.

(** ** Specification *)

(** [c'] is [c] or a part of it. *)
Inductive part (c' : cbor) : cbor -> Prop :=
| part_here : part c' c'
| part_tag t c : part c' c -> part c' (CTag t c)
| part_arr l c : In c l -> part c' c -> part c' (CArr l)
| part_key l a b : In (a, b) l -> part c' a -> part c' (CMap l)
| part_val l a b : In (a, b) l -> part c' b -> part c' (CMap l).

(** Every byte string with the tag 42 is a link: a zero and a cid. *)
Definition valid_links {X : Ext} (c : cbor) : Prop :=
  forall b, part (CTag 42 (CBytes b)) c -> exists rest, b = x00 :: rest /\ cid_read rest <> None.

(** A value that can be stored. *)
Definition good_value {T : Types} {X : Ext} (cfg : Config) (v : V) : Prop :=
  (Nlen (enc (v_enc v)) <= max_uncompressed_leaf_size cfg)%N /\ valid_links (v_enc v).

(** The store has refused a block, whichever. *)
Definition refuses {T : Types} (B : Backend T) : Prop := exists s d, fst (sput s d) = None.

Section Links.
  Context {X : Ext}.

  Lemma rmapM_ok {A C} (f : A -> res C) l : (forall a, In a l -> exists c, f a = Ok c) -> exists cs, rmapM f l = Ok cs.
  Proof.
    induction l as [|a l IH]; intros H; cbn; [eauto|]. destruct (H a (or_introl eq_refl)) as [c ->].
    destruct IH as [cs ->]; [intros; apply H; now right|]. cbn. eauto.
  Qed.

  Lemma valid_links_ok c : forall tags, valid_links c ->
    (forall b, c = CBytes b -> tags = [42%N] -> exists rest, b = x00 :: rest /\ cid_read rest <> None) ->
    exists ls, item_links tags c = Ok ls.
  Proof.
    induction c using cbor_ind'; intros tags Hv Ht; cbn; eauto.
    - destruct tags as [|t [|]]; eauto. destruct (N.eqb_spec t 42) as [->|]; [|eauto].
      destruct (Ht _ eq_refl eq_refl) as (rest & -> & Hc). destruct (cid_read rest); [eauto|congruence].
    - destruct (rmapM_ok (item_links []) l) as [cs E]; [|rewrite E; cbn; eauto].
      intros c Hc. rewrite Forall_forall in H. apply H; auto; [|discriminate].
      intros b Hb. apply Hv. eapply part_arr; eauto.
    - match goal with |- context [rmapM ?f l] => destruct (rmapM_ok f l) as [cs E] end; [|rewrite E; cbn; eauto].
      intros [a b] Hc. rewrite Forall_forall in H. destruct (H _ Hc) as [H1 H2]. cbn [fst snd] in *.
      destruct (H1 []) as [la ->]; [intros d Hd; apply Hv; eapply part_key; eauto|discriminate|].
      destruct (H2 []) as [lb ->]; [intros d Hd; apply Hv; eapply part_val; eauto|discriminate|]. cbn. eauto.
    - apply IHc.
      + intros b Hb. apply Hv. now constructor.
      + intros b -> E. destruct tags as [|t0 tags]; [|destruct tags; discriminate]. cbn in E. injection E as ->.
        apply Hv. constructor.
  Qed.

  Lemma valid_item_links c : valid_links c -> exists ls, item_links [] c = Ok ls.
  Proof. intros H. apply valid_links_ok; [exact H|discriminate]. Qed.
End Links.

Section Progress.
  Context {T : Types} {TL : TypesLaws T} {X : Ext} {XL : ExtLaws X}
          {B : Backend T} {BL : BackendLaws T B} {Rl : Rel T X B}.
  Variable cfg : Config.
  Variable sec : Secrets.
  Notation key := (index_key sec).
  Hypothesis Hcfg : config_ok cfg.
  Variable Av Ps : Prop.
  Notation binv := (bgood cfg sec Av Ps).

  Lemma run_err {A} fo b (m : M A) S Q e fo1 b1 :
    post m (wof fo (b_off b)) S Q -> run fo b m = (Err e, fo1, b1) -> rel -> small_branches fo1 ->
    rel_full /\ e = EStoreFull.
  Proof.
    intros P E s Hl. apply run_inv in E as (E & _). unfold post in P. rewrite E in P. apply P; [exact s|].
    now apply small_fits.
  Qed.

  Context {RA : RelAv Rl Av}.

  Lemma extend_err fo b n items e fo' b' : binv fo b n -> gsrc cfg items ->
    extend fo b items = (Err e, fo', b') -> rel -> small_branches fo' -> rel_full /\ e = EStoreFull.
  Proof.
    intros I Hg E s Hl. pose proof I as (F & Es & Ec & Er & G). unfold extend in E. destruct items as [|p items]; [discriminate|].
    set (from := p :: items) in *. rewrite Es, Ec, Er in E.
    destruct (run fo b _) as [[r0 fo1] b1] eqn:Erun.
    destruct r0 as [[i rest]|e0|p0|]; try discriminate. injection E as -> -> ->.
    eapply run_err; [|exact Erun|exact s|exact Hl].
    apply (post_extend_above cfg sec Hcfg Av Ps False).
    - now apply fok_wok.
    - destruct n; [|cbn; lia]. split; [apply G|]. cbn. apply depth_ok.
    - discriminate.
    - exact Hg.
    - intros [].
  Qed.

  Lemma extend_unpacked_err fo b n items e fo' b' : binv fo b n -> gsrc cfg items ->
    extend_unpacked fo b items = (Err e, fo', b') -> rel -> small_branches fo' -> rel_full /\ e = EStoreFull.
  Proof.
    intros I Hg E s Hl. pose proof I as (F & Es & Ec & Er & G). unfold extend_unpacked in E. rewrite Es, Ec, Er in E.
    destruct (run fo b _) as [[r0 fo1] b1] eqn:Erun.
    destruct r0 as [i|e0|p0|]; try discriminate. injection E as -> -> ->.
    eapply run_err; [|exact Erun|exact s|exact Hl].
    apply (post_extend_unpacked0 cfg sec Hcfg Av Ps False n items).
    - now apply fok_wok.
    - destruct n; [apply G|easy].
    - exact Hg.
  Qed.

  Lemma retain_err fo b n q e fo' b' : binv fo b n ->
    retain fo b q = (Err e, fo', b') -> rel -> small_branches fo' -> rel_full /\ e = EStoreFull.
  Proof.
    intros I E s Hl. pose proof I as (F & Es & Ec & Er & G). unfold retain in E. rewrite Er in E.
    destruct n as [t|]; cbn [option_map] in E; [|discriminate].
    rewrite Es, Ec in E. destruct (run fo b _) as [[r0 fo1] b1] eqn:Erun.
    destruct r0 as [[i rest]|e0|p0|]; try discriminate. injection E as -> -> ->.
    eapply run_err; [|exact Erun|exact s|exact Hl].
    apply (post_retain0 cfg sec Av Ps False q (fun _ _ => false) (any_purge_ok cfg sec q)).
    - now apply fok_wok.
    - apply G.
    - apply depth_ok.
  Qed.

  (** The values in a tree can be written again. *)
  Lemma content_good lim t : repr sec lim t -> inv cfg t -> forall k v, In (Some (k, v)) (content t) -> storable cfg v.
  Proof.
    revert lim. induction t using tree_ind'; intros lim R I k v Hin.
    - destruct R as (_ & blk & r & _ & (_ & _ & ? & ? & ls & Hpl & _) & _). cbn in Hin. apply in_map_iff in Hin as ([k' v'] & [= -> ->] & Hin).
      apply in_combine_r in Hin. destruct I as (_ & _ & Hsz). split.
      + etransitivity; [|exact Hsz]. clear -Hin. unfold vals_raw. induction vs as [|a vs IH]; [destruct Hin|].
        cbn. rewrite Nlen_app. destruct Hin as [->|Hin]; [lia|]. specialize (IH Hin). lia.
      + clear -Hin Hpl. unfold payload_links in Hpl. destruct (rmapM (item_links []) (map v_enc vs)) as [cs| | |] eqn:E; try discriminate.
        clear Hpl. revert cs E. induction vs as [|a vs IH]; [destruct Hin|]. intros cs E. cbn in E.
        destruct (item_links [] (v_enc a)) as [l| | |] eqn:Ea; try discriminate. cbn in E.
        destruct (rmapM (item_links []) (map v_enc vs)) as [l'| | |]; try discriminate.
        destruct Hin as [->|Hin]; [eauto|]. eapply IH; eauto.
    - cbn in Hin. apply repeat_spec in Hin. discriminate.
    - apply repr_branch in R as (_ & _ & _ & _ & blk & r & _ & _ & _ & R). apply inv_branch in I as (_ & _ & _ & _ & I).
      cbn in Hin. apply in_flat_map in Hin as (c & Hc & Hin). rewrite Forall_forall in *. eapply (H c Hc); eauto.
    - cbn in Hin. apply repeat_spec in Hin. discriminate.
  Qed.

  Lemma small_before fo off fo' off' : fext sec fo off fo' off' -> small_branches fo' -> small_branches fo.
  Proof.
    intros W H. apply (small_fits _ off). apply (small_fits _ off') in H. eapply log_fits_mono; [exact W|exact H].
  Qed.

  Lemma pack_err fo b n e fo' b' : Ps -> binv fo b n ->
    pack fo b = (Err e, fo', b') -> rel -> small_branches fo' -> rel_full /\ e = EStoreFull.
  Proof.
    intros ps I E s Hl. pose proof I as (F & Es & Ec & Er & G).
    destruct (pack_full cfg sec Hcfg Av Ps _ _ _ _ _ _ I E) as (Wall & n9 & _ & Hnp & _). destruct (Hnp ps) as [_ Hnp'].
    unfold pack in E.
    pose proof (rel_av s) as av. pose proof (rel_reads s) as rr.
    set (rts := match n with Some t => fst (groots t None) | None => [] end).
    destruct (roots fo b) as [rr0 fo1] eqn:Eroots.
    pose proof (roots_api _ _ _ _ _ _ _ _ _ I Eroots) as (S1 & H1 & H1r). fold rts in H1.
    pose proof (fsame_fext sec _ _ (b_off b) S1) as W1.
    destruct H1 as [->|[e0 ->]].
    2:{ destruct H1r as (rs & Hrs); [exact rr| |discriminate].
        eapply binv_avail; [exact I|exact av|]. exact (small_before _ _ _ _ Wall Hl). }
    clear H1r. rewrite Es, Ec in E.
    assert (I1 : binv fo1 b n).
    { split; [eapply fext_fok; eauto|]. splits; auto. exact (gn_mono cfg sec Av Ps _ _ _ _ _ W1 G). }
    destruct (run fo1 b _) as [[r1 fo2] b1] eqn:Erun.
    assert (Gr : Forall (gd cfg sec Av Ps (wof fo1 (b_off b))) rts).
    { unfold rts. destruct n as [t|]; [|constructor]. destruct I1 as (_ & _ & _ & _ & G1).
      apply groots_sub; [|apply G1]. intros x cs. apply gd_children. }
    assert (Hr : Forall (fun c => isealed (root_ix c) = true) rts /\ levels_desc (map root_ix rts) = true).
    { unfold rts. destruct n as [t|]; [|split; [constructor|easy]].
      destruct (groots_sealed t None) as (A1 & A2 & _). split; [|easy].
      eapply Forall_impl; [|exact A1]. now intros c []. }
    destruct Hr as [Hr1 Hr2].
    pose proof (post_tree_from_roots cfg sec Hcfg Av Ps Ps rts (wof fo1 (b_off b)) Gr Hr1 Hr2) as Hpost.
    pose proof (run_fext sec _ _ _ _ _ _ (wf_tree_from_roots sec cfg (map root_ix rts)) Erun) as W2.
    destruct r1 as [i|e1|p|]; try discriminate.
    2:{ injection E as -> -> ->. eapply run_err; eauto. }
    apply run_inv in Erun as (Erun & R1 & R2 & R3).
    unfold post in Hpost. rewrite Erun in Hpost. destruct Hpost as (n1 & A1 & A2 & A3).
    destruct (collect_from fo2 _ _) as [rr3 fo3] eqn:Ecol.
    assert (I1' : binv fo2 {| b_root := b_root b; b_off := b_off b1; b_sec := b_sec b; b_cfg := b_cfg b |} n).
    { destruct I1 as (J1 & J2 & J3 & J4 & J5). split; [eapply fext_fok; eauto|]. cbn. splits; auto.
      exact (gn_mono cfg sec Av Ps _ _ _ _ _ W2 J5). }
    assert (Ecol' : collect_from fo2 (snapshot {| b_root := b_root b; b_off := b_off b1; b_sec := b_sec b; b_cfg := b_cfg b |}) (builder_count (set_root b1 i)) = (rr3, fo3)).
    { rewrite <- Ecol. unfold snapshot. cbn. now destruct (b_root b). }
    pose proof (collect_api _ _ _ _ _ _ _ _ _ _ I1' Ecol') as (S3 & H3 & H3r).
    pose proof (fsame_fext sec _ _ (b_off b1) S3) as W3.
    destruct H3 as [->|[e3 ->]].
    2:{ injection E as E1 E2 E3. rewrite <- E2 in Hl. pose proof (small_before _ _ _ _ W3 Hl) as Hs2.
        pose proof (binv_avail cfg sec Av Ps _ _ _ I1' av Hs2) as A9. specialize (H3r rr A9). discriminate. }
    assert (I3 : binv fo3 (set_root b1 i) n1).
    { split; [eapply fext_fok; eauto; eapply fext_fok; eauto; apply I1|]. cbn. rewrite R2, R3, A1. splits; auto.
      apply (gn_mono cfg sec Av Ps _ _ _ _ _ W3). destruct n1 as [t|]; [|easy]. destruct A2 as [A2 A4]. split; [exact A2|].
      intros _. apply (packed_pk cfg); auto; apply A2; auto. }
    destruct (omapM _ _) as [rest|] eqn:Eo.
    - apply omapM_inv in Eo. eapply extend_err; eauto. intros _. apply Forall_forall. intros [k v] Hin. cbn [snd].
      destruct n as [t|]; cbn [ocontent] in Eo.
      + destruct G as ((GR & GI & _) & _). eapply content_good; eauto.
        apply (in_map Some) in Hin. rewrite <- Eo in Hin. rewrite <- (firstn_skipn (builder_count (set_root b1 i)) (content t)).
        apply in_or_app. right. exact Hin.
      + rewrite skipn_nil in Eo. destruct rest; [destruct Hin|discriminate].
    - injection E as <- <- <-. now destruct Hnp'.
  Qed.
End Progress.

Section Repair.
  Context {T : Types} {TL : TypesLaws T} {X : Ext} {XL : ExtLaws X}
          {B : Backend T} {BL : BackendLaws T B} {Rl : Rel T X B}.
  Variable cfg : Config.
  Variable sec : Secrets.
  Hypothesis Hcfg : config_ok cfg.
  Variable Av Ps : Prop.

  Lemma repair_err fo b n e fo' b' : bgood cfg sec Av Ps fo b n ->
    repair fo b = (Err e, fo', b') -> rel -> small_branches fo' -> rel_full /\ e = EStoreFull.
  Proof.
    intros I E s Hl. pose proof I as (F & Es & Ec & Er & G). unfold repair in E. rewrite Er in E.
    destruct n as [t|]; cbn [option_map] in E; [|discriminate].
    rewrite Es, Ec in E. destruct (run fo b _) as [[r0 fo1] b1] eqn:Erun.
    destruct r0 as [[[i rep] cur]|e0|p0|]; try discriminate. injection E as -> -> ->.
    pose proof (gt_gd _ _ _ _ _ _ _ G) as (R & Iv & _ & _).
    eapply run_err; [|exact Erun|exact s|exact Hl].
    apply (post_repair0 cfg sec True); auto; try (now apply fok_wok); try apply depth_ok.
  Qed.
End Repair.

Section Props.
  Context {T : Types} {TL : TypesLaws T} {X : Ext} {XL : ExtLaws X}
          {B : Backend T} {BL : BackendLaws T B}.
  Variable cfg : Config.
  Variable sec : Secrets.
  Hypothesis Hcfg : config_ok cfg.

  (** Key and summary sequences have only valid links, and links are cids. *)
  Definition types_good : Prop :=
    (forall k, valid_links (ks_enc k)) /\ (forall s, valid_links (ss_enc s)) /\ (forall l, cid_read (l_cid l) <> None).
  Hypothesis Htypes : types_good.

  Lemma part_atom c' c : part c' c -> match c with CTag _ _ | CArr _ | CMap _ => True | _ => c' = c end.
  Proof. destruct 1; auto. now destruct c'. Qed.

  Lemma part_clink b l : part (CTag 42 (CBytes b)) (clink l) -> exists rest, b = x00 :: rest /\ cid_read rest <> None.
  Proof.
    destruct Htypes as (_ & _ & H3). destruct l as [l|]; cbn; intros H; [|now apply part_atom in H].
    unfold ccid in H. inversion H as [E|t c H1 E1| | |]; subst; [|now apply part_atom in H1]. eauto.
  Qed.

  Lemma Hidx (i : Index) : valid_links (enc_index i).
  Proof.
    destruct Htypes as (H1 & H2 & _).
    intros b H. destruct i as [x|x]; cbn in H; (inversion H as [| | |l a c Hin Hp E|l a c Hin Hp E]; subst; cbn in Hin).
    all: repeat match goal with D : _ \/ _ |- _ => destruct D as [D|D] | D : (_, _) = (_, _) |- _ => injection D as <- <- | D : False |- _ => destruct D end.
    all: try (now apply part_atom in Hp); try (now apply part_clink in Hp); eauto.
    - exact (H1 _ _ Hp).
    - exact (H2 _ _ Hp).
  Qed.

  Instance works : Rel T X B := {|
    rel := True;
    rel_full := refuses B;
    rel_puts := fun _ s d H => ex_intro _ s (ex_intro _ d H);
    rel_index := fun _ i => valid_item_links _ (Hidx i)
  |}.
  Instance works_av (RR : ReliableReads T B) : RelAv works (k_lose no_loss = false).
  Proof. split; auto. Qed.

  Lemma good_src items : (forall k v, In (k, v) items -> good_value cfg v) -> gsrc cfg items.
  Proof.
    intros H _. apply Forall_forall. intros [k v] Hin. destruct (H k v Hin) as [H1 H2]. split; [exact H1|].
    now apply valid_item_links.
  Qed.

  (** Done, or the store refused a block, or a number is too large: more than
      2^64 bytes of keystream, entries and so on. *)
  Definition done_or_full (r : res unit) : Prop :=
    r = Ok tt \/ (r = Err EStoreFull /\ refuses B) \/ r = Panic POverflow.

  Lemma done_intro r : no_assert r -> (forall e, r = Err e -> refuses B /\ e = EStoreFull) -> done_or_full r.
  Proof.
    intros H1 H2. unfold done_or_full. destruct r as [[]|e|[]|]; auto; try now destruct H1.
    destruct (H2 e eq_refl) as [H3 ->]. auto.
  Qed.

  (** [extend] of a packed builder. *)
  Theorem C60_extend s items r fo' b' (RR : ReliableReads T B) :
    reach no_loss cfg sec s -> says_packed (sy_fo s) (snapshot (sy_b s)) true ->
    (forall k v, In (k, v) items -> good_value cfg v) ->
    extend (sy_fo s) (sy_b s) items = (r, fo', b') -> small_branches fo' ->
    done_or_full r.
  Proof.
    intros R P Hg E Hs. destruct (reach_b cfg sec Hcfg _ _ R) as (n & I). apply done_intro.
    - destruct (extend_api cfg sec Hcfg _ _ _ _ _ _ _ _ _ I E) as (_ & _ & _ & S). apply S. split; [easy|].
      apply opacked_b. symmetry. exact (packed_b _ _ _ _ _ _ _ _ I P).
    - intros e ->. eapply (extend_err (Rl := works) cfg sec); eauto; [exact (works_av RR)|now apply good_src|exact Logic.I].
  Qed.

  Theorem C60_push s k v r fo' b' (RR : ReliableReads T B) :
    reach no_loss cfg sec s -> says_packed (sy_fo s) (snapshot (sy_b s)) true -> good_value cfg v ->
    push (sy_fo s) (sy_b s) k v = (r, fo', b') -> small_branches fo' ->
    done_or_full r.
  Proof.
    intros R P Hg E Hs. apply (C60_extend s [(k, v)] r fo' b' RR R P); auto. intros k0 v0 [[= <- <-]|[]]. exact Hg.
  Qed.

  (** [extend_unpacked] of any builder. *)
  Theorem C60_extend_unpacked s items r fo' b' (RR : ReliableReads T B) :
    reach no_loss cfg sec s ->
    (forall k v, In (k, v) items -> good_value cfg v) ->
    extend_unpacked (sy_fo s) (sy_b s) items = (r, fo', b') -> small_branches fo' ->
    done_or_full r.
  Proof.
    intros R Hg E Hs. destruct (reach_b cfg sec Hcfg _ _ R) as (n & I). apply done_intro.
    - destruct (extend_unpacked_api cfg sec Hcfg _ _ _ _ _ _ _ _ _ I E) as (_ & _ & _ & S). now apply S.
    - intros e ->. eapply (extend_unpacked_err (Rl := works) cfg sec); eauto; [exact (works_av RR)|now apply good_src|exact Logic.I].
  Qed.

  Theorem C60_pack s r fo' b' (RR : ReliableReads T B) :
    reach no_loss cfg sec s ->
    pack (sy_fo s) (sy_b s) = (r, fo', b') -> small_branches fo' ->
    done_or_full r.
  Proof.
    intros R E Hs. destruct (reach_b cfg sec Hcfg _ _ R) as (n & I). apply done_intro.
    - destruct (pack_api cfg sec Hcfg _ _ _ _ _ _ _ _ I E) as (_ & (n' & I' & Q & _)). now apply Q.
    - intros e ->. assert (ps : k_repair no_loss = false) by reflexivity.
      eapply (pack_err (Rl := works) cfg sec Hcfg); [exact (works_av RR)|exact ps|exact I|exact E|exact Logic.I|exact Hs].
  Qed.

  Theorem C60_retain s q r fo' b' (RR : ReliableReads T B) :
    reach no_loss cfg sec s ->
    retain (sy_fo s) (sy_b s) q = (r, fo', b') -> small_branches fo' ->
    done_or_full r.
  Proof.
    intros R E Hs. destruct (reach_b cfg sec Hcfg _ _ R) as (n & I). apply done_intro.
    - destruct (retain_api cfg sec _ _ _ _ _ _ _ _ _ _ I (any_purge_ok cfg sec q) E) as (_ & _ & _ & S). now apply S.
    - intros e ->. eapply (retain_err (Rl := works) cfg sec); eauto; [exact (works_av RR)|exact Logic.I].
  Qed.

  (** [repair], whatever was lost. *)
  Theorem C60_repair s r fo' b' :
    reach anything cfg sec s ->
    repair (sy_fo s) (sy_b s) = (r, fo', b') -> small_branches fo' ->
    (exists rep, r = Ok rep) \/ (r = Err EStoreFull /\ refuses B) \/ r = Panic POverflow.
  Proof.
    intros R E Hs. destruct (reach_b cfg sec Hcfg _ _ R) as (n & I).
    assert (N : no_assert r) by (eapply repair_api; eauto).
    destruct r as [rep|e|[]|]; eauto; try now destruct N.
    right. left. destruct (repair_err (Rl := works) cfg sec _ _ _ _ _ _ _ _ I E Logic.I Hs) as [H1 ->]. auto.
  Qed.
End Props.

(** A store that never refuses a block. *)
Corollary C60_unbounded {T : Types} {TL : TypesLaws T} {X : Ext} {XL : ExtLaws X} {B : Backend T} {BL : BackendLaws T B}
    cfg sec s items r fo' b' (RR : ReliableReads T B) :
  config_ok cfg -> types_good ->
  (forall st d, fst (sput st d) <> None) ->
  reach no_loss cfg sec s -> (forall k v, In (k, v) items -> good_value cfg v) ->
  (extend_unpacked (sy_fo s) (sy_b s) items = (r, fo', b')
   \/ pack (sy_fo s) (sy_b s) = (r, fo', b')
   \/ (exists q, retain (sy_fo s) (sy_b s) q = (r, fo', b'))
   \/ (says_packed (sy_fo s) (snapshot (sy_b s)) true /\ extend (sy_fo s) (sy_b s) items = (r, fo', b'))) ->
  small_branches fo' ->
  r = Ok tt \/ r = Panic POverflow.
Proof.
  intros Hc Ht Hp R Hg H Hs.
  assert (D : done_or_full (B := B) r).
  { destruct H as [E|[E|[[q E]|[P E]]]].
    - eapply C60_extend_unpacked; eauto.
    - eapply C60_pack; eauto.
    - eapply C60_retain; eauto.
    - eapply C60_extend; eauto. }
  destruct D as [D|[[D (st & d & F)]|D]]; auto. now apply Hp in F.
Qed.

(** Beside the theorems. *)
Lemma cnums_links l : valid_links (cnums l).
Proof.
  intros b H. unfold cnums in H. inversion H as [| |l0 c Hin Hp E| |]; subst. apply in_map_iff in Hin as (n & <- & _).
  now apply part_atom in Hp.
Qed.
Lemma types_good_case : types_good (T := ITypes).
Proof.
  refine (conj cnums_links (conj _ _)); [|discriminate].
  intros s b H. cbn in H. inversion H as [| |l0 c Hin Hp E| |]; subst. apply in_map_iff in Hin as (n & <- & _).
  unfold cpair in Hp. inversion Hp as [| |l0 c Hin Hq E| |]; subst. cbn in Hin. destruct Hin as [<-|[<-|[]]]; now apply part_atom in Hq.
Qed.
Lemma good_value_case (v : N) : good_value (T := ITypes) ecfg v.
Proof.
  split; [|intros b Hb; now apply part_atom in Hb]. cbn. unfold enc_head.
  repeat match goal with |- context [if ?b then _ else _] => destruct b end; vm_compute; discriminate.
Qed.

Definition okb {A} (r : res A) : bool := match r with Ok _ => true | _ => false end.

Example C60_case :
  reach no_loss ecfg esec st2 /\ reach no_loss ecfg esec st3 /\ config_ok ecfg /\ types_good (T := ITypes)
  /\ says_packed (sy_fo st2) (snapshot (sy_b st2)) true
  /\ (forall k v, In (k, v) (pairs 40 5) -> good_value ecfg v)
  /\ small_branches (mid3 (extend (sy_fo st2) (sy_b st2) (pairs 40 5)))
  /\ small_branches (mid3 (extend_unpacked (sy_fo st3) (sy_b st3) (pairs 40 5)))
  /\ small_branches (mid3 (pack (sy_fo st3) (sy_b st3)))
  /\ small_branches (mid3 (retain (sy_fo st3) (sy_b st3) rq))
  /\ okb (fst3 (retain (sy_fo st3) (sy_b st3) rq)) = true.
Proof.
  refine (conj st2_ok (conj st3_ok (conj ecfg_ok (conj types_good_case _)))).
  splits; [apply packed_c|intros k v _; apply good_value_case|apply smallb_ok..|]; vm_compute; reflexivity.
Qed.

(** A write that the store refuses. *)
Example C60_full_case :
  reach no_loss ecfg esec st4 /\ says_packed (sy_fo st4) (snapshot (sy_b st4)) true
  /\ small_branches (mid3 st4x) /\ fst3 st4x = Err EStoreFull.
Proof.
  splits; [exact st4_ok|apply packed_c|apply smallb_ok|]; vm_compute; reflexivity.
Qed.

(** The writing functions: what they return when they succeed, and that their
    assertions hold. *)
From Coq Require Import List NArith ZArith Lia Bool String Arith.
From Verif Require Import Base BaseProofs Cbor Types Seq SeqProofs Query World Read Write Ghost Frame ReadProofs Packable.
Import ListNotations.
#[local] Coercion s_now : Setting >-> Config.

Lemma combine_fst_snd {A C} (l : list (A * C)) : combine (map fst l) (map snd l) = l.
Proof. induction l as [|[a c] l IH]; cbn; [easy|]. now rewrite IH. Qed.
Lemma combine_app {A C} (a1 a2 : list A) (c1 c2 : list C) :
  List.length a1 = List.length c1 -> combine (a1 ++ a2) (c1 ++ c2) = combine a1 c1 ++ combine a2 c2.
Proof.
  revert c1; induction a1 as [|a a1 IH]; intros [|c c1] H; try discriminate; cbn; [easy|].
  f_equal. apply IH. now injection H.
Qed.

(** ** Program logic *)

(** When success is promised: the links in index records are valid. The only
    error is then that the store refuses a block, with [rel_full]. *)
Class Rel (T : Types) (X : Ext) (B : Backend T) := {
  rel : Prop;
  rel_full : Prop;
  rel_puts : rel -> forall s d, fst (sput s d) = None -> rel_full;
  rel_index : rel -> forall i : Index, exists ls, item_links [] (enc_index i) = Ok ls
}.

(** No promise. *)
Global Instance no_rel T X B : Rel T X B | 100 :=
  {| rel := False; rel_full := False; rel_puts := fun H => match H with end; rel_index := fun H => match H with end |}.

(** Blocks are then available and can be read. *)
Class RelAv {T X B} (R : Rel T X B) (Av : Prop) : Prop := {
  rel_av : @rel T X B R -> Av;
  rel_reads : @rel T X B R -> ReliableReads T B
}.
Global Instance no_rel_av T X B Av : RelAv (no_rel T X B) Av.
Proof. split; intros []. Qed.

Section Post.
  Context {T : Types} {TL : TypesLaws T} {X : Ext} {XL : ExtLaws X}
          {B : Backend T} {BL : BackendLaws T B} {Rl : Rel T X B}.

  (** Every branch block written so far can be decompressed again. *)
  Definition log_fits (w : world) : Prop :=
    Forall (fun e => ev_leaf e = true \/ fits (ev_raw e) = true) (w_log w).

  (** If [m] succeeds [Q] holds; if it fails an assertion (or runs out of fuel)
      then [S] does not hold; if it returns an error then success was not promised
      or a branch is too large or the store refused a block. *)
  Definition post {A} (m : M A) (w : world) (S : Prop) (Q : A -> world -> Prop) : Prop :=
    match m w with
    | (Ok a, w') => Q a w'
    | (Err e, w') => rel -> log_fits w' -> rel_full /\ e = EStoreFull
    | (Panic (PAssert _), _) | (NoFuel, _) => ~ S
    | _ => True
    end.

  Variable sec : Secrets.
  Notation key := (index_key sec).

  Lemma post_ret {A} (a : A) w S (Q : A -> world -> Prop) : Q a w -> post (ret a) w S Q.
  Proof. exact (fun H => H). Qed.

  Lemma post_conseq {A} (m : M A) w S (Q R : A -> world -> Prop) :
    post m w S Q -> (forall a w', Q a w' -> R a w') -> post m w S R.
  Proof. unfold post. destruct (m w) as [[a|e|[]|] w']; auto. Qed.

  Lemma post_bind {A C} (m : M A) (f : A -> M C) w S Q R :
    frame (wext key) m -> post m w S Q ->
    (forall a w', wext key w w' -> Q a w' -> post (f a) w' S R) -> post (mbind m f) w S R.
  Proof.
    unfold post, mbind. intros Fm Hm Hf. destruct (m w) as [[a|e|[]|] w'] eqn:E; auto.
    apply Hf; auto. eapply Fm; eauto.
  Qed.

  Lemma post_assert {A} b msg (f : unit -> M A) w (S : Prop) R :
    (S -> b = true) -> (b = true -> post (f tt) w S R) -> post (mbind (massert b msg) f) w S R.
  Proof.
    intros H1 H2. destruct b; cbn; [now apply H2|]. intros s. discriminate (H1 s).
  Qed.

  Lemma post_lift {A C} (r : res A) (f : A -> M C) w (S : Prop) R :
    (S -> no_assert r) -> (rel -> forall e, r <> Err e) -> (forall a, r = Ok a -> post (f a) w S R) -> post (mbind (lift r) f) w S R.
  Proof.
    intros H1 H3 H2. unfold post, mbind, lift. destruct r as [a|e|[]|]; try exact I; try (intros s; exact (H1 s)).
    - now apply H2.
    - intros s. now destruct (H3 s e).
  Qed.

  Lemma post_rd {A C} (m : M A) (f : A -> M C) P a w (S : Prop) R :
    frame (rext key) m -> wok key w -> rd sec m P a -> (rel -> log_fits w -> ReliableReads T B /\ P (w_store w)) ->
    (forall w', rext key w w' -> post (f a) w' S R) -> post (mbind m f) w S R.
  Proof.
    intros Fm W Hm HP Hf. unfold post, mbind. destruct (m w) as [r w'] eqn:E.
    destruct (Hm _ _ _ W E) as [[->|[e ->]] Hr]; [apply Hf; eapply Fm; eauto|].
    intros s Hlog. apply Fm in E as (_ & _ & _ & El).
    unfold log_fits in Hlog. rewrite El in Hlog. destruct (HP s Hlog) as [H1 H2]. specialize (Hr H1 H2). discriminate.
  Qed.
End Post.

Section Good.
  Context {T : Types} {TL : TypesLaws T} {X : Ext} {XL : ExtLaws X}
          {B : Backend T} {BL : BackendLaws T B}.

  Definition ok_in (w : world) (t : tree) : Prop := log_fits w -> avail (w_store w) t.

  Variable cfg : Setting.
  Variable sec : Secrets.
  Notation key := (index_key sec).
  (** Premises under which blocks are available and purged nodes sealed. *)
  Variable Av Ps : Prop.

  Definition gd (w : world) (t : tree) : Prop :=
    repr sec (w_off w) t /\ inv cfg t /\ (Av -> ok_in w t) /\ (Ps -> psealed t).

  Lemma log_fits_mono w w' : wext key w w' -> log_fits w' -> log_fits w.
  Proof.
    intros (_ & _ & new & E & _) H. unfold log_fits in *. rewrite E in H. now apply Forall_app in H.
  Qed.

  Lemma ok_in_mono w w' t : wext key w w' -> ok_in w t -> ok_in w' t.
  Proof.
    intros W H Hf. eapply avail_mono; [|apply H; eapply log_fits_mono; eauto].
    intros l d. now apply wext_blocks with (key := key).
  Qed.

  Lemma gd_mono w w' t : wext key w w' -> gd w t -> gd w' t.
  Proof.
    intros W (H1 & H2 & H3 & H4). split; [|split; [easy|split; [|easy]]].
    - eapply repr_weaken; [|exact H1]. eapply wext_off; eauto.
    - intros a. eapply ok_in_mono; eauto.
  Qed.

  Lemma gd_Forall_mono w w' ts : wext key w w' -> Forall (gd w) ts -> Forall (gd w') ts.
  Proof. intros W. apply Forall_impl. intros t. now apply gd_mono. Qed.

  Lemma gd_children w x cs : gd w (TBranch x cs) -> Forall (gd w) cs.
  Proof.
    intros (H1 & H2 & H3 & H4). apply repr_branch_load in H1 as (l & r & _ & _ & _ & _ & _ & H1 & _).
    apply invs_branch in H2 as (_ & _ & _ & _ & H2).
    assert (H3' : Forall (fun c => Av -> ok_in w c) cs).
    { apply Forall_forall. intros c Hc a Hf. specialize (H3 a Hf). apply avail_branch in H3 as (_ & _ & H3).
      rewrite Forall_forall in H3. auto. }
    assert (H4' : Forall (fun c => Ps -> psealed c) cs).
    { apply Forall_forall. intros c Hc a. specialize (H4 a). apply psealed_branch in H4.
      rewrite Forall_forall in H4. auto. }
    rewrite Forall_forall in *. intros c Hc. repeat split; auto.
  Qed.

  (** A branch over good children. *)
  Lemma gd_branch w x cs blk r :
    Forall (gd w) cs -> cs <> [] ->
    bi_link x = Some (digest blk) -> branch_block key blk (map root_ix cs) r ->
    Forall (repr sec (fst r)) cs -> (snd r <= w_off w)%N ->
    (Av -> log_fits w -> fits (idxs_raw (map root_ix cs)) = true) ->
    (Av -> exists d, sblocks (w_store w) (digest blk) = Some d) ->
    bi_count x = sum_nat (map icount (map root_ix cs)) ->
    bi_level x = S (max_nat (map ilevel (map root_ix cs))) ->
    sealed_in cfg (map root_ix cs) (bi_level x) (bi_sealed x) ->
    branch_sums x = map summarize (map root_ix cs) ->
    List.length cs <= max_branches (s_hi cfg) (bi_level x) ->
    bi_vbytes x = fold_right N.add 0%N (map ivbytes (map root_ix cs)) ->
    gd w (TBranch x cs).
  Proof.
    intros G Hne Hl Hb Hr Hoff Hfit Hst Hc Hlv Hs Hsum Hw Hvb. split; [|split; [|split]].
    - apply repr_branch. split; [easy|]. split; [easy|]. split; [now rewrite Hsum, !map_length|].
      split; [|eauto 8]. apply Forall_forall. intros c Hin. rewrite Hlv. apply Nat.lt_succ_r.
      apply max_nat_in. now apply in_map.
    - apply invs_branch. repeat split; auto; try apply Hs. eapply Forall_impl; [|exact G]. now intros t (_ & H & _).
    - intros a Hf. apply avail_branch. split; [destruct (Hst a) as (d & Hd); eauto|]. split; [auto|].
      eapply Forall_impl; [|exact G]. intros t (_ & _ & H & _). now apply H.
    - intros a. apply psealed_branch. eapply Forall_impl; [|exact G]. intros t (_ & _ & _ & H). now apply H.
  Qed.
End Good.

Lemma max_branches_pos (c : Config) : config_ok c -> forall level, 1 <= max_branches c level.
Proof. intros (C1 & C2 & C3 & C4) level. unfold max_branches. destruct (Nat.eqb level 1); lia. Qed.

(** Split conjunctions without unfolding anything. *)

Section WriteProofs.
  Context {T : Types} {TL : TypesLaws T} {X : Ext} {XL : ExtLaws X}
          {B : Backend T} {BL : BackendLaws T B} {Rl : Rel T X B}.
  Variable cfg : Setting.
  Variable sec : Secrets.
  Notation key := (index_key sec).
  Hypothesis Hcfg : setting_ok cfg.
  (** Premises for availability, for sealed purged nodes, and for assertions to hold. *)
  Variable Av Ps Sf : Prop.
  Context {RA : RelAv Rl Av}.
  Notation gd := (gd cfg sec Av Ps).
  Notation source := (list (K * V)).

  (** A value that is small enough and whose links are valid. *)
  Definition storable (v : V) : Prop :=
    (Nlen (enc (v_enc v)) <= max_uncompressed_leaf_size cfg)%N
    /\ exists ls, item_links [] (v_enc v) = Ok ls.
  (** What is needed of the entries to be written. *)
  Definition gsrc (from : source) : Prop := rel -> Forall (fun kv => storable (snd kv)) from.

  Lemma gsrc_nil : gsrc [].
  Proof. intros _. constructor. Qed.
  Lemma gsrc_rest from taken rest : from = taken ++ rest -> gsrc from -> gsrc rest.
  Proof. intros -> H s. specialize (H s). now apply Forall_app in H. Qed.

  Lemma wext_rext w w' : rext key w w' -> wext key w w'.
  Proof. apply rext_wext. Qed.

  Lemma post_encrypt_put {C} leaf k z raw (f : event -> L -> M C) w S Q :
    zs_data z <> [] -> Forall cid_valid (zs_links z) -> z_dec (zs_data z) = Some raw ->
    (forall e l w', wext key w w' ->
       l = digest (ev_block e) ->
       block_payload k (ev_block e) raw (w_off w, w_off w') ->
       sblocks (w_store w') l = Some (ev_block e) ->
       (log_fits w' -> leaf = true \/ fits raw = true) ->
       (exists d, decode_block (ev_block e) = Some (w_off w, zs_links z, d)) ->
       post (f e l) w' S Q) ->
    post (mbind (encrypt_block leaf k z (raw_of z)) (fun e => mbind (put_block e) (f e))) w S Q.
  Proof.
    intros Hne Hls Hz Hf. unfold post. pose proof (wf_put sec leaf k z Hne w) as F.
    unfold mbind in *. unfold encrypt_block in *.
    destruct (reserve (w_off w) (Nlen (zs_data z))) as [[o o']|e|p|] eqn:Er;
      apply reserve_spec in Er as [[Er Hlt]|Er]; try discriminate.
    2: { injection Er as ->. exact I. }
    injection Er as -> ->. unfold cbor_bytes in *.
    destruct (cbor_ok (block_cbor (w_off w) (zs_links z) (apply_keystream k nonce (w_off w) (zs_data z)))) eqn:Eok;
      cbn [rmap rbind] in *; [|exact I].
    remember (enc (block_cbor (w_off w) (zs_links z) (apply_keystream k nonce (w_off w) (zs_data z)))) as blk eqn:Hblk.
    unfold put_block in *. cbn [w_store set_off add_event ev_block] in *.
    destruct (sput (w_store w) blk) as [[l|] s] eqn:Ep.
    2: { intros Hr _. split; [|easy]. apply (rel_puts Hr (w_store w) blk). now rewrite Ep. }
    apply sput_link in Ep as Hl. destruct Hl as [Hl Hin].
    specialize (F _ _ eq_refl).
    apply Hf; auto; cbn.
    - rewrite Hblk. apply (block_payload_enc k (w_off w) z raw); auto.
    - unfold log_fits. cbn. intros H. apply Forall_app in H as [_ H]. apply Forall_inv in H. cbn in H.
      unfold raw_of in H. now rewrite Hz in H.
    - exists (apply_keystream k nonce (w_off w) (zs_data z)). rewrite Hblk, <- (app_nil_r (enc _)). now apply decode_block_enc.
  Qed.

  (** ** Leaves *)

  Lemma item_links_no_assert : forall x tags, no_assert (item_links tags x).
  Proof.
    fix IH 1. intros x tags. destruct x as [?|?|b0|?|l0|l0|t0 c0|?|?]; cbn -[cid_read]; try exact I.
    - destruct tags as [|t [|]]; try exact I. destruct (t =? 42)%N; [|exact I].
      destruct b0 as [|[] rest]; try exact I. destruct (cid_read rest); exact I.
    - unfold rmap. assert (H : no_assert (rmapM (item_links []) l0)).
      { induction l0 as [|y l0 IHl]; [exact I|]. cbn. specialize (IH y []).
        destruct (item_links [] y) as [|e|[]|]; try exact I; try exact IH.
        destruct (rmapM (item_links []) l0) as [|e|[]|]; try exact I; exact IHl. }
      destruct (rmapM (item_links []) l0) as [|e|[]|]; try exact I; exact H.
    - unfold rmap.
      assert (H : no_assert (rmapM (fun kv : cbor * cbor => rbind (item_links [] (fst kv)) (fun a0 => rbind (item_links [] (snd kv)) (fun b0 => Ok (a0 ++ b0)))) l0)).
      { induction l0 as [|[y1 y2] l0 IHl]; [exact I|]. cbn. pose proof (IH y1 []) as H1. pose proof (IH y2 []) as H2.
        destruct (item_links [] y1) as [|e|[]|]; cbn; try exact I; try exact H1.
        destruct (item_links [] y2) as [|e|[]|]; cbn; try exact I; try exact H2.
        destruct (rmapM _ l0) as [|e|[]|]; try exact I; exact IHl. }
      destruct (rmapM _ l0) as [|e|[]|]; try exact I; exact H.
    - apply IH.
  Qed.

  Lemma scrape_no_assert x ls : no_assert (scrape_links x ls).
  Proof.
    unfold scrape_links. destruct (parse_seq x) as [items|]; cbn; [|exact I].
    assert (H : no_assert (rmapM (item_links []) items)).
    { induction items as [|y l0 IHl]; [exact I|]. cbn. pose proof (item_links_no_assert y []) as Hi.
      destruct (item_links [] y) as [|e|[]|]; try exact I; try exact Hi.
      destruct (rmapM (item_links []) l0) as [|e|[]|]; try exact I; exact IHl. }
    destruct (rmapM (item_links []) items) as [|e|[]|]; try exact I; exact H.
  Qed.

  Lemma fill_no_assert c from keys l a b m : no_assert (fill c from keys l a b m).
  Proof.
    assert (Hb : forall x : cbor, no_assert (cbor_bytes x)).
    { intros x. unfold cbor_bytes. destruct (cbor_ok x); exact I. }
    pose proof scrape_no_assert as Hs.
    assert (Hl : forall from keys size chunks ls, no_assert (fill_loop l a b m from keys size chunks ls)).
    { clear keys from. induction from as [|[k v] from IH]; intros; cbn; [exact I|].
      destruct (Nat.leb m (List.length keys)); [exact I|].
      specialize (Hb (v_enc v)). destruct (cbor_bytes (v_enc v)) as [bs|e|[]|]; cbn; try exact I; try exact Hb.
      destruct (b <? Nlen bs)%N; [exact I|]. destruct (b <? size + Nlen bs)%N; [exact I|].
      specialize (Hs bs ls). destruct (scrape_links bs ls) as [x|e|[]|]; cbn; try exact I; try exact Hs.
      destruct (a <=? z_flushed l (chunks ++ [bs]))%N; [exact I|]. apply IH. }
    unfold fill.
    set (st := match c with [] => _ | _ => _ end).
    assert (Hst : no_assert st).
    { subst st. destruct c as [|c0 c]; [exact I|]. unfold decompress.
      destruct (z_dec (c0 :: c)) as [b0|]; [|exact I]. destruct (max_capacity <? Nlen b0)%N; [exact I|].
      cbn [rbind]. specialize (Hs b0 []). destruct (scrape_links b0 []) as [x|e|[]|]; cbn; try exact I; exact Hs. }
    destruct st as [[[size chunks] ls]|e|[]|]; cbn; try exact I; try exact Hst.
    specialize (Hl from keys size chunks ls).
    destruct (fill_loop l a b m from keys size chunks ls) as [x|e|[]|]; cbn; try exact I; exact Hl.
  Qed.

  (** Leaf payloads can always be decompressed. *)
  Lemma fill_fits c from keys l a b m vs0 (taken : source) z full keys' from' :
    fill c from keys l a b m = Ok (z, full, keys', from') ->
    (c = [] /\ vs0 = [] \/ c <> [] /\ z_dec c = Some (vals_raw vs0)) ->
    (b <= max_capacity)%N ->
    (taken <> [] -> (Nlen (vals_raw (vs0 ++ map snd taken)) <= b)%N) ->
    fits (vals_raw (vs0 ++ map snd taken)) = true.
  Proof.
    intros E Hc Hb Ht. unfold fits. apply negb_true_iff, N.ltb_ge.
    destruct taken as [|t taken]; [|specialize (Ht ltac:(discriminate)); lia].
    cbn. rewrite app_nil_r. destruct Hc as [[-> ->]|[Hne Hz]]; [cbn; unfold max_capacity; lia|].
    unfold fill in E. destruct c as [|c0 c]; [congruence|]. rinv E. rinv E0.
    rewrite (decompress_spec _ _ Hz) in E1. destruct (fits (vals_raw vs0)) eqn:F; [|discriminate].
    unfold fits in F. apply negb_true_iff, N.ltb_ge in F. exact F.
  Qed.

  Lemma fill_no_err c from keys l a m vs0 :
    (c = [] /\ vs0 = [] \/ c <> [] /\ z_dec c = Some (vals_raw vs0)) ->
    vals_ok vs0 = true -> fits (vals_raw vs0) = true -> (exists ls, payload_links (map v_enc vs0) = Ok ls) ->
    Forall (fun kv => storable (snd kv)) from ->
    forall e, fill c from keys l a (max_uncompressed_leaf_size cfg) m <> Err e.
  Proof.
    intros Hc Hok Hf (ls0 & Hl) Hs e.
    assert (Hloop : forall from keys size chunks ls, Forall (fun kv => storable (snd kv)) from ->
              forall e, fill_loop l a (max_uncompressed_leaf_size cfg) m from keys size chunks ls <> Err e).
    { clear -TL XL. induction from as [|[k v] from IH]; intros keys size chunks ls H e; cbn; [discriminate|].
      inversion H as [|? ? [H1 (lv & H2)] H3]; subst. cbn [snd] in *.
      destruct (Nat.leb m (List.length keys)); [discriminate|].
      unfold cbor_bytes. destruct (cbor_ok (v_enc v)) eqn:Eok; [|discriminate]. cbn.
      destruct (N.ltb_spec (max_uncompressed_leaf_size cfg) (Nlen (enc (v_enc v)))); [lia|].
      destruct (max_uncompressed_leaf_size cfg <? size + Nlen (enc (v_enc v)))%N; [discriminate|].
      rewrite scrape_links_enc, H2 by exact Eok. cbn.
      destruct (a <=? z_flushed l (chunks ++ [enc (v_enc v)]))%N; [discriminate|]. now apply IH. }
    unfold fill.
    assert (Hst : exists st, match c with
                  | [] => Ok (0%N, [], [])
                  | _ => rbind (decompress c) (fun raw => rbind (scrape_links raw []) (fun ls => Ok (Nlen raw, [raw], ls)))
                  end = Ok st).
    { destruct c as [|c0 c1]; [eauto|]. destruct Hc as [[Hc _]|[_ Hz]]; [discriminate|].
      rewrite (decompress_spec _ _ Hz), Hf. cbn [rbind]. unfold vals_raw.
      rewrite scrape_links_seq by exact Hok. rewrite Hl. cbn. eauto. }
    destruct Hst as ([[size chunks] ls] & ->). cbn [rbind].
    specialize (Hloop from keys size chunks ls Hs). destruct (fill_loop _ _ _ _ _ _ _ _ _) as [st|e'|p|]; cbn; try discriminate.
    intros [= ->]. now apply (Hloop e).
  Qed.

  (** [vs0]: values already in the compressed data. *)
  Lemma post_extend_leaf c keys from vs0 w :
    (c = [] /\ vs0 = [] \/ c <> [] /\ z_dec c = Some (vals_raw vs0)) ->
    vals_ok vs0 = true -> List.length keys = List.length vs0 ->
    (vs0 <> [] -> List.length keys <= max_leaf_count (s_hi cfg)) ->
    (Nlen (vals_raw vs0) <= max_uncompressed_leaf_size (s_hi cfg))%N ->
    (exists ls, payload_links (map v_enc vs0) = Ok ls) ->
    (Sf -> from <> []) -> gsrc from ->
    post (extend_leaf cfg sec c keys from) w Sf (fun p w' =>
      exists taken, from = taken ++ snd p
        /\ leaf_keys (fst p) = keys ++ map fst taken
        /\ gd w' (TLeaf (fst p) (vs0 ++ map snd taken))
        /\ (snd p <> [] -> li_sealed (fst p) = true)
        /\ (vs0 = [] -> taken <> [])
        /\ content (TLeaf (fst p) (vs0 ++ map snd taken)) = map Some (combine keys vs0) ++ map Some taken).
  Proof.
    intros Hc Hok Hlen Hle Hsz Hpl Hne Hgs. apply post_assert.
    { intros s. specialize (Hne s). now destruct from. }
    intros Hfrom. apply post_lift; [intros; apply fill_no_assert| |].
    { intros s. eapply fill_no_err; eauto. destruct Hcfg as (_ & _ & (_ & _ & _ & C4) & _). unfold fits, max_capacity.
      apply negb_true_iff, N.ltb_ge. lia. }
    intros [[[z full] keys'] from'] E.
    pose proof (fun taken => fill_fits _ _ _ _ _ _ _ vs0 taken _ _ _ _ E Hc) as Hfits.
    destruct Hcfg as ((C1 & C2 & C3 & C4) & _ & _ & _ & (L1 & _ & _ & L4)).
    eapply fill_spec in E as (taken & new & H1 & H2 & H3 & H4 & H5 & H6 & H7 & H8 & H9 & H10 & H11); eauto.
    assert (Hvalid : Forall cid_valid (zs_links z)).
    { rewrite H7. apply add_links_valid; [constructor|]. eapply payload_links_valid; eauto. }
    eapply post_encrypt_put; eauto.
    intros e l w' W Hl Hb Hst _ (d & Hd). apply post_ret. cbn [fst snd].
    set (x := {| li_sealed := _ |}).
    assert (Hx : leaf_keys x = keys ++ map fst taken).
    { unfold leaf_keys, x. cbn. now rewrite ks_to_of, H2. }
    assert (Hf : from <> []) by now destruct from.
    assert (Htk : vs0 = [] -> taken <> []).
    { intros ->. apply H10; auto. destruct keys; [cbn; lia|discriminate]. }
    exists taken. split; [easy|]. split; [easy|].
    split; [|split; [exact H8|split; [easy|]]].
    - split; [|split; [|split]].
      + split; [now rewrite Hx, !app_length, !map_length, Hlen|].
        exists (ev_block e), (w_off w, w_off w'). split; [cbn; now rewrite Hl|]. split; [|cbn; lia].
        split; [exact Hb|]. split; [exact H5|]. exists (w_off w), d, new. split; [exact H6|]. now rewrite Hd, H7.
      + cbn [inv]. split; [|split; [apply Hfits; [unfold max_capacity; lia|]; intros Ht; apply H9, Ht|]].
        2:{ destruct taken; [cbn [map]; now rewrite app_nil_r|]. eapply N.le_trans; [|exact L4]. apply H9. discriminate. }
        rewrite Hx, <- H2. split.
        * rewrite H2, app_length, map_length. destruct vs0 as [|v vs0]; [|cbn in Hlen; lia].
          specialize (Htk eq_refl). destruct taken; [congruence|]. cbn. lia.
        * destruct taken as [|t taken].
          { rewrite H2. cbn. rewrite app_nil_r. destruct vs0; [now specialize (Htk eq_refl)|]. apply Hle. discriminate. }
          eapply Nat.le_trans; [|exact L1]. apply H9. discriminate.
      + intros _ Hlog. split; [exists l, (ev_block e); auto|]. apply Hfits; [unfold max_capacity; lia|].
        intros Ht. apply H9, Ht.
      + intros _. exact I.
    - cbn. rewrite Hx, <- map_app. f_equal.
      rewrite combine_app by easy. now rewrite combine_fst_snd.
  Qed.

  Lemma post_leaf_from_iter from w : from <> [] -> gsrc from ->
    post (leaf_from_iter cfg sec from) w Sf (fun p w' =>
      exists taken vs, from = taken ++ snd p
        /\ gd w' (TLeaf (fst p) vs)
        /\ (snd p <> [] -> li_sealed (fst p) = true)
        /\ taken <> []
        /\ content (TLeaf (fst p) vs) = map Some taken).
  Proof.
    intros Hne Hgs. apply post_assert; [now destruct from|]. intros _.
    eapply post_conseq; [apply post_extend_leaf with (vs0 := []); auto; try congruence; [cbn; lia|now exists []]|].
    intros [x from'] w' (taken & H1 & H2 & H3 & H4 & H5 & H6). exists taken, (map snd taken). cbn in H5, H6. auto 6.
  Qed.

  (** ** Branches *)

  Lemma from_iter_ipld_no_assert items lvl : no_assert (from_iter_ipld items lvl).
  Proof.
    unfold from_iter_ipld.
    assert (H : forall chunks ls, no_assert (encode_items index_bytes items chunks ls)).
    { induction items as [|i items IH]; intros; cbn; [exact I|].
      unfold index_bytes at 1. destruct (index_ok i); cbn; [|exact I].
      pose proof (scrape_no_assert (enc (enc_index i)) ls) as Hs.
      destruct (scrape_links (enc (enc_index i)) ls) as [x|e|[]|]; cbn; try exact I; try exact Hs. apply IH. }
    specialize (H [] []). destruct (encode_items index_bytes items [] []) as [[]|e|[]|]; try exact I; exact H.
  Qed.

  Lemma from_iter_ipld_no_err items lvl : rel -> forall e, from_iter_ipld items lvl <> Err e.
  Proof.
    intros s e. unfold from_iter_ipld.
    assert (H : forall chunks ls e, encode_items index_bytes items chunks ls <> Err e).
    { induction items as [|i items IH]; intros; cbn; [discriminate|].
      unfold index_bytes at 1. destruct (index_ok i) eqn:Ei; cbn; [|discriminate].
      apply index_ok_spec in Ei as [Ei _]. rewrite scrape_links_enc by exact Ei.
      destruct (rel_index s i) as [li ->]. cbn. apply IH. }
    specialize (H [] [] e). destruct (encode_items index_bytes items [] []) as [[]|e'|p|]; cbn; congruence.
  Qed.

  Lemma post_persist_branch cs w (S : Prop) : 
    post (persist_branch cfg sec cs) w S (fun p w' =>
      exists blk r, fst p = digest blk /\ branch_block key blk cs r
        /\ (w_off w <= fst r)%N /\ (snd r <= w_off w')%N
        /\ (log_fits w' -> fits (idxs_raw cs) = true)
        /\ sblocks (w_store w') (digest blk) = Some blk).
  Proof.
    apply post_lift; [intros; apply from_iter_ipld_no_assert|apply from_iter_ipld_no_err|]. intros z E.
    apply from_iter_ipld_spec in E as (H1 & H2 & H3 & new & H4 & H5).
    assert (Hvalid : Forall cid_valid (zs_links z)).
    { rewrite H5. apply add_links_valid; [constructor|]. eapply payload_links_valid; eauto. }
    eapply post_encrypt_put; eauto.
    intros e l w' W Hl Hb Hst Hf (d & Hd). apply post_ret. cbn [fst].
    exists (ev_block e), (w_off w, w_off w'). split; [easy|]. split.
    { split; [exact Hb|]. split; [exact H1|]. exists (w_off w), d, new. split; [exact H4|]. now rewrite Hd, H5. }
    cbn [fst snd].
    split; [lia|]. split; [lia|]. split; [|now rewrite <- Hl]. intros Hlog. now destruct (Hf Hlog).
  Qed.

  Lemma gd_repr_off w cs : Forall (gd w) cs -> Forall (repr sec (w_off w)) cs.
  Proof. apply Forall_impl. now intros t (H & _). Qed.

  Lemma map_nil_iff {A C} (f : A -> C) l : l <> [] -> map f l <> [].
  Proof. now destruct l. Qed.

  Lemma post_new_branch cs mode w :
    Forall (gd w) cs ->
    List.length cs <= max_branches (s_hi cfg) (S (max_nat (map ilevel (map root_ix cs)))) ->
    (Sf -> cs <> [] /\ (mode = Packed -> levels_desc (map root_ix cs) = true)) ->
    post (new_branch cfg sec (map root_ix cs) mode) w Sf (fun x w' =>
      cs <> [] /\ gd w' (TBranch x cs)
      /\ bi_level x = S (max_nat (map ilevel (map root_ix cs)))
      /\ bi_sealed x = branch_sealed cfg (map root_ix cs) (bi_level x)).
  Proof.
    intros G Hw Hs. apply post_assert.
    { intros s. apply Hs in s as [s _]. destruct cs; [congruence|easy]. }
    intros Hne0. assert (Hne : cs <> []) by now destruct cs. clear Hne0.
    apply post_assert.
    { intros s. apply Hs in s as [_ s]. destruct mode; auto. }
    intros _. eapply post_bind with (sec := sec); [apply wf_persist_branch|apply post_persist_branch|].
    intros [l len] w' W (blk & r & Hl & Hb & Hlo & Hhi & Hfit & Hst). cbn in Hl. apply post_ret.
    split; [easy|]. split; [|cbn; auto].
    eapply gd_branch with (blk := blk) (r := r); auto.
    - eapply gd_Forall_mono; eauto.
    - cbn. now rewrite Hl.
    - eapply repr_Forall_weaken; [exact Hlo|]. now apply gd_repr_off.
    - eauto.
    - cbn [bi_level bi_sealed]. destruct Hcfg as (_ & _ & _ & L1 & L2). split; now apply branch_sealed_le.
    - unfold branch_sums. cbn. now rewrite ss_to_of.
  Qed.

  (** All but the last are sealed and at level [l]; the last is packed. *)
  Definition plist (l : nat) (cs : list tree) : Prop :=
    forall pre last, cs = pre ++ [last] ->
      Forall (fun c => isealed (root_ix c) = true /\ ilevel (root_ix c) = l) pre /\ packed last = true.

  Definition sealed_at (l : nat) (c : tree) : Prop :=
    isealed (root_ix c) = true /\ ilevel (root_ix c) = l.

  Definition fills (l : nat) (f : source -> M (Index * source)) : Prop :=
    forall from w, from <> [] -> gsrc from -> post (f from) w Sf (fun p w' =>
      exists t taken, fst p = root_ix t /\ gd w' t /\ from = taken ++ snd p
        /\ content t = map Some taken /\ ilevel (root_ix t) = l /\ taken <> []
        /\ (snd p <> [] -> isealed (root_ix t) = true) /\ packed t = true /\ solid t).

  Lemma post_fill_children l f n : fills l f -> (forall from, frame (wext key) (f from)) ->
    forall cs from w, gsrc from ->
    post (fill_children f n (map root_ix cs) from) w Sf (fun p w' =>
      exists new taken, fst p = map root_ix (cs ++ new) /\ Forall (gd w') new
        /\ from = taken ++ snd p
        /\ flat_map content new = map Some taken
        /\ Forall (fun c => ilevel (root_ix c) = l) new
        /\ List.length new <= n
        /\ (snd p <> [] -> List.length new = n /\ Forall (sealed_at l) new)
        /\ plist l new
        /\ (from <> [] -> 0 < n -> new <> [])
        /\ Forall solid new
        /\ (from = [] -> new = [])
        /\ (new <> [] -> from <> [] /\ taken <> [])).
  Proof.
    intros Hf Ff. induction n as [|n IH]; intros cs from w Hgs.
    - cbn [fill_children]. apply post_ret. cbn [fst snd]. exists [], []. rewrite app_nil_r. cbn.
      repeat split; auto; try lia; try congruence; destruct pre; discriminate.
    - destruct from as [|p0 from].
      + cbn [fill_children]. apply post_ret. cbn [fst snd]. exists [], []. rewrite app_nil_r. cbn.
        repeat split; auto; try lia; try congruence; destruct pre; discriminate.
      + cbn [fill_children]. eapply post_bind with (sec := sec); [apply Ff|apply Hf; [discriminate|exact Hgs]|].
        intros [i from1] w1 W1 (t & taken & Ei & Gt & Hfrom & Hcont & Hlv & Htk & Hseal & Hpk & Hsol). cbn [fst snd] in *. subst i.
        replace (map root_ix cs ++ [root_ix t]) with (map root_ix (cs ++ [t])) by now rewrite map_app.
        unfold post. pose proof (wf_fill_children sec f n Ff (map root_ix (cs ++ [t])) from1 w1) as F2.
        specialize (IH (cs ++ [t]) from1 w1 (gsrc_rest _ _ _ Hfrom Hgs)). unfold post in IH.
        destruct (fill_children f n (map root_ix (cs ++ [t])) from1 w1) as [[[cs' from']|e|[]|] w2]; auto.
        specialize (F2 _ _ eq_refl).
        destruct IH as (new & taken2 & H1 & H2 & H3 & H4 & H5 & H6 & H7 & H8 & H9 & H9s & H10 & H11). cbn [fst snd] in *.
        exists (t :: new), (taken ++ taken2). rewrite <- app_assoc in H1. cbn [app] in H1.
        split; [easy|]. split; [constructor; [eapply gd_mono; eauto|easy]|].
        split; [now rewrite Hfrom, H3, app_assoc|]. split; [cbn; now rewrite Hcont, H4, map_app|].
        split; [now constructor|]. split; [cbn; lia|].
        assert (Hs1 : from1 <> [] -> sealed_at l t) by (intros ?; split; auto).
        split; [intros Hne; destruct (H7 Hne); split; [cbn; lia|]; constructor; auto; apply Hs1;
                intros ->; symmetry in H3; apply app_eq_nil in H3 as [_ H3]; auto|].
        split; [|split; [discriminate|]; split; [now constructor|]; split; [discriminate|]; intros _; split; [discriminate|]; now destruct taken].
        intros pre last Hpl. destruct pre as [|a pre]; cbn in Hpl.
        * injection Hpl as -> Hnew. auto.
        * injection Hpl as <- Hnew. apply H8 in Hnew as Hp. destruct Hp as [Hp1 Hp2].
          split; [|easy]. constructor; [|easy]. apply Hs1.
          assert (new <> []) by (rewrite Hnew; destruct pre; discriminate). now apply H11.
  Qed.

  Lemma levels_desc_const l cs : Forall (fun c => ilevel (root_ix c) = l) cs -> levels_desc (map root_ix cs) = true.
  Proof.
    induction cs as [|a cs IH]; intros H; [easy|]. inversion H; subst.
    destruct cs as [|b cs]; [easy|]. cbn [map levels_desc]. inversion H3; subst.
    apply andb_true_intro. split; [apply Nat.leb_le; lia|]. now apply IH.
  Qed.

  Lemma levels_desc_app_const l cs new :
    Forall (fun c => ilevel (root_ix c) = l) cs -> Forall (fun c => ilevel (root_ix c) <= l) new ->
    levels_desc (map root_ix new) = true ->
    levels_desc (map root_ix (cs ++ new)) = true.
  Proof.
    induction cs as [|a cs IH]; intros H Hn Hd; [easy|]. inversion H; subst. specialize (IH H3 Hn Hd).
    cbn [app map]. destruct (cs ++ new) as [|b r] eqn:E; [easy|]. cbn [map levels_desc] in *.
    apply andb_true_intro. split; [|exact IH]. apply Nat.leb_le.
    destruct cs as [|c cs].
    - cbn in E. subst new. now inversion Hn.
    - injection E as -> _. inversion H3; subst. lia.
  Qed.

  Lemma max_nat_const l ls : ls <> [] -> Forall (fun x => x = l) ls -> max_nat ls = l.
  Proof.
    intros Hne H. destruct ls as [|a ls]; [congruence|]. clear Hne. revert a H.
    induction ls as [|b ls IH]; intros a H; inversion H; subst; cbn; [lia|].
    specialize (IH b H3). cbn in IH. inversion H3; subst. lia.
  Qed.

  Lemma plist_packed x cs : cs <> [] ->
    Forall (fun c => ilevel (root_ix c) < bi_level x) cs -> plist (bi_level x - 1) cs -> packed (TBranch x cs) = true.
  Proof.
    intros Hne Hl Hp. destruct (exists_last Hne) as (pre & last & ->). destruct (Hp _ _ eq_refl) as [P1 P2].
    rewrite packed_branch, P2. apply orb_true_iff. right. apply andb_true_intro. split.
    - apply forallb_forall. intros c Hc. rewrite Forall_forall in P1. apply P1 in Hc as [-> ->]. now rewrite Nat.eqb_refl.
    - rewrite andb_true_r. apply Nat.ltb_lt. rewrite Forall_forall in Hl. apply Hl, in_or_app. right. now left.
  Qed.

  (** [extend_branch]: [cs] are the children so far. *)
  Lemma post_extend_branch_with f cs level from mode w :
    fills (level - 1) f -> (forall from, frame (wext key) (f from)) -> gsrc from ->
    Forall (gd w) cs ->
    (cs = [] \/ S (max_nat (map ilevel (map root_ix cs))) = level) ->
    List.length cs <= max_branches (s_hi cfg) level ->
    (Sf -> 0 < level /\ (cs = [] -> from <> []) /\
           match mode with
           | Packed => levels_desc (map root_ix cs) = true /\ (from <> [] -> Forall (sealed_at (level - 1)) cs)
           | Unpacked => True end) ->
    post (extend_branch_with cfg sec f (map root_ix cs) level from mode) w Sf (fun p w' =>
      exists new taken, gd w' (TBranch (fst p) (cs ++ new))
        /\ from = taken ++ snd p
        /\ flat_map content new = map Some taken /\ Forall solid new
        /\ bi_level (fst p) = level
        /\ (mode = Packed -> snd p <> [] -> bi_sealed (fst p) = true)
        /\ ((from <> [] -> Forall (sealed_at (level - 1)) cs) -> plist (level - 1) cs -> plist (level - 1) (cs ++ new))
        /\ (from <> [] -> List.length cs < max_branches cfg level -> taken <> [])
        /\ (from = [] -> new = [])).
  Proof.
    intros Hf Ff Hgs G Hlev Hlen Hs.
    apply post_assert; [intros s; apply Hs in s as (s & _); now apply Nat.ltb_lt|].
    intros Hpos. apply Nat.ltb_lt in Hpos.
    apply post_assert.
    { intros s. apply forallb_forall. intros c Hc. apply Nat.ltb_lt.
      destruct Hlev as [->|Hlev]; [easy|]. rewrite <- Hlev. apply Nat.lt_succ_r, max_nat_in, in_map, Hc. }
    intros Hbel.
    apply post_assert.
    { intros s. apply Hs in s as (_ & _ & s). destruct mode.
      - destruct s as [_ s]. destruct from; [easy|]. cbn [is_nil orb].
        apply forallb_forall. intros c Hc. apply in_map_iff in Hc as (t & <- & Ht).
        specialize (s ltac:(discriminate)). rewrite Forall_forall in s. apply s in Ht as [-> ->].
        now rewrite Nat.eqb_refl.
      - destruct cs as [|c0 cs0]; [easy|]. destruct Hlev as [|Hlev]; [discriminate|]. apply orb_true_iff. right. apply existsb_exists.
        assert (Hmax : forall l, l <> [] -> exists c, In c l /\ ilevel c = max_nat (map ilevel l)).
        { clear. induction l as [|a l IH]; [congruence|]. intros _. destruct l as [|b l].
          - exists a. cbn. split; [now left|lia].
          - destruct IH as (c & Hc & E); [discriminate|]. cbn [map] in *. cbn [max_nat fold_right] in *.
            fold (max_nat (ilevel b :: map ilevel l)) in *. rewrite <- E.
            destruct (Nat.max_spec (ilevel a) (ilevel c)) as [[_ M]|[_ M]].
            + exists c. split; [now right|]. cbn in E |- *. lia.
            + exists a. split; [now left|]. cbn in E |- *. lia. }
        destruct (Hmax (map root_ix (c0 :: cs0))) as (c & Hc & E); [discriminate|].
        exists c. split; [easy|]. apply Nat.eqb_eq. lia. }
    intros Hass.
    eapply post_bind with (sec := sec); [now apply wf_fill_children|now apply (post_fill_children (level - 1))|].
    intros [cs' from'] w1 W1 (new & taken & H1 & H2 & H3 & H4 & H5 & H6 & H7 & H8 & H9 & H9s & H10 & H11).
    cbn [fst snd] in *. subst cs'. rewrite map_length in H6, H7, H9.
    assert (Hlv : cs ++ new = [] \/ S (max_nat (map ilevel (map root_ix (cs ++ new)))) = level).
    { rewrite !map_app, max_nat_app.
      destruct new as [|c0 new].
      - cbn. rewrite app_nil_r, Nat.max_0_r. exact Hlev.
      - right. rewrite (max_nat_const (level - 1) (map ilevel (map root_ix (c0 :: new)))).
        + destruct Hlev as [->|Hlev]; cbn; lia.
        + discriminate.
        + now rewrite !Forall_map. }
    assert (Hsealed : (from <> [] -> Forall (sealed_at (level - 1)) cs) -> new <> [] -> Forall (sealed_at (level - 1)) cs).
    { intros H Hn. apply H. now apply H11. }
    eapply post_bind with (sec := sec); [apply wf_new_branch| |].
    { apply post_new_branch.
      - apply Forall_app. split; [eapply gd_Forall_mono; eauto|easy].
      - destruct Hlv as [Hlv|Hlv]; [rewrite Hlv; apply Nat.le_0_l|]. rewrite Hlv, app_length.
        destruct Hcfg as (_ & _ & _ & _ & L2). pose proof (max_branches_le _ _ level L2). lia.
      - intros s. apply Hs in s as (_ & Hne & s). split.
        + destruct cs as [|c0 cs]; [|discriminate]. apply H9; [auto|].
          pose proof (max_branches_pos cfg (proj1 Hcfg) level). cbn. lia.
        + intros ->. destruct s as [s1 s2]. destruct new as [|c0 new]; [now rewrite app_nil_r|].
          apply levels_desc_app_const with (l := level - 1).
          * specialize (Hsealed s2 ltac:(discriminate)). eapply Forall_impl; [|exact Hsealed]. now intros ? [_ ?].
          * eapply Forall_impl; [|exact H5]. intros; cbn in *; lia.
          * now apply levels_desc_const with (l := level - 1). }
    intros x w2 W2 (Hne & Gx & Hxl & Hxs).
    destruct Hlv as [Hlv|Hlv]; [congruence|]. rewrite Hlv in Hxl.
    apply post_assert.
    { intros s. apply Hs in s as (_ & _ & s). destruct from' as [|p from']; cbn [is_nil].
      - apply Nat.leb_le. lia.
      - apply andb_true_intro. split; [apply Nat.eqb_eq; lia|]. destruct mode; [|easy].
        destruct s as [_ s]. rewrite Hxs, Hxl. apply branch_sealed_intro.
        + rewrite Forall_map. apply Forall_app. split; [|now apply H7].
          apply s. intros ->. symmetry in H3. now apply app_eq_nil in H3 as [_ ?].
        + destruct (H7 ltac:(discriminate)) as [E _]. rewrite map_length, app_length. lia. }
    intros Hfin. apply post_ret. cbn [fst snd]. exists new, taken.
    split; [easy|]. split; [easy|]. split; [easy|]. split; [easy|]. split; [easy|]. split; [|split; [|split; [|easy]]].
    - intros -> Hf'. destruct from'; [congruence|]. cbn [is_nil] in Hfin. now apply andb_prop in Hfin.
    - intros Hsl Hpl. destruct new as [|c0 new]; [now rewrite app_nil_r|].
      intros pre last E. specialize (Hsealed Hsl ltac:(discriminate)).
      destruct (@exists_last _ (c0 :: new)) as (pre' & last' & E'); [discriminate|].
      rewrite E', app_assoc in E. apply app_inj_tail in E as [<- <-].
      destruct (H8 _ _ E') as [P1 P2]. split; [|easy]. apply Forall_app. split; [exact Hsealed|exact P1].
    - intros Hfr Hl. apply H11. apply H9; [easy|lia].
  Qed.

  Lemma fills_fill_node l : fills l (fill_node cfg sec l).
  Proof.
    induction l as [|l IH]; intros from w Hne Hgs; cbn [fill_node];
      (apply post_assert; [now destruct from|]; intros _).
    - eapply post_bind with (sec := sec); [apply wf_leaf_from_iter|now apply post_leaf_from_iter|].
      intros [x from'] w' W (taken & vs & H1 & H2 & H3 & H4 & H5). apply post_ret. cbn [fst snd] in *.
      exists (TLeaf x vs), taken. splits; auto. exact I.
    - eapply post_bind with (sec := sec).
      + apply wf_extend_branch_with. intros. apply wf_fill_node.
      + apply (post_extend_branch_with _ [] (S l) from Packed w).
        * now replace (S l - 1) with l by lia.
        * intros. apply wf_fill_node.
        * exact Hgs.
        * constructor.
        * now left.
        * cbn. lia.
        * intros _. split; [lia|]. split; [auto|]. split; [easy|]. constructor.
      + intros [x from'] w' W (new & taken & H1 & H2 & H3 & H3s & H4 & H5 & H6 & H7 & H8). apply post_ret.
        cbn [fst snd app] in *. exists (TBranch x new), taken.
        assert (Htk : taken <> []). { apply H7; [easy|]. pose proof (max_branches_pos cfg (proj1 Hcfg) (S l)). cbn. lia. }
        assert (Hnn : new <> []). { intros ->. cbn in H3. destruct taken; [congruence|discriminate]. }
        split; [easy|]. split; [easy|]. split; [easy|]. split; [easy|]. split; [easy|]. split; [easy|].
        split; [intros; now apply H5|].
        split; [|now apply solid_branch]. apply plist_packed; [easy| |].
        * destruct H1 as (H1 & _). apply repr_branch_load in H1 as (? & ? & _ & _ & _ & _ & _ & _ & _ & H1). exact H1.
        * rewrite H4. apply H6; [constructor|]. intros pre last E. destruct pre; discriminate.
  Qed.

  Lemma post_extend_branch cs level from mode w :
    gsrc from -> Forall (gd w) cs ->
    (cs = [] \/ S (max_nat (map ilevel (map root_ix cs))) = level) ->
    List.length cs <= max_branches (s_hi cfg) level ->
    (Sf -> 0 < level /\ (cs = [] -> from <> []) /\
           match mode with
           | Packed => levels_desc (map root_ix cs) = true /\ (from <> [] -> Forall (sealed_at (level - 1)) cs)
           | Unpacked => True end) ->
    post (extend_branch cfg sec (map root_ix cs) level from mode) w Sf (fun p w' =>
      exists new taken, gd w' (TBranch (fst p) (cs ++ new))
        /\ from = taken ++ snd p
        /\ flat_map content new = map Some taken /\ Forall solid new
        /\ bi_level (fst p) = level
        /\ (mode = Packed -> snd p <> [] -> bi_sealed (fst p) = true)
        /\ ((from <> [] -> Forall (sealed_at (level - 1)) cs) -> plist (level - 1) cs -> plist (level - 1) (cs ++ new))
        /\ (from <> [] -> List.length cs < max_branches cfg level -> taken <> [])
        /\ (from = [] -> new = [])).
  Proof.
    intros. apply post_extend_branch_with; auto.
    - apply fills_fill_node.
    - intros. apply wf_fill_node.
  Qed.

  Lemma gd_levels w x cs : gd w (TBranch x cs) -> Forall (fun c => ilevel (root_ix c) < bi_level x) cs.
  Proof. intros (H1 & _). apply repr_branch_load in H1 as (? & ? & _ & _ & _ & _ & _ & _ & _ & H1). exact H1. Qed.

  (** ** Climbing *)
  Lemma post_climb fuel : forall t bnd from w,
    gd w t -> gsrc from ->
    (forall b, bnd = Some b -> ilevel (root_ix t) <= b) ->
    (Sf -> (from <> [] -> isealed (root_ix t) = true) /\ packed t = true) ->
    (match ilevel (root_ix t) with O => 1 | S _ => 0 end + List.length from <= fuel) ->
    post (climb cfg sec fuel (root_ix t) bnd from) w Sf (fun p w' =>
      exists t' taken, fst p = root_ix t' /\ gd w' t' /\ from = taken ++ snd p
        /\ content t' = content t ++ map Some taken
        /\ ilevel (root_ix t) <= ilevel (root_ix t')
        /\ (forall b, bnd = Some b -> ilevel (root_ix t') <= b)
        /\ (snd p <> [] -> bnd = Some (ilevel (root_ix t')))
        /\ (bnd = None -> 0 < ilevel (root_ix t'))
        /\ (Sf -> (snd p <> [] -> isealed (root_ix t') = true) /\ packed t' = true)
        /\ (forall cur, pk t cur -> pk t' cur)).
  Proof.
    induction fuel as [|fuel IH]; intros t bnd from w G Hgs Hb Hs Hfuel; cbn [climb];
      destruct ((negb (is_nil from) || Nat.eqb (ilevel (root_ix t)) 0) && below (ilevel (root_ix t)) bnd) eqn:E.
    - (* out of fuel *)
      apply andb_prop in E as [E _]. exfalso. destruct (ilevel (root_ix t)); [lia|].
      destruct from; [discriminate|cbn in Hfuel; lia].
    - apply post_ret. cbn [fst snd]. exists t, []. rewrite app_nil_r. cbn [app].
      split; [easy|]. split; [easy|]. split; [easy|]. split; [easy|]. split; [lia|]. split; [easy|].
      split; [|split; [|split; [easy|auto]]].
      + intros Hf. destruct from; [congruence|]. cbn in Hfuel. destruct (ilevel (root_ix t)); lia.
      + intros ->. cbn in E. rewrite andb_true_r in E. destruct (ilevel (root_ix t)); [|lia]. cbn in E.
        now rewrite orb_true_r in E.
    - apply andb_prop in E as [E Ebel].
      assert (Hlev : S (max_nat (map ilevel (map root_ix [t]))) = S (ilevel (root_ix t))) by (cbn; lia).
      eapply post_bind with (sec := sec); [apply wf_extend_branch| |].
      { apply (post_extend_branch [t] (S (ilevel (root_ix t))) from Packed w); [exact Hgs|..].
        - now constructor.
        - now right.
        - pose proof (max_branches_pos cfg (proj1 Hcfg) (S (ilevel (root_ix t)))).
          destruct Hcfg as (_ & _ & _ & _ & L2). pose proof (max_branches_le _ _ (S (ilevel (root_ix t))) L2). cbn. lia.
        - intros s. apply Hs in s as [s1 s2]. split; [lia|]. split; [discriminate|]. split; [easy|].
          intros Hf. constructor; [|constructor]. split; [auto|]. lia. }
      intros [x from1] w1 W1 (new & taken & G1 & Hfrom & Hcont & Hsol & Hxl & Hxs & Hpl & Hprog & Hnil). cbn [fst snd] in *.
      set (t1 := TBranch x ([t] ++ new)).
      change (IBranch x) with (root_ix t1).
      assert (Hl1 : ilevel (root_ix t1) = S (ilevel (root_ix t))) by exact Hxl.
      eapply post_conseq; [apply IH; try easy|].
      + eapply gsrc_rest; eauto.
      + intros b Hbb. rewrite Hl1. subst bnd. cbn in Ebel. now apply Nat.ltb_lt in Ebel.
      + intros s. apply Hs in s as [s1 s2]. split; [intros; now apply Hxs|].
        apply plist_packed; [discriminate|now apply gd_levels with w1|]. rewrite Hxl.
        apply Hpl.
        * intros Hf. constructor; [|constructor]. split; [auto|]. lia.
        * intros pre last E'. destruct pre as [|? [|]]; try discriminate. injection E' as <-. auto.
      + rewrite Hl1. cbn [Nat.add].
        destruct from as [|p0 from].
        * destruct taken; [|discriminate]. cbn in Hfrom. subst from1. cbn. lia.
        * assert (Hlen : List.length from1 + List.length taken = List.length (p0 :: from)) by (rewrite Hfrom, app_length; lia).
          destruct (ilevel (root_ix t)) as [|lv] eqn:El.
          { cbn [Nat.add] in Hfuel. lia. }
          cbn [Nat.add] in Hfuel.
          assert (taken <> []).
          { apply Hprog; [discriminate|]. destruct Hcfg as ((C1 & C2 & C3 & C4) & _). unfold max_branches. cbn. lia. }
          destruct taken; [congruence|]. cbn [List.length] in Hlen, Hfuel. lia.
      + intros [i from'] w' (t' & taken' & H1 & H2 & H3 & H4 & H5 & H6 & H7 & H8 & H9 & H10). cbn [fst snd] in *.
        exists t', (taken ++ taken'). split; [easy|]. split; [easy|].
        split; [now rewrite Hfrom, H3, app_assoc|].
        split.
        { rewrite H4. subst t1. cbn [content app flat_map]. rewrite Hcont, map_app, app_assoc. easy. }
        split; [lia|]. splits; auto. intros cur Hc. apply H10, pk_wrap; auto. lia.
    - apply post_ret. cbn [fst snd]. exists t, []. rewrite app_nil_r. cbn [app].
      split; [easy|]. split; [easy|]. split; [easy|]. split; [easy|]. split; [lia|]. split; [easy|].
      split; [|split; [|split; [easy|auto]]].
      + intros Hf. destruct from; [congruence|]. cbn in E. destruct bnd as [b|]; [|discriminate].
        cbn in E. apply Nat.ltb_ge in E. specialize (Hb b eq_refl). f_equal. lia.
      + intros ->. cbn in E. rewrite andb_true_r in E. destruct (ilevel (root_ix t)); [|lia]. cbn in E.
        now rewrite orb_true_r in E.
  Qed.

  (** ** Extending *)

  (** Result of extending [t] (or nothing) with [from], up to level [bnd]. *)
  Definition ocontent (node : option tree) : list (option (K * V)) :=
    match node with Some t => content t | None => [] end.
  Definition olevel (node : option tree) : nat :=
    match node with Some t => ilevel (root_ix t) | None => 0 end.
  Definition opk (node : option tree) (cur : option Z) : Prop :=
    match node with Some t => pk t cur | None => True end.

  Definition extended (node : option tree) (bnd : option nat) (from : source)
             (p : Index * source) (w' : world) : Prop :=
    exists t' taken, fst p = root_ix t' /\ gd w' t' /\ from = taken ++ snd p
      /\ content t' = ocontent node ++ map Some taken
      /\ olevel node <= ilevel (root_ix t')
      /\ (forall b, bnd = Some b -> ilevel (root_ix t') <= b)
      /\ (snd p <> [] -> bnd = Some (ilevel (root_ix t')) /\ isealed (root_ix t') = true)
      /\ (bnd = None -> 0 < ilevel (root_ix t'))
      /\ (Sf -> packed t' = true)
      /\ (forall cur, opk node cur -> pk t' cur).

  Lemma post_extend0 rec t from w (Sd : Prop) :
    (forall last lvl from w, gd w last -> wok key w -> (Sf -> Ps /\ packed last = true /\ ilevel (root_ix last) <= lvl) ->
        ilevel (root_ix last) < ilevel (root_ix t) -> from <> [] -> gsrc from ->
        post (rec (root_ix last) lvl from) w Sf (extended (Some last) (Some lvl) from)) ->
    (forall i l f, frame (wext key) (rec i l f)) ->
    wok key w -> gd w t -> (Sf -> Ps /\ packed t = true) -> from <> [] -> gsrc from ->
    post (extend0 cfg sec rec (root_ix t) from) w Sf (fun p w' =>
      exists t' taken, fst p = root_ix t' /\ gd w' t' /\ from = taken ++ snd p
        /\ content t' = content t ++ map Some taken
        /\ ilevel (root_ix t') = ilevel (root_ix t)
        /\ (Sf -> (snd p <> [] -> isealed (root_ix t') = true) /\ packed t' = true)
        /\ (forall cur, opk (Some t) cur -> pk t' cur)).
  Proof.
    intros Hrec Frec W G Hpk Hne Hgs. unfold extend0.
    assert (Hstay : (Sf -> isealed (root_ix t) = true) ->
      post (ret (root_ix t, from)) w Sf (fun p w' =>
      exists t' taken, fst p = root_ix t' /\ gd w' t' /\ from = taken ++ snd p
        /\ content t' = content t ++ map Some taken
        /\ ilevel (root_ix t') = ilevel (root_ix t)
        /\ (Sf -> (snd p <> [] -> isealed (root_ix t') = true) /\ packed t' = true)
        /\ (forall cur, opk (Some t) cur -> pk t' cur))).
    { intros Hse. apply post_ret. cbn [fst snd]. exists t, []. rewrite app_nil_r. cbn [app]. splits; auto. intros s. split; [auto|]. now apply Hpk. }
    destruct (isealed (root_ix t) || is_nil from) eqn:E.
    { apply Hstay. intros _. destruct from; [congruence|]. now rewrite orb_false_r in E. }
    apply orb_false_elim in E as [Ese _].
    destruct t as [x vs|x|x cs|x]; cbn [root_ix node_info_of].
    - (* leaf *)
      destruct G as (R & I & A & P).
      destruct (repr_leaf_avail _ _ _ _ R) as (l & z & Hl & Z1 & Z2 & Z3 & Z4). rewrite Hl.
      eapply post_rd; [apply rf_load_leaf_from_link|exact W|exact Z1|intros s Hlog; split; [now apply rel_reads|]; apply A; [now apply rel_av|exact Hlog]|]. intros w1 R1.
      destruct R as (R & blk0 & r0 & _ & (_ & _ & off0 & d0 & ls0 & Hls & _) & _). assert (Hpl : exists ls, payload_links (map v_enc vs) = Ok ls) by eauto. clear off0 d0 ls0 Hls. cbn in I.
      eapply post_bind with (sec := sec); [apply wf_extend_leaf| |].
      { apply (post_extend_leaf (zs_data z) (leaf_keys x) from vs); auto; [|apply I]. intros _. lia. }
      intros [x' from'] w2 W2 (taken & H1 & H2 & H3 & H4 & H5 & H6). apply post_ret. cbn [fst snd] in *.
      exists (TLeaf x' (vs ++ map snd taken)), taken. splits; auto. intros; now apply pk_solid.
    - destruct G as (R & I & A & P). cbn in R. rewrite R. apply Hstay. intros s. destruct (Hpk s) as [p _]; apply (P p).
    - (* branch *)
      pose proof G as (R & I & A & P).
      destruct (repr_branch_load _ _ _ _ R) as (l & r & Hl & Hld & Hch & _ & _ & _ & Hnec & Hlv). rewrite Hl.
      eapply post_rd; [apply rf_load_branch_cached|exact W|apply (Hld (fun s => avail_branches s (TBranch x cs))); auto| |].
      { intros s Hlog. split; [now apply rel_reads|]. apply avail_avail_branches. apply A; [now apply rel_av|exact Hlog]. }
      intros w1 R1. cbn [br_children].
      apply rext_wext in R1 as W1. pose proof (wext_ok _ _ _ W1 W) as Wok1.
      apply invs_branch in I as (I1 & I2 & I3 & (I4 & _) & I5).
      destruct (exists_last Hnec) as (cs0 & last & ->).
      rewrite map_app, rev_app_distr. cbn [map rev app]. rewrite rev_involutive.
      pose proof (gd_children _ _ _ _ _ _ _ G) as Gcs. apply (gd_Forall_mono _ _ _ _ _ _ _ W1) in Gcs.
      apply Forall_app in Gcs as [Gcs0 Glast]. apply Forall_inv in Glast.
      apply Forall_app in Hlv as [Hlv0 Hlvl]. apply Forall_inv in Hlvl.
      assert (Hpack : Sf -> Forall (sealed_at (bi_level x - 1)) cs0 /\ packed last = true).
      { intros s. specialize (Hpk s) as [_ Hpk]. rewrite packed_branch in Hpk. cbn in Ese. rewrite Ese in Hpk. cbn [orb] in Hpk.
        apply andb_prop in Hpk as [P1 P2]. apply andb_prop in P2 as [_ P2]. split; [|easy].
        apply Forall_forall. intros c Hc. rewrite forallb_forall in P1. apply P1 in Hc.
        apply andb_prop in Hc as [Hc1 Hc2]. apply Nat.eqb_eq in Hc2. now split. }
      set (Q := fun (p : list Index * source) (w' : world) =>
        exists last' taken, fst p = map root_ix (cs0 ++ [last']) /\ gd w' last' /\ from = taken ++ snd p
          /\ content last' = content last ++ map Some taken
          /\ ilevel (root_ix last) <= ilevel (root_ix last') <= bi_level x - 1
          /\ (snd p <> [] -> sealed_at (bi_level x - 1) last')
          /\ (Sf -> packed last' = true)
          /\ (forall cur, pk last cur -> pk last' cur)).
      eapply post_bind with (sec := sec) (Q := Q).
      { apply wf_bind; [apply Frec|]. intros []. apply wf_ret. }
      { eapply post_bind with (sec := sec); [apply Frec| |].
        - apply Hrec; auto. intros s. split; [now apply Hpk|]. split; [now apply Hpack|]. lia.
        - intros [i from1] w2 W2 (t' & taken & H1 & H2 & H3 & H4 & H5 & H6 & H7 & H8 & H9 & H10). cbn [fst snd] in *.
          apply post_ret. exists t', taken. cbn [fst snd]. rewrite map_app, H1. splits; auto.
          + intros Hf; split; [now apply H7|]. destruct (H7 Hf) as [E _]. now injection E as ->. }
      intros [children from1] w2 W2 (last' & taken & H1 & H2 & H3 & H4 & H5 & H6 & H7 & Hpkl). cbn [fst snd] in *. subst children.
      pose proof (gd_Forall_mono _ _ _ _ _ _ _ W2 Gcs0) as Gcs0'.
      assert (Hmax : S (max_nat (map ilevel (map root_ix (cs0 ++ [last'])))) = bi_level x).
      { rewrite I1. f_equal. rewrite !map_app, !max_nat_app. cbn [map max_nat fold_right]. rewrite I1, !map_app, max_nat_app in H5.
        cbn [map max_nat fold_right] in H5. lia. }
      eapply post_bind with (sec := sec); [apply wf_extend_branch| |].
      { apply (post_extend_branch (cs0 ++ [last']) (bi_level x) from1 Packed); [eapply gsrc_rest; eauto|..].
        - apply Forall_app. split; [easy|]. now constructor.
        - now right.
        - rewrite app_length in *. cbn in *. lia.
        - intros s. destruct (Hpack s) as [P1 P2]. split; [lia|]. split; [now destruct cs0|]. split.
          + apply levels_desc_app_const with (l := bi_level x - 1).
            * eapply Forall_impl; [|exact P1]. now intros ? [_ ?].
            * constructor; [lia|constructor].
            * easy.
          + intros Hf. apply Forall_app. split; [easy|]. constructor; [auto|constructor]. }
      intros [x' from2] w3 W3 (new & taken2 & G1 & Hfrom & Hcont & Hsol & Hxl & Hxs & Hpl & Hprog & Hnil). cbn [fst snd] in *.
      apply post_ret. cbn [fst snd]. exists (TBranch x' ((cs0 ++ [last']) ++ new)), (taken ++ taken2).
      split; [easy|]. split; [easy|]. split; [now rewrite H3, Hfrom, app_assoc|].
      split.
      { cbn [content]. rewrite !flat_map_app. cbn [flat_map]. rewrite !app_nil_r, H4, Hcont, map_app, !app_assoc. easy. }
      split; [easy|]. split.
      2:{ intros cur Hc. cbn [opk] in Hc.
          destruct (isealed (IBranch x') && cur_le (bi_level x') cur) eqn:E; [now apply pk_taken|].
          rewrite pk_branch by exact E. rewrite Hxl, <- app_assoc.
          rewrite pk_branch in Hc by (cbn in Ese |- *; now rewrite Ese).
          apply pk_list_app in Hc as [Hc1 Hc2]. apply pk_list_app. split; [exact Hc1|].
          destruct Hc2 as [Hc2 _]. split; [now apply Hpkl|]. now apply pk_list_solid. }
      intros s. split; [intros; now apply Hxs|].
      destruct (Hpack s) as [P1 P2].
      apply plist_packed; [now destruct cs0|now apply gd_levels with w3|]. rewrite Hxl. apply Hpl.
      + intros Hf. apply Forall_app. split; [easy|]. constructor; [auto|constructor].
      + intros pre lst E. apply app_inj_tail in E as [<- <-]. split; [exact P1|auto].
    - destruct G as (R & I & A & P). cbn in R. rewrite R. apply Hstay. intros s. destruct (Hpk s) as [p _]; apply (P p).
  Qed.

  Lemma post_extend_above d : forall node bnd from w,
    wok key w ->
    match node with
    | Some t => gd w t /\ ilevel (root_ix t) < d
    | None => 0 < d end ->
    from <> [] -> gsrc from ->
    (Sf -> match node, bnd with
           | Some t, Some b => Ps /\ packed t = true /\ ilevel (root_ix t) <= b
           | Some t, None => Ps /\ packed t = true
           | None, _ => True end) ->
    post (extend_above cfg sec d (option_map root_ix node) bnd from) w Sf
         (extended node bnd from).
  Proof.
    induction d as [|d IH]; intros node bnd from w W G Hne Hgs Hs; [destruct node; lia|].
    cbn [extend_above]. replace (is_nil from) with false by now destruct from.
    apply post_assert.
    { intros s. apply Hs in s. destruct node as [t|], bnd as [b|]; cbn; auto. now apply Nat.leb_le. }
    intros Hbnd.
    eapply post_bind with (sec := sec) (Q := fun p w' =>
      exists t' taken, fst p = root_ix t' /\ gd w' t' /\ from = taken ++ snd p
        /\ content t' = ocontent node ++ map Some taken
        /\ ilevel (root_ix t') = olevel node
        /\ (Sf -> (snd p <> [] -> isealed (root_ix t') = true) /\ packed t' = true)
        /\ (forall cur, opk node cur -> pk t' cur)).
    - destruct node; cbn [option_map].
      + apply wf_extend0. intros. apply wf_extend_above.
      + apply wf_bind; [apply wf_leaf_from_iter|]. intros []. apply wf_ret.
    - destruct node as [t|]; cbn [option_map].
      + destruct G as [G Hd]. apply post_extend0; auto.
        * intros last lvl from1 w1 G1 W1 Hs1 Hlt Hf1 Hgs1.
          apply (IH (Some last) (Some lvl) from1 w1); auto. split; [easy|lia].
        * intros. apply wf_extend_above.
        * intros s. apply Hs in s. destruct bnd; [now destruct s as (? & ? & _)|exact s].
      + eapply post_bind with (sec := sec); [apply wf_leaf_from_iter|now apply post_leaf_from_iter|].
        intros [x from'] w' W' (taken & vs & H1 & H2 & H3 & H4 & H5). apply post_ret. cbn [fst snd] in *.
        exists (TLeaf x vs), taken. splits; auto. intros; now apply pk_solid.
    - intros [i from1] w1 W1 (t1 & taken & H1 & H2 & H3 & H4 & H5 & H6 & Hpk1). cbn [fst snd] in *. subst i.
      assert (Hb1 : forall b, bnd = Some b -> ilevel (root_ix t1) <= b).
      { intros b ->. rewrite H5. destruct node; cbn in Hbnd |- *; [now apply Nat.leb_le|lia]. }
      eapply post_bind with (sec := sec); [apply wf_climb| |].
      { apply post_climb; auto; [eapply gsrc_rest; eauto|]. unfold climb_fuel. destruct (ilevel (root_ix t1)); lia. }
      intros [i from2] w2 W2 (t2 & taken2 & G1 & G2 & G3 & G4 & G5 & G6 & G7 & G8 & G9 & G10). cbn [fst snd] in *. subst i.
      apply post_assert.
      { intros s. apply G9 in s as [s1 s2]. destruct from2 as [|p from2]; cbn [is_nil].
        - destruct bnd as [b|]; [|easy]. now apply Nat.leb_le, G6.
        - rewrite (G7 ltac:(discriminate)), Nat.eqb_refl. cbn. apply s1. discriminate. }
      intros Hfin. apply post_ret. exists t2, (taken ++ taken2). cbn [fst snd].
      split; [easy|]. split; [easy|]. split; [now rewrite H3, G3, app_assoc|].
      split; [now rewrite G4, H4, map_app, app_assoc|]. split; [lia|]. split; [easy|].
      split; [|split; [easy|split; [intros s; now apply G9|auto]]].
      intros Hf. split; [auto|]. destruct from2; [congruence|]. cbn [is_nil] in Hfin. now apply andb_prop in Hfin.
  Qed.

  (** [extend_unpacked0] needs nothing of the tree that is there. *)
  Lemma post_extend_unpacked0 (node : option tree) from w :
    wok key w -> match node with Some t => gd w t | None => True end -> gsrc from ->
    post (extend_unpacked0 cfg sec (option_map root_ix node) from) w Sf (fun r w' =>
      exists node', r = option_map root_ix node'
        /\ match node' with Some t => gd w' t | None => True end
        /\ ocontent node' = ocontent node ++ map Some from
        /\ (forall cur, opk node cur -> opk node' cur)).
  Proof.
    intros W G Hgs. unfold extend_unpacked0. destruct from as [|p0 from0]; cbn [is_nil].
    { apply post_ret. exists node. cbn [map]. rewrite app_nil_r. auto. }
    set (from := p0 :: from0).
    eapply post_bind with (sec := sec); [apply wf_extend_above| |].
    { apply (post_extend_above 1 None None from w); auto; try lia; discriminate. }
    intros [i from1] w1 W1 (tb & taken & H1 & H2 & H3 & H4 & H5 & H6 & H7 & H8 & H9 & H10). cbn [fst snd] in *. subst i.
    assert (from1 = []) as ->.
    { destruct from1; [easy|]. destruct H7 as [H7 _]; discriminate. }
    rewrite app_nil_r in H3. cbn [app] in H4. specialize (H8 eq_refl).
    destruct node as [ta|]; cbn [option_map].
    - eapply post_bind with (sec := sec); [apply wf_extend_branch| |].
      { apply (post_extend_branch [ta; tb] (S (Nat.max (ilevel (root_ix ta)) (ilevel (root_ix tb)))) [] Unpacked w1); [apply gsrc_nil|..].
        - constructor; [eapply gd_mono; eauto|]. now constructor.
        - right. cbn. lia.
        - destruct Hcfg as (_ & _ & (C1 & C2 & C3 & C4) & _). unfold max_branches.
          destruct (Nat.eqb_spec (S (Nat.max (ilevel (root_ix ta)) (ilevel (root_ix tb)))) 1); [lia|]. cbn. lia.
        - intros _. split; [lia|]. easy. }
      intros [x from2] w2 W2 (new & taken2 & G1 & _ & Hc & _ & Hxl & _ & _ & _ & Hn). cbn [fst snd] in *.
      rewrite (Hn eq_refl) in *. apply post_ret. exists (Some (TBranch x ([ta; tb] ++ []))).
      split; [easy|]. split; [easy|]. split.
      { cbn [ocontent content flat_map app]. rewrite app_nil_r, H4, <- H3. easy. }
      intros cur Hp. cbn [opk app] in *.
      destruct (isealed (IBranch x) && cur_le (bi_level x) cur) eqn:E; [now apply pk_taken|].
      rewrite pk_branch by exact E. rewrite pk_list_cons. split; [apply pk_cap; [lia|exact Hp]|].
      split; [|exact I]. now apply H10.
    - apply post_ret. exists (Some tb). split; [easy|]. split; [easy|]. cbn [ocontent opk]. rewrite H4, <- H3. split; [easy|auto].
  Qed.
End WriteProofs.

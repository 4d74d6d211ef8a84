(** What every operation leaves alone, whatever its outcome. *)
From Coq Require Import List NArith ZArith Lia Bool String.
From Verif Require Import Base BaseProofs Cbor Types Seq SeqProofs Query World Read Write Ghost.
Import ListNotations.

(** Frame rules for an arbitrary preorder on worlds. *)
Section Frame.
  Context {T : Types} {B : Backend T}.

  Definition frame (R : world -> world -> Prop) {A} (m : M A) : Prop :=
    forall w r w', m w = (r, w') -> R w w'.

  Variable R : world -> world -> Prop.
  Hypothesis Rrefl : forall w, R w w.
  Hypothesis Rtrans : forall a b c, R a b -> R b c -> R a c.

  Lemma frame_ret {A} (a : A) : frame R (ret a).
  Proof. intros w r w' [= <- <-]. apply Rrefl. Qed.
  Lemma frame_lift {A} (a : res A) : frame R (lift a).
  Proof. intros w r w' [= <- <-]. apply Rrefl. Qed.
  Lemma frame_fail {A} e : frame R (@fail T B A e).
  Proof. intros w r w' [= <- <-]. apply Rrefl. Qed.
  Lemma frame_mpanic {A} p : frame R (@mpanic T B A p).
  Proof. intros w r w' [= <- <-]. apply Rrefl. Qed.
  Lemma frame_nofuel {A} : frame R (@nofuel T B A).
  Proof. intros w r w' [= <- <-]. apply Rrefl. Qed.
  Lemma frame_massert b msg : frame R (massert b msg).
  Proof. destruct b; [apply frame_ret|apply frame_mpanic]. Qed.
  Lemma frame_bind {A C} (m : M A) (f : A -> M C) :
    frame R m -> (forall a, frame R (f a)) -> frame R (mbind m f).
  Proof.
    intros Hm Hf w r w' E. unfold mbind in E. destruct (m w) as [[a|e|p|] w1] eqn:Em;
      pose proof (Hm _ _ _ Em); try (injection E as <- <-; assumption).
    eapply Rtrans; [eassumption|]. eapply Hf; eauto.
  Qed.
  Lemma frame_mmapM {A C} (f : A -> M C) l : (forall a, frame R (f a)) -> frame R (mmapM f l).
  Proof.
    intros Hf. induction l as [|x l IH]; [apply frame_ret|].
    apply frame_bind; [apply Hf|]. intros. apply frame_bind; [exact IH|]. intros. apply frame_ret.
  Qed.
  Lemma frame_try {A} (m : M A) : frame R m -> frame R (try m).
  Proof.
    intros Hm w r w' E. unfold try in E. destruct (m w) as [[a|e|p|] w1] eqn:Em;
      injection E as <- <-; eapply Hm; eauto.
  Qed.
End Frame.

Lemma frame_impl {T : Types} {B : Backend T} (R R' : world -> world -> Prop) {A} (m : M A) :
  (forall w w', R w w' -> R' w w') -> frame R m -> frame R' m.
Proof. intros H Hm w r w' E. eauto. Qed.

Section Frames.
  Context {T : Types} {TL : TypesLaws T} {X : Ext} {XL : ExtLaws X}
          {B : Backend T} {BL : BackendLaws T B}.

  (** The block of an event is what the event says: the logged part of the
      keystream of the logged key applied to a payload of the logged length, which
      decompresses to the logged data. *)
  Definition ev_wf (e : event) : Prop :=
    exists ls p,
      ev_block e = enc (block_cbor (ev_off e) ls (apply_keystream (ev_key e) nonce (ev_off e) p))
      /\ cbor_ok (block_cbor (ev_off e) ls (apply_keystream (ev_key e) nonce (ev_off e) p)) = true
      /\ Nlen p = ev_len e
      /\ ev_raw e = match z_dec p with Some r => r | None => [] end.

  (** [ranges lo hi es]: the keystream ranges of [es] are not empty, lie between
      [lo] and [hi], and follow each other in order. *)
  Fixpoint ranges (lo hi : N) (es : list event) : Prop :=
    match es with
    | [] => (lo <= hi)%N
    | e :: es' => (lo <= ev_off e)%N /\ (0 < ev_len e)%N /\ ev_wf e /\ ranges (ev_end e) hi es'
    end.

  Lemma ranges_le lo hi es : ranges lo hi es -> (lo <= hi)%N.
  Proof.
    revert lo; induction es as [|e es IH]; cbn; intros lo H; [easy|].
    destruct H as (H1 & H2 & _ & H3). apply IH in H3. unfold ev_end in H3. lia.
  Qed.

  Lemma ranges_app lo mid hi a b : ranges lo mid a -> ranges mid hi b -> ranges lo hi (a ++ b).
  Proof.
    revert lo; induction a as [|e a IH]; cbn; intros lo Ha Hb.
    - destruct b as [|e b]; cbn in *; [lia|]. intuition lia.
    - destruct Ha as (H1 & H2 & Hw & H3). auto.
  Qed.

  (** The store is used for gets and puts only. *)
  Definition accessed (s s' : Store) : Prop :=
    forall R : Store -> Store -> Prop,
      (forall a, R a a) -> (forall a b c, R a b -> R b c -> R a c) ->
      (forall a l r b, sget a l = (r, b) -> R a b) -> (forall a d r b, sput a d = (r, b) -> R a b) -> R s s'.
  Lemma accessed_refl s : accessed s s.
  Proof. intros R H _ _ _. apply H. Qed.
  Lemma accessed_trans a b c : accessed a b -> accessed b c -> accessed a c.
  Proof. intros H G R H1 H2 H3 H4. exact (H2 a b c (H R H1 H2 H3 H4) (G R H1 H2 H3 H4)). Qed.
  Lemma accessed_get s l r s' : sget s l = (r, s') -> accessed s s'.
  Proof. intros E R _ _ H _. eapply H; eauto. Qed.
  Lemma accessed_put s d r s' : sput s d = (r, s') -> accessed s s'.
  Proof. intros E R _ _ _ H. eapply H; eauto. Qed.

  (** Blocks stay filed under their digests. What is added to the cache is
      branches read from the store, for anything that may count as being in the
      cache. *)
  Definition fills (key : bytes) (w w' : world) : Prop :=
    ((store_ok (w_store w) -> store_ok (w_store w')) /\ accessed (w_store w) (w_store w'))
    /\ forall ci : Cache -> L -> Branch -> Prop,
      (forall c l r c' x b, cget c l = (r, c') -> ci c' x b -> ci c x b) ->
      (forall c l b x b', ci (cput c l b) x b' -> ci c x b' \/ (x = l /\ b' = b)) ->
      forall l b, ci (w_cache w') l b -> ci (w_cache w) l b
        \/ exists d, sblocks (w_store w') l = Some d
             /\ deserialize_compressed key d = Ok (br_children b, br_range b) /\ br_children b <> [].

  (** Effect of reading: nothing but the internal state of store and cache, and
      what others add to the store. *)
  Definition rext (key : bytes) (w w' : world) : Prop :=
    ((wok key w -> wok key w') /\ fills key w w')
    /\ ((forall l d, sblocks (w_store w) l = Some d -> sblocks (w_store w') l = Some d)
        /\ (Alone T B -> forall l, sblocks (w_store w') l = sblocks (w_store w) l))
    /\ w_off w' = w_off w /\ w_log w' = w_log w.

  (** Effect of writing: blocks are added, the offset grows, and every block
      added was logged with its keystream range, if nobody else adds blocks. *)
  Definition wext (key : bytes) (w w' : world) : Prop :=
    ((wok key w -> wok key w') /\ fills key w w')
    /\ (forall l d, sblocks (w_store w) l = Some d -> sblocks (w_store w') l = Some d)
    /\ exists new, w_log w' = w_log w ++ new
         /\ ranges (w_off w) (w_off w') new
         /\ (Alone T B -> forall l d, sblocks (w_store w') l = Some d ->
               sblocks (w_store w) l = Some d \/ exists e, In e new /\ l = digest d /\ ev_block e = d).

  Lemma fills_refl key w : fills key w w.
  Proof. split; [split; [auto|apply accessed_refl]|]. intros ci _ _. auto. Qed.
  Lemma fills_trans key a b c :
    (forall l d, sblocks (w_store b) l = Some d -> sblocks (w_store c) l = Some d) ->
    fills key a b -> fills key b c -> fills key a c.
  Proof.
    intros K [[F0 F1] F] [[G0 G1] G]. split; [split; [auto|eapply accessed_trans; eauto]|]. intros ci C1 C2 l x H. apply (G ci C1 C2) in H as [H|H]; [|auto].
    apply (F ci C1 C2) in H as [H|(d & Hd & H)]; [auto|]. right. exists d. split; [now apply K|exact H].
  Qed.
  Lemma fills_same key w w' : (store_ok (w_store w) -> store_ok (w_store w')) -> accessed (w_store w) (w_store w') -> w_cache w' = w_cache w -> fills key w w'.
  Proof. intros H H' E. split; [split; [exact H|exact H']|]. intros ci _ _ l b. rewrite E. auto. Qed.
  Lemma rext_refl key w : rext key w w.
  Proof. split; [split; [auto|apply fills_refl]|]. repeat split; auto. Qed.
  Lemma rext_trans key a b c : rext key a b -> rext key b c -> rext key a c.
  Proof.
    intros ((H1 & HF) & (H2 & H2') & H3 & H4) ((G1 & GF) & (G2 & G2') & G3 & G4).
    split; [split; [auto|eapply fills_trans; eauto]|].
    split; [split; [auto|intros Al l; now rewrite G2', H2']|]. split; congruence.
  Qed.
  Lemma wext_refl key w : wext key w w.
  Proof.
    split; [split; [auto|apply fills_refl]|]. split; [auto|]. exists []. rewrite app_nil_r. repeat split; auto. cbn. lia.
  Qed.
  Lemma wext_trans key a b c : wext key a b -> wext key b c -> wext key a c.
  Proof.
    intros ((H1 & HF) & H2 & n1 & H3 & H4 & H5) ((G1 & GF) & G2 & n2 & G3 & G4 & G5).
    split; [split; [auto|eapply fills_trans; eauto]|].
    split; [auto|]. exists (n1 ++ n2). rewrite G3, H3, app_assoc. split; [easy|]. split.
    - eapply ranges_app; eauto.
    - intros Al l d Hd. apply G5 in Hd as [Hd|(e & He & Hd)]; [| |exact Al].
      + apply H5 in Hd as [Hd|(e & He & Hd)]; [auto| |exact Al]. right. exists e. rewrite in_app_iff. auto.
      + right. exists e. rewrite in_app_iff. auto.
  Qed.
  Lemma rext_wext key w w' : rext key w w' -> wext key w w'.
  Proof.
    intros (H1 & (H2 & H2') & H3 & H4). split; [auto|]. split; [exact H2|].
    exists []. rewrite app_nil_r, H3, H4. repeat split; auto; [cbn; lia|].
    intros Al l d. rewrite H2' by exact Al. auto.
  Qed.
  Lemma wext_off key w w' : wext key w w' -> (w_off w <= w_off w')%N.
  Proof. intros (_ & _ & new & _ & H & _). eapply ranges_le; eauto. Qed.
  Lemma wext_ok key w w' : wext key w w' -> wok key w -> wok key w'.
  Proof. now intros ((H & _) & _). Qed.
  Lemma wext_blocks key w w' l d : wext key w w' -> sblocks (w_store w) l = Some d -> sblocks (w_store w') l = Some d.
  Proof. intros (_ & H & _). apply H. Qed.

  Section Sec.
  Variable sec : Secrets.
  Notation key := (index_key sec).
  Notation rframe := (frame (rext key)).
  Notation wframe := (frame (wext key)).

  (** ** Readers *)

  Lemma rf_get_block l : rframe (get_block l).
  Proof.
    intros w r w' E. unfold get_block in E. destruct (sget (w_store w) l) as [o s] eqn:G.
    assert (w' = set_store w s) as -> by (destruct o; congruence).
    split; [|split; [cbn; split|split; reflexivity]].
    - assert (HS : store_ok (w_store w) -> store_ok s).
      { intros H1 l' d Hd. eapply sget_adds in Hd as [Hd|Hd]; eauto. }
      split; [|apply fills_same; [exact HS|eapply accessed_get; eauto|easy]]. intros [H1 H2]. split; [now apply HS|exact H2].
    - intros l' d Hd. eapply sget_keeps; eauto.
    - intros Al l'. eapply sget_alone; eauto.
  Qed.

  Lemma rf_bind {A C} (m : M A) (f : A -> M C) :
    rframe m -> (forall a, rframe (f a)) -> rframe (mbind m f).
  Proof. apply frame_bind. apply rext_trans. Qed.
  Lemma rf_ret {A} (a : A) : rframe (ret a).
  Proof. apply frame_ret, rext_refl. Qed.
  Lemma rf_lift {A} (a : res A) : rframe (lift a).
  Proof. apply frame_lift, rext_refl. Qed.
  Lemma rf_fail {A} e : rframe (@fail _ _ A e).
  Proof. apply frame_fail, rext_refl. Qed.
  Lemma rf_mpanic {A} p : rframe (@mpanic _ _ A p).
  Proof. apply frame_mpanic, rext_refl. Qed.
  Lemma rf_nofuel {A} : rframe (@nofuel _ _ A).
  Proof. apply frame_nofuel, rext_refl. Qed.

  Lemma rf_load_leaf_from_link l : rframe (load_leaf_from_link sec l).
  Proof.
    apply rf_bind; [apply rf_get_block|]. intros d. apply rf_bind; [apply rf_lift|]. intros []. apply rf_ret.
  Qed.
  Lemma rf_load_leaf x : rframe (load_leaf sec x).
  Proof.
    unfold load_leaf. destruct (li_link x); [|apply rf_ret].
    apply rf_bind; [apply rf_load_leaf_from_link|]. intros. apply rf_ret.
  Qed.
  Lemma rf_new_branch_data r : rframe (new_branch_data r).
  Proof. unfold new_branch_data. destruct (fst r); [apply rf_mpanic|apply rf_ret]. Qed.
  Lemma rf_load_branch_from_link l : rframe (load_branch_from_link sec l).
  Proof.
    apply rf_bind; [apply rf_get_block|]. intros d. apply rf_bind; [apply rf_lift|]. intros. apply rf_new_branch_data.
  Qed.
  Lemma rf_load_branch x : rframe (load_branch sec x).
  Proof.
    unfold load_branch. destruct (bi_link x); [|apply rf_ret].
    apply rf_bind; [apply rf_load_branch_from_link|]. intros. apply rf_ret.
  Qed.
  Lemma rf_cache_get l : rframe (cache_get l).
  Proof.
    intros w r w' E. unfold cache_get in E. destruct (cget (w_cache w) l) as [o c] eqn:G.
    injection E as <- <-. split; [split|cbn; auto].
    - intros [H1 H2]. split; [exact H1|]. intros l' b Hb. cbn in Hb. eapply H2, cget_keeps; eauto.
    - split; [split; [auto|apply accessed_refl]|]. intros ci C1 _ l' b Hb. left. eapply C1; eauto.
  Qed.

  Lemma load_branch_from_link_ok l w b w' :
    load_branch_from_link sec l w = (Ok b, w') ->
    exists d, sblocks (w_store w') l = Some d
      /\ deserialize_compressed key d = Ok (br_children b, br_range b) /\ br_children b <> [].
  Proof.
    unfold load_branch_from_link, get_block, mbind, lift, new_branch_data.
    destruct (sget (w_store w) l) as [[d|] s] eqn:G; [|discriminate].
    destruct (deserialize_compressed key d) as [[cs r]|e|p|] eqn:D; try discriminate. cbn.
    destruct cs as [|c cs]; [discriminate|]. intros [= <- <-]. cbn. exists d. split.
    - eapply sget_sound; eauto.
    - split; [easy|discriminate].
  Qed.

  Lemma rf_load_branch_cached l : rframe (load_branch_cached sec l).
  Proof.
    intros w r w' E. unfold load_branch_cached, mbind at 1 in E.
    destruct (cache_get l w) as [[o|e|p|] w1] eqn:Ec; pose proof (rf_cache_get _ _ _ _ Ec) as F1;
      try (injection E as <- <-; exact F1).
    destruct o as [b|]; [injection E as <- <-; exact F1|].
    unfold mbind in E. destruct (load_branch_from_link sec l w1) as [[b|e|p|] w2] eqn:El;
      pose proof (rf_load_branch_from_link _ _ _ _ El) as F2;
      try (injection E as <- <-; eapply rext_trans; eassumption).
    cbn in E. injection E as <- <-. eapply rext_trans; [exact F1|]. eapply rext_trans; [exact F2|].
    apply load_branch_from_link_ok in El as (d & Hd & Hdes & Hne).
    split; [split|cbn; auto].
    - intros [H1 H2]. split; [exact H1|].
      intros l' b' Hb. cbn in Hb. apply cput_adds in Hb as [Hb|[-> ->]]; [auto|].
      left. exists d. split; [|auto]. now apply H1.
    - split; [split; [auto|apply accessed_refl]|]. intros ci _ C2 l' b' Hb. cbn in Hb. apply C2 in Hb as [Hb|[-> ->]]; [auto|]. right. exists d. auto.
  Qed.

  Lemma rf_get0 d : forall i off, rframe (get0 sec d i off).
  Proof.
    induction d as [|d IH]; intros i off.
    - cbn [get0]. destruct (Nat.leb (icount i) off); [apply rf_ret|].
      destruct (node_info_of i); try apply rf_ret; [apply rf_nofuel|].
      destruct (nth_error (leaf_keys x) off); [|apply rf_mpanic].
      apply rf_bind; [apply rf_load_leaf_from_link|]. intros. apply rf_bind; [apply rf_lift|]. intros. apply rf_ret.
    - cbn [get0]. destruct (Nat.leb (icount i) off); [apply rf_ret|].
      destruct (node_info_of i); try apply rf_ret.
      + apply rf_bind; [apply rf_load_branch_cached|]. intros b.
        generalize off. induction (br_children b) as [|c cs IHc]; intros off'; [apply rf_fail|].
        destruct (Nat.ltb off' (icount c)); auto.
      + destruct (nth_error (leaf_keys x) off); [|apply rf_mpanic].
        apply rf_bind; [apply rf_load_leaf_from_link|]. intros. apply rf_bind; [apply rf_lift|]. intros. apply rf_ret.
  Qed.

  Lemma rf_collect0 d : forall i off, rframe (collect0 sec d i off).
  Proof.
    induction d as [|d IH]; intros i off.
    - cbn [collect0]. destruct (Nat.leb (icount i) off); [apply rf_ret|].
      destruct (node_info_of i); try apply rf_ret; [apply rf_nofuel|].
      apply rf_bind; [apply rf_load_leaf_from_link|]. intros. apply rf_bind; [apply rf_lift|]. intros. apply rf_ret.
    - cbn [collect0]. destruct (Nat.leb (icount i) off); [apply rf_ret|].
      destruct (node_info_of i); try apply rf_ret.
      + apply rf_bind; [apply rf_load_branch_cached|]. intros b.
        generalize off. induction (br_children b) as [|c cs IHc]; intros off'; [apply rf_ret|].
        apply rf_bind; [destruct (Nat.ltb off' (icount c)); [apply IH|apply rf_ret]|]. intros.
        apply rf_bind; [apply IHc|]. intros. apply rf_ret.
      + apply rf_bind; [apply rf_load_leaf_from_link|]. intros. apply rf_bind; [apply rf_lift|]. intros. apply rf_ret.
  Qed.

  Lemma rf_roots0 d : forall i cur, rframe (roots0 sec d i cur).
  Proof.
    induction d as [|d IH]; intros i cur; cbn [roots0];
      (destruct (isealed i && cur_le (ilevel i) cur); [apply rf_ret|]);
      (destruct i as [x|x]; [apply rf_ret|]); (destruct (bi_link x) as [l|]; [|apply rf_ret]).
    - apply rf_nofuel.
    - apply rf_bind; [apply rf_load_branch_from_link|]. intros b.
      generalize (cur_min cur (Z.of_nat (ilevel (IBranch x)) - 1)).
      induction (br_children b) as [|c cs IHc]; intros cur'; [apply rf_ret|].
      apply rf_bind; [apply IH|]. intros [r1 c1]. apply rf_bind; [apply IHc|]. intros [r2 c2]. apply rf_ret.
  Qed.

  Lemma rf_check_invariants0 cfg d : forall i, rframe (check_invariants0 sec cfg d i).
  Proof.
    induction d as [|d IH]; intros i; cbn [check_invariants0];
      destruct (node_info_of i); try apply rf_ret; try apply rf_nofuel.
    1, 3: apply rf_bind; [apply rf_load_leaf_from_link|]; intros; apply rf_bind; [apply rf_lift|]; intros; apply rf_ret.
    apply rf_bind; [apply rf_load_branch_cached|]. intros b.
    apply rf_bind; [|intros; apply rf_ret]. apply frame_mmapM; [apply rext_refl|apply rext_trans|apply IH].
  Qed.

  Lemma rf_is_packed0 d : forall i, rframe (is_packed0 sec d i).
  Proof.
    induction d as [|d IH]; intros i; cbn [is_packed0];
      destruct (node_info_of i); try apply rf_ret; destruct (bi_sealed x); try apply rf_ret; try apply rf_nofuel.
    apply rf_bind; [apply rf_load_branch_cached|]. intros b.
    destruct (rev (br_children b)); [apply rf_ret|]. apply rf_bind; [apply IH|]. intros. apply rf_ret.
  Qed.

  Lemma rf_left_roots0 d : forall i, rframe (left_roots0 sec d i).
  Proof.
    induction d as [|d IH]; intros i; cbn [left_roots0]; (apply rf_bind; [|intros; apply rf_ret]);
      destruct i as [x|x]; try apply rf_ret; destruct (bi_link x); try apply rf_ret; try apply rf_nofuel.
    apply rf_bind; [apply rf_load_branch_cached|]. intros b.
    destruct (br_children b); [apply rf_mpanic|]. apply IH.
  Qed.

  Lemma rf_dump_graph0 {S} (f : nat -> Index -> S) d : forall p n i, rframe (dump_graph0 sec f d p n i).
  Proof.
    induction d as [|d IH]; intros p n i; cbn [dump_graph0];
      destruct (node_info_of i); try apply rf_ret; try apply rf_nofuel.
    apply rf_bind; [apply rf_load_branch_cached|]. intros b.
    generalize n at 2. generalize [(n, f n i)]. generalize (match p with Some p0 => [(p0, n)] | None => [] end).
    induction (br_children b) as [|c cs IHc]; intros e0 n0 cur; [apply rf_ret|].
    apply rf_bind; [apply IH|]. intros [e1 n1]. apply IHc.
  Qed.

  Lemma rf_create_index sealed l : rframe (create_index_from_link sec sealed l).
  Proof.
    apply rf_bind; [apply rf_get_block|]. intros d. apply rf_bind; [apply rf_lift|]. intros [cs r].
    destruct cs; [apply rf_mpanic|apply rf_ret].
  Qed.

  (** ** Writers *)

  Lemma wf_r {A} (m : M A) : rframe m -> wframe m.
  Proof. apply frame_impl. apply rext_wext. Qed.
  Lemma wf_bind {A C} (m : M A) (f : A -> M C) :
    wframe m -> (forall a, wframe (f a)) -> wframe (mbind m f).
  Proof. apply frame_bind. apply wext_trans. Qed.
  Lemma wf_ret {A} (a : A) : wframe (ret a).
  Proof. apply frame_ret, wext_refl. Qed.
  Lemma wf_lift {A} (a : res A) : wframe (lift a).
  Proof. apply frame_lift, wext_refl. Qed.
  Lemma wf_fail {A} e : wframe (@fail _ _ A e).
  Proof. apply frame_fail, wext_refl. Qed.
  Lemma wf_mpanic {A} p : wframe (@mpanic _ _ A p).
  Proof. apply frame_mpanic, wext_refl. Qed.
  Lemma wf_nofuel {A} : wframe (@nofuel _ _ A).
  Proof. apply frame_nofuel, wext_refl. Qed.
  Lemma wf_massert b s : wframe (massert b s).
  Proof. apply frame_massert, wext_refl. Qed.

  Lemma reserve_spec off n r : reserve off n = r ->
    (r = Ok (off, off + n)%N /\ (off + n < two64)%N) \/ r = Panic POverflow.
  Proof. unfold reserve. destruct (N.ltb_spec (off + n) two64); intros <-; auto. Qed.

  (** Encrypting and storing, as one step: the event that is logged starts at
      the old offset. *)
  Lemma wf_put leaf k z : zs_data z <> [] ->
    wframe (mbind (encrypt_block leaf k z (raw_of z)) put_block).
  Proof.
    intros Hne w r w' E. unfold mbind, encrypt_block in E.
    destruct (reserve (w_off w) (Nlen (zs_data z))) as [[o o']|e|p|] eqn:Er;
      apply reserve_spec in Er as [[Er Hlt]|Er]; try discriminate.
    2: { injection E as <- <-. apply wext_refl. }
    injection Er as -> ->.
    assert (Hn : (0 < Nlen (zs_data z))%N).
    { destruct (zs_data z); [congruence|]. unfold Nlen. cbn. lia. }
    assert (Hoff : wext key w (set_off w (w_off w + Nlen (zs_data z)))).
    { split; [split; [auto|apply fills_same; [auto|apply accessed_refl|easy]]|]. split; [auto|]. exists []. rewrite app_nil_r. cbn. repeat split; auto. lia. }
    destruct (cbor_bytes _) as [blk|e|p|] eqn:Eblk; cbn [rmap rbind] in E;
      try (injection E as <- <-; exact Hoff).
    unfold put_block in E. cbn -[sput] in E.
    destruct (sput (w_store w) blk) as [o s] eqn:Ep.
    assert (Hw' : wext key w (set_store (add_event (set_off w (w_off w + Nlen (zs_data z)))
        {| ev_leaf := leaf; ev_key := k; ev_off := w_off w; ev_len := Nlen (zs_data z);
           ev_raw := raw_of z; ev_block := blk |}) s)).
    { split; [|split].
      - assert (HS : store_ok (w_store w) -> store_ok s).
        { intros H1 l d Hd. eapply sput_adds in Hd as [Hd|Hd]; eauto. }
        split; [|apply fills_same; [exact HS|eapply accessed_put; eauto|easy]]. intros [H1 H2]. split; [now apply HS|exact H2].
      - cbn. intros l d Hd. eapply sput_keeps; eauto.
      - cbn. eexists. split; [reflexivity|]. split.
        + cbn. unfold ev_end; cbn. splits; try lia. exists (zs_links z), (zs_data z). cbn. splits; auto.
          all: unfold cbor_bytes in Eblk; destruct (cbor_ok _) eqn:Eok; [|discriminate]; injection Eblk as <-; auto.
        + intros Al l d Hd. eapply sput_alone in Hd as [Hd|[-> ->]]; eauto. right.
          eexists. split; [left; reflexivity|]. cbn. auto. }
    destruct o; injection E as <- <-; exact Hw'.
  Qed.

  Section Cfg.
  Variable cfg : Config.

  Lemma bind_assoc {A C D} (m : M A) (f : A -> M C) (g : C -> M D) w :
    mbind (mbind m f) g w = mbind m (fun a => mbind (f a) g) w.
  Proof. unfold mbind. destruct (m w) as [[a|e|p|] w1]; reflexivity. Qed.

  Lemma frame_ext (R : world -> world -> Prop) {A} (m m' : M A) :
    (forall w, m w = m' w) -> frame R m -> frame R m'.
  Proof. intros H F w r w' E. rewrite <- H in E. eauto. Qed.

  Lemma wf_put2 {A} leaf k z (f : event -> L -> M A) : zs_data z <> [] ->
    (forall e l, wframe (f e l)) ->
    wframe (mbind (encrypt_block leaf k z (raw_of z)) (fun e => mbind (put_block e) (f e))).
  Proof.
    intros Hne Hf w r w' E.
    pose proof (wf_put leaf k z Hne w) as P. unfold mbind in *.
    destruct (encrypt_block leaf k z (raw_of z) w) as [[e|e|p|] w1];
      try (injection E as <- <-; eapply P; reflexivity).
    destruct (put_block e w1) as [[l|e'|p|] w2];
      try (injection E as <- <-; eapply P; reflexivity).
    eapply wext_trans; [eapply P; reflexivity|]. eapply Hf; eauto.
  Qed.

  Lemma fill_nonempty c from keys l a b m z full keys' from' :
    fill c from keys l a b m = Ok (z, full, keys', from') -> zs_data z <> [].
  Proof.
    unfold fill. intros E. rinv E. destruct a0 as [[? ?] ?]. rinv E. injection E as <- <- <- <-. apply z_nonempty.
  Qed.

  Lemma frame_lift_ok (R : world -> world -> Prop) {A C} (a : res A) (f : A -> M C) :
    (forall w, R w w) -> (forall x, a = Ok x -> frame R (f x)) -> frame R (mbind (lift a) f).
  Proof.
    intros HR H w r w' E. unfold mbind, lift in E.
    destruct a as [x|e|p|]; try (injection E as <- <-; apply HR). eapply H; eauto.
  Qed.

  Lemma wf_extend_leaf c keys from : wframe (extend_leaf cfg sec c keys from).
  Proof.
    apply wf_bind; [apply wf_massert|]. intros _.
    apply frame_lift_ok; [apply wext_refl|]. intros [[[z full] keys'] from'] E.
    apply wf_put2; [eapply fill_nonempty; eauto|]. intros. apply wf_ret.
  Qed.

  Lemma wf_persist_branch items : wframe (persist_branch cfg sec items).
  Proof.
    apply frame_lift_ok; [apply wext_refl|]. intros z E.
    apply wf_put2; [|intros; apply wf_ret].
    unfold from_iter_ipld in E. rinv E. destruct a. injection E as <-. apply z_nonempty.
  Qed.

  (** Any relation that reading, writing a leaf and writing a branch respect is
      respected by every function that writes. *)
  Section Gen.
  Variable R : world -> world -> Prop.
  Hypothesis Rrefl : forall w, R w w.
  Hypothesis Rtrans : forall a b c, R a b -> R b c -> R a c.
  Hypothesis Rread : forall w w', rext key w w' -> R w w'.
  Hypothesis gf_extend_leaf : forall c keys from, frame R (extend_leaf cfg sec c keys from).
  Hypothesis gf_persist_branch : forall items, frame R (persist_branch cfg sec items).
  Notation gframe := (frame R).

  Lemma gf_r {A} (m : M A) : rframe m -> gframe m.
  Proof. apply frame_impl. exact Rread. Qed.
  Lemma gf_bind {A C} (m : M A) (f : A -> M C) : gframe m -> (forall a, gframe (f a)) -> gframe (mbind m f).
  Proof. apply frame_bind. exact Rtrans. Qed.
  Lemma gf_ret {A} (a : A) : gframe (ret a).
  Proof. apply frame_ret, Rrefl. Qed.
  Lemma gf_lift {A} (a : res A) : gframe (lift a).
  Proof. apply frame_lift, Rrefl. Qed.
  Lemma gf_fail {A} e : gframe (@fail _ _ A e).
  Proof. apply frame_fail, Rrefl. Qed.
  Lemma gf_mpanic {A} p : gframe (@mpanic _ _ A p).
  Proof. apply frame_mpanic, Rrefl. Qed.
  Lemma gf_nofuel {A} : gframe (@nofuel _ _ A).
  Proof. apply frame_nofuel, Rrefl. Qed.
  Lemma gf_massert b s : gframe (massert b s).
  Proof. apply frame_massert, Rrefl. Qed.

  Lemma gf_leaf_from_iter from : gframe (leaf_from_iter cfg sec from).
  Proof. apply gf_bind; [apply gf_massert|]. intros. apply gf_extend_leaf. Qed.

  Lemma gf_new_branch cs mode : gframe (new_branch cfg sec cs mode).
  Proof.
    apply gf_bind; [apply gf_massert|]. intros _. apply gf_bind; [apply gf_massert|]. intros _.
    apply gf_bind; [apply gf_persist_branch|]. intros []. apply gf_ret.
  Qed.

  Lemma gf_fill_children f n : (forall from, gframe (f from)) ->
    forall cs from, gframe (fill_children f n cs from).
  Proof.
    intros Hf. induction n as [|n IH]; intros cs from; [apply gf_ret|].
    destruct from; [apply gf_ret|]. apply gf_bind; [apply Hf|]. intros []. apply IH.
  Qed.

  Lemma gf_extend_branch_with f cs level from mode : (forall from, gframe (f from)) ->
    gframe (extend_branch_with cfg sec f cs level from mode).
  Proof.
    intros Hf. do 3 (apply gf_bind; [apply gf_massert|]; intros _).
    apply gf_bind; [now apply gf_fill_children|]. intros []. apply gf_bind; [apply gf_new_branch|].
    intros. apply gf_bind; [apply gf_massert|]. intros. apply gf_ret.
  Qed.

  Lemma gf_fill_node level : forall from, gframe (fill_node cfg sec level from).
  Proof.
    induction level as [|l IH]; intros from; cbn [fill_node];
      (apply gf_bind; [apply gf_massert|]; intros _).
    - apply gf_bind; [apply gf_leaf_from_iter|]. intros []. apply gf_ret.
    - apply gf_bind; [now apply gf_extend_branch_with|]. intros []. apply gf_ret.
  Qed.

  Lemma gf_extend_branch cs level from mode : gframe (extend_branch cfg sec cs level from mode).
  Proof. apply gf_extend_branch_with. intros. apply gf_fill_node. Qed.

  Lemma gf_climb fuel : forall node bnd from, gframe (climb cfg sec fuel node bnd from).
  Proof.
    induction fuel as [|f IH]; intros; cbn [climb]; destruct (_ && _); try apply gf_ret; [apply gf_nofuel|].
    apply gf_bind; [apply gf_extend_branch|]. intros []. apply IH.
  Qed.

  Lemma gf_extend0 rec i from : (forall i l f, gframe (rec i l f)) -> gframe (extend0 cfg sec rec i from).
  Proof.
    intros Hr. unfold extend0. destruct (_ || _); [apply gf_ret|].
    destruct (node_info_of i) as [x l|x l|x|x]; try apply gf_ret.
    - apply gf_bind; [apply gf_r, rf_load_branch_cached|]. intros b.
      apply gf_bind.
      + destruct (rev (br_children b)); [apply gf_ret|]. apply gf_bind; [apply Hr|]. intros []. apply gf_ret.
      + intros []. apply gf_bind; [apply gf_extend_branch|]. intros []. apply gf_ret.
    - apply gf_bind; [apply gf_r, rf_load_leaf_from_link|]. intros z.
      apply gf_bind; [apply gf_extend_leaf|]. intros []. apply gf_ret.
  Qed.

  Lemma gf_extend_above d : forall node bnd from, gframe (extend_above cfg sec d node bnd from).
  Proof.
    induction d as [|d IH]; intros; cbn [extend_above]; [apply gf_nofuel|].
    destruct (is_nil from); [apply gf_fail|]. apply gf_bind; [apply gf_massert|]. intros _.
    apply gf_bind.
    - destruct node; [apply gf_extend0; intros; apply IH|].
      apply gf_bind; [apply gf_leaf_from_iter|]. intros []. apply gf_ret.
    - intros []. apply gf_bind; [apply gf_climb|]. intros []. apply gf_bind; [apply gf_massert|]. intros. apply gf_ret.
  Qed.

  Lemma gf_extend_unpacked0 i from : gframe (extend_unpacked0 cfg sec i from).
  Proof.
    unfold extend_unpacked0. destruct (is_nil from); [apply gf_ret|].
    apply gf_bind; [apply gf_extend_above|]. intros [b f]. destruct i; [|apply gf_ret].
    apply gf_bind; [apply gf_extend_branch|]. intros []. apply gf_ret.
  Qed.

  Lemma gf_simplify_roots fuel : forall rs from, gframe (simplify_roots cfg sec fuel rs from).
  Proof.
    induction fuel as [|f IH]; intros; cbn [simplify_roots];
      (apply gf_bind; [apply gf_massert|]; intros _);
      (apply gf_bind; [apply gf_massert|]; intros _);
      (apply gf_bind; [apply gf_lift|]; intros [c|c|c]);
      try (apply gf_bind; [apply gf_new_branch|]; intros; apply gf_ret); [apply gf_nofuel|apply IH].
  Qed.

  Lemma gf_simplify_all fuel : forall rs, gframe (simplify_all cfg sec fuel rs).
  Proof.
    induction fuel as [|f IH]; intros; cbn [simplify_all]; destruct (Nat.ltb 1 (List.length rs));
      try apply gf_ret; [apply gf_nofuel|].
    apply gf_bind; [apply gf_simplify_roots|]. intros. apply IH.
  Qed.

  Lemma gf_tree_from_roots rs : gframe (tree_from_roots cfg sec rs).
  Proof.
    apply gf_bind; [apply gf_massert|]. intros _. apply gf_bind; [apply gf_massert|]. intros _.
    apply gf_bind; [apply gf_simplify_all|]. intros. apply gf_ret.
  Qed.

  Lemma gf_retain0 q d : forall off i cur, gframe (retain0 cfg sec q d off i cur).
  Proof.
    induction d as [|d IH]; intros off i cur; destruct i as [x|x]; cbn [retain0]; try apply gf_ret;
      match goal with |- context [match bi_link ?y with Some _ => _ | None => ret _ end] =>
        destruct (bi_link y); [|apply gf_ret] end; [apply gf_nofuel|].
    apply gf_bind; [apply gf_r, rf_load_branch_from_link|]. intros b. apply gf_bind.
    - generalize (retain_cursor (IBranch x) cur). generalize off.
      induction (br_children b) as [|c cs IHc]; intros off' cur'; [apply gf_ret|].
      apply gf_bind; [apply IH|]. intros [c1 cur1]. apply gf_bind; [apply IHc|]. intros [[? ?] ?]. apply gf_ret.
    - intros [[cs ch] cur']. destruct ch; [|apply gf_ret].
      apply gf_bind; [apply gf_persist_branch|]. intros []. apply gf_ret.
  Qed.

  Lemma gf_repair0 d : forall i cur, gframe (repair0 cfg sec d i cur).
  Proof.
    induction d as [|d IH]; intros i cur; destruct i as [x|x]; cbn [repair0];
      (apply gf_bind; [apply gf_r, frame_try; first [apply rf_load_leaf | apply rf_load_branch]|];
       intros [[b|]|e]); try apply gf_ret; [apply gf_nofuel|].
    apply gf_bind.
    - generalize (repair_cursor (IBranch x) cur).
      induction (br_children b) as [|c cs IHc]; intros cur'; [apply gf_ret|].
      apply gf_bind; [apply IH|]. intros [[c1 rep1] cur1]. apply gf_bind; [apply IHc|]. intros [[[? ?] ?] ?]. apply gf_ret.
    - intros [[[cs ch] rep] cur']. destruct ch; [|apply gf_ret].
      apply gf_bind; [apply gf_persist_branch|]. intros []. apply gf_ret.
  Qed.
  End Gen.

  Lemma wf_leaf_from_iter from : wframe (leaf_from_iter cfg sec from).
  Proof. apply (gf_leaf_from_iter (wext key)); auto using wext_refl, rext_wext, wf_extend_leaf, wf_persist_branch. exact (wext_trans key). Qed.
  Lemma wf_new_branch cs mode : wframe (new_branch cfg sec cs mode).
  Proof. apply (gf_new_branch (wext key)); auto using wext_refl, rext_wext, wf_extend_leaf, wf_persist_branch. exact (wext_trans key). Qed.
  Lemma wf_fill_children f n : (forall from, wframe (f from)) ->
    forall cs from, wframe (fill_children f n cs from).
  Proof. apply (gf_fill_children (wext key)); auto using wext_refl, rext_wext, wf_extend_leaf, wf_persist_branch. exact (wext_trans key). Qed.
  Lemma wf_extend_branch_with f cs level from mode : (forall from, wframe (f from)) ->
    wframe (extend_branch_with cfg sec f cs level from mode).
  Proof. apply (gf_extend_branch_with (wext key)); auto using wext_refl, rext_wext, wf_extend_leaf, wf_persist_branch. exact (wext_trans key). Qed.
  Lemma wf_fill_node level : forall from, wframe (fill_node cfg sec level from).
  Proof. apply (gf_fill_node (wext key)); auto using wext_refl, rext_wext, wf_extend_leaf, wf_persist_branch. exact (wext_trans key). Qed.
  Lemma wf_extend_branch cs level from mode : wframe (extend_branch cfg sec cs level from mode).
  Proof. apply (gf_extend_branch (wext key)); auto using wext_refl, rext_wext, wf_extend_leaf, wf_persist_branch. exact (wext_trans key). Qed.
  Lemma wf_climb fuel : forall node bnd from, wframe (climb cfg sec fuel node bnd from).
  Proof. apply (gf_climb (wext key)); auto using wext_refl, rext_wext, wf_extend_leaf, wf_persist_branch. exact (wext_trans key). Qed.
  Lemma wf_extend0 rec i from : (forall i l f, wframe (rec i l f)) -> wframe (extend0 cfg sec rec i from).
  Proof. apply (gf_extend0 (wext key)); auto using wext_refl, rext_wext, wf_extend_leaf, wf_persist_branch. exact (wext_trans key). Qed.
  Lemma wf_extend_above d : forall node bnd from, wframe (extend_above cfg sec d node bnd from).
  Proof. apply (gf_extend_above (wext key)); auto using wext_refl, rext_wext, wf_extend_leaf, wf_persist_branch. exact (wext_trans key). Qed.
  Lemma wf_extend_unpacked0 i from : wframe (extend_unpacked0 cfg sec i from).
  Proof. apply (gf_extend_unpacked0 (wext key)); auto using wext_refl, rext_wext, wf_extend_leaf, wf_persist_branch. exact (wext_trans key). Qed.
  Lemma wf_simplify_roots fuel : forall rs from, wframe (simplify_roots cfg sec fuel rs from).
  Proof. apply (gf_simplify_roots (wext key)); auto using wext_refl, rext_wext, wf_extend_leaf, wf_persist_branch. exact (wext_trans key). Qed.
  Lemma wf_simplify_all fuel : forall rs, wframe (simplify_all cfg sec fuel rs).
  Proof. apply (gf_simplify_all (wext key)); auto using wext_refl, rext_wext, wf_extend_leaf, wf_persist_branch. exact (wext_trans key). Qed.
  Lemma wf_tree_from_roots rs : wframe (tree_from_roots cfg sec rs).
  Proof. apply (gf_tree_from_roots (wext key)); auto using wext_refl, rext_wext, wf_extend_leaf, wf_persist_branch. exact (wext_trans key). Qed.
  Lemma wf_retain0 q d : forall off i cur, wframe (retain0 cfg sec q d off i cur).
  Proof. apply (gf_retain0 (wext key)); auto using wext_refl, rext_wext, wf_extend_leaf, wf_persist_branch. exact (wext_trans key). Qed.
  Lemma wf_repair0 d : forall i cur, wframe (repair0 cfg sec d i cur).
  Proof. apply (gf_repair0 (wext key)); auto using wext_refl, rext_wext, wf_extend_leaf, wf_persist_branch. exact (wext_trans key). Qed.
  End Cfg.
  End Sec.
End Frames.

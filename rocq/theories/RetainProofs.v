(** Retaining: purges only sealed nodes without matching events, keeps the
    shape of the tree, and keeps it packable. *)
From Coq Require Import List NArith ZArith Lia Bool String Arith.
From Verif Require Import Base BaseProofs Cbor Types Seq SeqProofs Query QuerySpec World Read Write Ghost Frame ReadProofs Packable WriteProofs QueryProofs.
Import ListNotations.
#[local] Coercion s_now : Setting >-> Config.

Lemma Forall2_len {A C} (R : A -> C -> Prop) a c : Forall2 R a c -> List.length a = List.length c.
Proof. induction 1; cbn; congruence. Qed.

Section Rebuild.
  Context {T : Types} {TL : TypesLaws T} {X : Ext} {XL : ExtLaws X}
          {B : Backend T} {BL : BackendLaws T B} {Rl : Rel T X B}.
  Variable cfg : Setting.
  Variable sec : Secrets.
  Notation key := (index_key sec).
  Hypothesis Hcfg : setting_ok cfg.
  Variable Av Ps Sf : Prop.
  Notation gd := (gd cfg sec Av Ps).

  (** Same index record except for the link. *)
  Definition same (t t' : tree) : Prop :=
    isealed (root_ix t') = isealed (root_ix t) /\ ilevel (root_ix t') = ilevel (root_ix t)
    /\ icount (root_ix t') = icount (root_ix t) /\ summarize (root_ix t') = summarize (root_ix t)
    /\ ivbytes (root_ix t') = ivbytes (root_ix t).
  Definition samep (t t' : tree) : Prop := same t t' /\ packed t' = packed t.

  Lemma same_refl t : same t t.
  Proof. now repeat split. Qed.

  Lemma same_map {A} (f : Index -> A) cs cs' :
    (forall t t', same t t' -> f (root_ix t') = f (root_ix t)) -> Forall2 same cs cs' ->
    map f (map root_ix cs') = map f (map root_ix cs).
  Proof. intros H. induction 1; cbn; [easy|]. f_equal; auto. Qed.

  Lemma same_levels cs cs' : Forall2 same cs cs' -> map ilevel (map root_ix cs') = map ilevel (map root_ix cs).
  Proof. apply same_map. now intros t t' (_ & H & _). Qed.
  Lemma same_counts cs cs' : Forall2 same cs cs' -> map icount (map root_ix cs') = map icount (map root_ix cs).
  Proof. apply same_map. now intros t t' (_ & _ & H & _). Qed.
  Lemma same_sums cs cs' : Forall2 same cs cs' -> map summarize (map root_ix cs') = map summarize (map root_ix cs).
  Proof. apply same_map. now intros t t' (_ & _ & _ & H & _). Qed.
  Lemma same_vbytes cs cs' : Forall2 same cs cs' -> map ivbytes (map root_ix cs') = map ivbytes (map root_ix cs).
  Proof. apply same_map. now intros t t' (_ & _ & _ & _ & H). Qed.

  Lemma existsb_same (f : Index -> bool) cs cs' :
    (forall t t', same t t' -> f (root_ix t') = f (root_ix t)) -> Forall2 same cs cs' ->
    existsb f (map root_ix cs') = existsb f (map root_ix cs).
  Proof. intros H. induction 1; cbn; [easy|]. f_equal; auto. Qed.

  Lemma same_branch_sealed c cs cs' level : Forall2 same cs cs' ->
    branch_sealed c (map root_ix cs') level = branch_sealed c (map root_ix cs) level.
  Proof.
    intros H. unfold branch_sealed. rewrite !map_length.
    rewrite (existsb_same (fun x => negb (isealed x)) cs cs'); [|now intros t t' (-> & _)|easy].
    rewrite (existsb_same (fun x => negb (ilevel x =? level - 1)) cs cs'); [|now intros t t' (_ & -> & _)|easy].
    now rewrite (Forall2_len _ _ _ H).
  Qed.

  Lemma samep_refl t : samep t t.
  Proof. split; [apply same_refl|easy]. Qed.
  Lemma samep_same cs cs' : Forall2 samep cs cs' -> Forall2 same cs cs'.
  Proof. induction 1; constructor; auto. apply H. Qed.

  Lemma same_packed x l cs cs' : Forall2 samep cs cs' ->
    packed (TBranch (branch_set_link x l) cs') = packed (TBranch x cs).
  Proof.
    intros H. cbn [packed branch_set_link bi_sealed bi_level]. f_equal.
    induction H as [|t t' cs cs' ((S1 & S2 & S3 & S4 & _) & S5) H IH]; [easy|].
    inversion H; subst.
    - now rewrite S2, S5.
    - now rewrite S1, S2, IH.
  Qed.

  (** A new block is never one that exists. *)
  Lemma block_fresh k1 k2 blk raw1 raw2 r1 r2 :
    block_payload k1 blk raw1 r1 -> block_payload k2 blk raw2 r2 -> (snd r1 <= fst r2)%N -> False.
  Proof.
    intros (o1 & l1 & d1 & H1 & _ & -> & _) (o2 & l2 & d2 & H2 & _ & -> & _ & Hne) Hle.
    rewrite H1 in H2. injection H2 as <- <- <-. cbn in Hle.
    destruct d1 as [|b d1]; [now apply Hne|]. unfold Nlen in Hle. cbn in Hle. lia.
  Qed.

  Lemma post_rebuild x cs cs' w :
    repr sec (w_off w) (TBranch x cs) -> inv cfg (TBranch x cs) ->
    Forall2 same cs cs' -> Forall (gd w) cs' ->
    post (persist_branch cfg sec (map root_ix cs')) w Sf (fun p w' =>
      gd w' (TBranch (branch_set_link x (Some (fst p))) cs') /\ bi_link x <> Some (fst p)).
  Proof.
    intros R I Hs G. unfold post. pose proof (wf_persist_branch sec cfg (map root_ix cs') w) as W.
    pose proof (post_persist_branch cfg sec (map root_ix cs') w Sf) as P. unfold post in P.
    destruct (persist_branch cfg sec (map root_ix cs') w) as [[[l n]|e|[]|] w']; auto.
    specialize (W _ _ eq_refl).
    destruct P as (blk & r & Hl & Hb & Hlo & Hhi & Hfit & Hst). cbn [fst] in *.
    apply repr_branch in R as (A1 & A2 & A3 & A4 & blk0 & r0 & A5 & A6 & A7 & A8).
    apply invs_branch in I as (I1 & I2 & I3 & (I4 & I6) & I5). split.
    - eapply gd_branch with (blk := blk) (r := r); eauto.
      + eapply gd_Forall_mono; eauto.
      + intros ->. inversion Hs; subst. congruence.
      + cbn. now rewrite Hl.
      + eapply repr_Forall_weaken; [exact Hlo|]. now apply gd_repr_off with cfg Av Ps.
      + cbn. rewrite (same_counts _ _ Hs). exact A2.
      + cbn. rewrite (same_levels _ _ Hs). exact I1.
      + cbn. unfold sealed_in. rewrite !(same_branch_sealed _ _ _ _ Hs). exact I2.
      + change (branch_sums (branch_set_link x (Some l))) with (branch_sums x). now rewrite (same_sums _ _ Hs).
      + cbn. rewrite <- (Forall2_len _ _ _ Hs). exact I4.
      + cbn. now rewrite (same_vbytes _ _ Hs).
    - rewrite A5. intros [= E]. rewrite Hl in E. apply digest_inj in E as ->.
      apply (block_fresh _ _ _ _ _ _ _ (proj1 A6) (proj1 Hb)). lia.
  Qed.

  Lemma link_eqb_eq a b : link_eqb a b = true <-> a = b.
  Proof.
    destruct a, b; cbn; try rewrite l_eqb_eq; split; congruence.
  Qed.
End Rebuild.

Section RetainProofs.
  Context {T : Types} {TL : TypesLaws T} {X : Ext} {XL : ExtLaws X}
          {B : Backend T} {BL : BackendLaws T B} {Rl : Rel T X B}.
  Variable cfg : Setting.
  Variable sec : Secrets.
  Notation key := (index_key sec).
  Hypothesis Hcfg : setting_ok cfg.
  Variable Av Ps Sf : Prop.
  Context {RA : RelAv Rl Av}.
  Notation gd := (gd cfg sec Av Ps).
  Variable q : Query.
  Variable m : nat -> K -> bool.
  (** Nodes for which all bits of the query are cleared have no event in [m]. *)
  Definition purge_ok : Prop :=
    (forall off x vs, any (q_containing q off x (trues (leaf_keys x))) = false ->
       nomatch m off (map Some (combine (leaf_keys x) vs)))
    /\ (forall off lim x cs, repr sec lim (TBranch x cs) -> inv cfg (TBranch x cs) ->
          any (q_intersecting q off x (trues (branch_sums x))) = false -> nomatch m off (flat_map content cs)).
  Hypothesis Hq : purge_ok.

  (** Entry by entry: unchanged, or purged although it did not match. *)
  Fixpoint keeps (off : nat) (c c' : list (option (K * V))) : Prop :=
    match c, c' with
    | [], [] => True
    | e :: c, e' :: c' =>
        (e' = e \/ (e' = None /\ match e with Some (k, _) => m off k = false | None => True end))
        /\ keeps (S off) c c'
    | _, _ => False
    end.

  Lemma keeps_refl off c : keeps off c c.
  Proof. revert off; induction c; intros; cbn; auto. Qed.

  Lemma keeps_none off c : nomatch m off c -> keeps off c (repeat None (List.length c)).
  Proof. revert off; induction c as [|e c IH]; intros off H; cbn in *; [auto|]. destruct H. split; auto. Qed.

  Lemma keeps_length off c c' : keeps off c c' -> List.length c' = List.length c.
  Proof. revert off c'; induction c as [|e c IH]; intros off [|e' c'] H; cbn in *; try easy. f_equal. now apply (IH (S off)). Qed.

  Lemma keeps_app off a a' b b' : keeps off a a' -> keeps (off + List.length a) b b' -> keeps off (a ++ b) (a' ++ b').
  Proof.
    revert off a'; induction a as [|e a IH]; intros off [|e' a'] H1 H2; cbn in *; try easy.
    - now rewrite Nat.add_0_r in H2.
    - destruct H1. split; [easy|]. apply IH; [easy|]. now rewrite Nat.add_succ_comm.
  Qed.

  Lemma keeps_nth off c c' : keeps off c c' ->
    List.length c' = List.length c /\
    forall i e, nth_error c i = Some e ->
      nth_error c' i = Some e
      \/ (nth_error c' i = Some None /\ match e with Some (k, _) => m (off + i) k = false | None => True end).
  Proof.
    intros H. split; [now apply keeps_length with off|]. revert off c' H.
    induction c as [|e0 c IH]; intros off [|e' c'] H [|i] e E; try easy; cbn in *.
    - injection E as ->. rewrite Nat.add_0_r. destruct H as [[->|[-> H]] _]; auto.
    - rewrite <- Nat.add_succ_comm. now apply IH.
  Qed.

  (** [None] is the cursor [i32::MAX]. *)
  Definition cur_below (a b : option Z) : Prop :=
    match a, b with
    | _, None => True
    | Some x, Some y => (x <= y)%Z
    | None, Some _ => False
    end.

  Lemma cur_below_refl a : cur_below a a.
  Proof. destruct a; cbn; lia. Qed.
  Lemma cur_below_trans a b c : cur_below a b -> cur_below b c -> cur_below a c.
  Proof. destruct a, b, c; cbn; try lia; auto. Qed.
  Lemma cur_le_below l a b : cur_below a b -> cur_le l a = true -> cur_le l b = true.
  Proof. destruct a, b; cbn; rewrite ?Z.leb_le; try lia; auto. Qed.
  Lemma cur_min_below a b c : cur_below a b -> cur_below (cur_min a c) (cur_min b c).
  Proof. destruct a, b; cbn; try lia. Qed.

  Lemma retain_cursor_below i cur :
    cur_below (retain_cursor i cur) cur /\ cur_below (retain_cursor i cur) (Some (Z.of_nat (ilevel i))).
  Proof.
    unfold retain_cursor. destruct (isealed i && cur_le (ilevel i) cur) eqn:E.
    - apply andb_prop in E as [_ E]. split; [|cbn; lia]. destruct cur; cbn in *; [|easy]. now apply Z.leb_le.
    - split; destruct cur; cbn; try lia; auto.
  Qed.

  (** The cursor of [retain] stays below that of [roots]. *)
  Definition tracks (out : option Z) (cur : option Z) (t t' : tree) : Prop :=
    forall c, cur_below cur c ->
      snd (groots t' c) = snd (groots t c) /\ (pk t c -> pk t' c) /\ cur_below out (snd (groots t c)).

  Definition tracks_list (out : option Z) (cur : option Z) (cs cs' : list tree) : Prop :=
    forall c, cur_below cur c ->
      snd (groots_list cs' c) = snd (groots_list cs c) /\ (pk_list cs c -> pk_list cs' c)
      /\ cur_below out (snd (groots_list cs c)).

  (** No unsealed leaf, as far as the tree can be seen. *)
  Fixpoint no_open (t : tree) : bool :=
    match t with
    | TLeaf x _ | TLeafP x => li_sealed x
    | TBranch _ cs => forallb no_open cs
    | TBranchP _ => true
    end.

  (** Up to the first unsealed leaf, every leaf that is left is selected by the
      query. *)
  Fixpoint dropped (off : nat) (t : tree) : Prop :=
    match t with
    | TLeaf x _ => li_sealed x = true -> any (q_containing q off x (trues (leaf_keys x))) = true
    | TBranch _ cs =>
        (fix go (off : nat) (cs : list tree) : Prop :=
           match cs with
           | [] => True
           | c :: cs' => dropped off c /\ (no_open c = true -> go (off + icount (root_ix c)) cs')
           end) off cs
    | _ => True
    end.
  Fixpoint dropped_list (off : nat) (cs : list tree) : Prop :=
    match cs with
    | [] => True
    | c :: cs' => dropped off c /\ (no_open c = true -> dropped_list (off + icount (root_ix c)) cs')
    end.
  Lemma dropped_branch off x cs : dropped off (TBranch x cs) <-> dropped_list off cs.
  Proof. cbn. revert off. induction cs as [|c cs IH]; intros off; [easy|]. cbn. now rewrite IH. Qed.

  Definition drops (off : nat) (cur out : option Z) (t' : tree) : Prop :=
    cur_le 0 cur = true -> dropped off t' /\ (no_open t' = true -> cur_le 0 out = true).

  Lemma cur_le_cursor i cur : cur_le 0 cur = true -> ilevel i <> 0 \/ isealed i = true -> cur_le 0 (retain_cursor i cur) = true.
  Proof.
    intros H Hi. unfold retain_cursor. destruct (isealed i && cur_le (ilevel i) cur) eqn:E; [cbn; apply Z.leb_le; lia|].
    destruct Hi as [Hi|Hi].
    - unfold cur_le, cur_min in *. destruct cur; rewrite Z.leb_le in *; lia.
    - rewrite Hi in E. cbn [andb] in E. unfold cur_le, cur_min in *. destruct (ilevel i); [congruence|].
      destruct cur; rewrite ?Z.leb_le, ?Z.leb_gt in *; lia.
  Qed.

  Definition retained (off : nat) (t : tree) (cur : option Z) (p : Index * option Z) (w' : world) : Prop :=
    exists t', fst p = root_ix t' /\ gd w' t' /\ samep t t'
      /\ (ilink (root_ix t') = ilink (root_ix t) -> t' = t)
      /\ keeps off (content t) (content t')
      /\ cur_below (snd p) (retain_cursor (root_ix t) cur)
      /\ tracks (snd p) cur t t'
      /\ drops off cur (snd p) t'.

  Lemma tracks_refl i t cur : i = root_ix t ->
    (match t with TBranch _ _ => False | _ => True end) -> tracks (retain_cursor i cur) cur t t.
  Proof.
    intros -> Ht c Hc. split; [easy|]. split; [easy|].
    destruct (isealed (root_ix t) && cur_le (ilevel (root_ix t)) c) eqn:E.
    - rewrite (groots_taken _ _ E). apply retain_cursor_below.
    - assert (E1 : isealed (root_ix t) && cur_le (ilevel (root_ix t)) cur = false).
      { destruct (isealed (root_ix t)); [|easy]. cbn [andb] in *. destruct (cur_le _ cur) eqn:E1; [|easy].
        now rewrite (cur_le_below _ _ _ Hc E1) in E. }
      unfold retain_cursor. rewrite E1.
      destruct t; cbn [groots]; rewrite ?E; cbn [snd]; try (now apply cur_min_below); destruct Ht.
  Qed.

  (** Purging a node that the roots cursor takes. *)
  Lemma tracks_taken t t' cur out :
    isealed (root_ix t) = true -> cur_le (ilevel (root_ix t)) cur = true ->
    isealed (root_ix t') = isealed (root_ix t) -> ilevel (root_ix t') = ilevel (root_ix t) ->
    cur_below out (Some (Z.of_nat (ilevel (root_ix t)))) ->
    tracks out cur t t'.
  Proof.
    intros H1 H2 H3 H4 H5 c Hc. pose proof (cur_le_below _ _ _ Hc H2) as H6.
    assert (E : isealed (root_ix t) && cur_le (ilevel (root_ix t)) c = true) by now rewrite H1, H6.
    assert (E' : isealed (root_ix t') && cur_le (ilevel (root_ix t')) c = true) by now rewrite H3, H4.
    rewrite (groots_taken _ _ E), (groots_taken _ _ E'). cbn [snd]. rewrite H4. split; [easy|]. split; [|easy].
    intros _. now apply pk_taken.
  Qed.

  (** Purge condition of a node: taken by the cursor. *)
  Lemma retain_purge_cond i cur :
    isealed i = true -> cur_le (ilevel i) (retain_cursor i cur) = true -> cur_le (ilevel i) cur = true.
  Proof.
    intros Hs H. eapply cur_le_below; [|exact H]. apply retain_cursor_below.
  Qed.

  Lemma tracks_branch x x' cs cs' cur cur' out :
    bi_sealed x' = bi_sealed x -> bi_level x' = bi_level x ->
    cur' = retain_cursor (IBranch x) cur ->
    cur_below out cur' ->
    tracks_list out cur' cs cs' ->
    tracks out cur (TBranch x cs) (TBranch x' cs').
  Proof.
    intros H1 H2 -> Hb H c Hc.
    destruct (isealed (IBranch x) && cur_le (bi_level x) c) eqn:E.
    - assert (E' : isealed (IBranch x') && cur_le (bi_level x') c = true) by (cbn in *; now rewrite H1, H2).
      rewrite (groots_taken (TBranch x cs) c E), (groots_taken (TBranch x' cs') c E'). cbn [snd root_ix ilevel]. rewrite H2.
      split; [easy|]. split; [intros _; now apply pk_taken|]. eapply cur_below_trans; [exact Hb|]. apply (retain_cursor_below (IBranch x)).
    - assert (E' : isealed (IBranch x') && cur_le (bi_level x') c = false) by (cbn in *; now rewrite H1, H2).
      rewrite (groots_branch _ _ _ E), (groots_branch _ _ _ E'), (pk_branch _ _ _ E), (pk_branch _ _ _ E'), H2.
      apply H. unfold retain_cursor. cbn [isealed ilevel] in *.
      replace (bi_sealed x && cur_le (bi_level x) cur) with false; [now apply cur_min_below|].
      destruct (bi_sealed x); [|easy]. cbn in *. destruct (cur_le _ cur) eqn:E1; [|easy].
      now rewrite (cur_le_below _ _ _ Hc E1) in E.
  Qed.

  Lemma post_retain0 d : forall t off cur w, wok key w -> gd w t -> ilevel (root_ix t) < d ->
    post (retain0 cfg sec q d off (root_ix t) cur) w Sf (retained off t cur).
  Proof.
    induction d as [|d IH]; intros t off cur w W G Hd; [lia|].
    destruct t as [x vs|x|x cs|x]; cbn [root_ix retain0].
    - (* leaf *)
      pose proof G as (R & I & A & P).
      destruct (repr_leaf_avail _ _ _ _ R) as (l & z & Hl & _). rewrite Hl, andb_true_r.
      change (map (fun _ : K => true) (leaf_keys x)) with (trues (leaf_keys x)).
      assert (Hcur : cur_le 0 cur = true -> li_sealed x = true -> cur_le 0 (retain_cursor (ILeaf x) cur) = true).
      { intros Hc Hx. apply cur_le_cursor; auto. }
      assert (Hstay : (cur_le 0 cur = true -> dropped off (TLeaf x vs)) -> retained off (TLeaf x vs) cur (ILeaf x, retain_cursor (ILeaf x) cur) w).
      { intros Hdr. exists (TLeaf x vs). cbn [fst snd root_ix]. splits; auto using samep_refl, keeps_refl, cur_below_refl.
        - now apply (tracks_refl (ILeaf x)).
        - intros Hc. split; [auto|]. cbn [no_open]. auto. }
      destruct (li_sealed x && cur_le 0 (retain_cursor (ILeaf x) cur)) eqn:E.
      2:{ apply post_ret, Hstay. intros Hc Hx. rewrite Hx, (Hcur Hc Hx) in E. discriminate. }
      destruct (any (q_containing q off x (trues (leaf_keys x)))) eqn:Em; cbn [negb]; [apply post_ret, Hstay; now intros _ _|].
      apply andb_prop in E as [E1 E2]. apply post_ret.
      exists (TLeafP (leaf_set_link x None)). cbn [fst snd root_ix].
      split; [easy|]. split; [|split; [|split; [|split; [|split; [|split]]]]].
      + split; [easy|]. split; [apply I|]. split; [intros _ _; exact Logic.I|]. intros _. exact E1.
      + now repeat split.
      + cbn. rewrite Hl. discriminate.
      + destruct R as (R & _).
        replace (content (TLeafP (leaf_set_link x None))) with (repeat (@None (K * V)) (List.length (content (TLeaf x vs)))).
        * apply keeps_none. cbn [content]. now apply Hq.
        * cbn. rewrite map_length, combine_length. f_equal. unfold leaf_keys in *. cbn. lia.
      + apply cur_below_refl.
      + apply tracks_taken; auto. apply (retain_purge_cond (ILeaf x)); auto. apply (retain_cursor_below (ILeaf x)).
      + intros Hc. split; [exact Logic.I|]. intros _. exact E2.
    - (* purged leaf *)
      pose proof G as (R & I & A & P). cbn in R. rewrite R, andb_false_r. cbn [andb]. apply post_ret.
      exists (TLeafP x). cbn [fst snd root_ix]. splits; auto using samep_refl, keeps_refl, cur_below_refl.
      + now apply (tracks_refl (ILeaf x)).
      + intros Hc. split; [exact Logic.I|]. cbn [no_open]. intros Hx. apply cur_le_cursor; auto.
    - (* branch *)
      pose proof G as (R & I & A & P).
      destruct (repr_branch_load _ _ _ _ R) as (l & r & Hl & Hld & Hch & _ & _ & Hrc & Hnec & Hlv).
      rewrite Hl. cbn [andb].
      change (map (fun _ : Sm => true) (branch_sums x)) with (trues (branch_sums x)).
      pose proof (proj2 Hq off _ _ _ R I) as Hg.
      remember (q_intersecting q off x (trues (branch_sums x))) as ms eqn:Ems.
      assert (Hcur : cur_le 0 cur = true -> cur_le 0 (retain_cursor (IBranch x) cur) = true).
      { intros Hc. apply cur_le_cursor; [exact Hc|]. left. apply invs_branch in I as I'. destruct I' as (I1 & _). cbn. lia. }
      remember (retain_cursor (IBranch x) cur) as cur1 eqn:Ecur.
      destruct (bi_sealed x && negb (any ms) && cur_le (bi_level x) cur1) eqn:E; cbn [bi_link branch_set_link].
      + apply andb_prop in E as [E E3]. apply andb_prop in E as [E1 E2]. apply negb_true_iff in E2. apply post_ret.
        exists (TBranchP (branch_set_link x None)). cbn [fst snd root_ix].
        split; [easy|]. split; [|split; [|split; [|split; [|split; [|split]]]]].
        * split; [easy|]. split.
          { cbn [inv branch_set_link bi_level bi_count bi_sealed]. apply invs_branch in I as I'. destruct I' as (I1 & _). split; [lia|].
            split; [|exact (sealed_purge _ _ _ _ _ R I)].
            destruct (tree_keys _ _ _ _ R I) as (ks & K1 & K2 & _). exists ks. split; [exact K1|exact K2]. }
          split; [intros _ _; exact Logic.I|]. intros _. exact E1.
        * repeat split. cbn [packed]. now rewrite E1.
        * cbn. rewrite Hl. discriminate.
        * replace (content (TBranchP (branch_set_link x None))) with (repeat (@None (K * V)) (List.length (content (TBranch x cs)))).
          { apply keeps_none. cbn [content]. now apply Hg. }
          rewrite (length_content _ _ _ R). reflexivity.
        * subst. apply cur_below_refl.
        * subst. apply tracks_taken; auto; [apply (retain_purge_cond (IBranch x)); auto|apply (retain_cursor_below (IBranch x))].
        * intros Hc. split; [exact Logic.I|]. auto.
      + rewrite Hl. clear E Ems Hg ms.
        eapply post_rd; [apply rf_load_branch_from_link|exact W|apply (Hld (fun s => avail_branches s (TBranch x cs))); auto| |].
        { intros s Hlog. split; [now apply rel_reads|]. apply avail_avail_branches. apply A; [now apply rel_av|exact Hlog]. }
        intros w1 R1. cbn [br_children].
        apply rext_wext in R1 as W1. pose proof (wext_ok _ _ _ W1 W) as Wok1.
        pose proof (gd_children _ _ _ _ _ _ _ G) as Gcs. apply (gd_Forall_mono _ _ _ _ _ _ _ W1) in Gcs.
        set (go := fix go (cs : list Index) (offset : nat) (cur : option Z) : M (list Index * bool * option Z) :=
                      match cs with
                      | [] => ret ([], false, cur)
                      | c :: cs' => _
                      end).
        assert (Fgo : forall cs off cur, frame (wext key) (go cs off cur)).
        { induction cs0 as [|c cs0 IHc]; intros; cbn [go]; [apply wf_ret|].
          apply wf_bind; [apply wf_retain0|]. intros []. apply wf_bind; [apply IHc|]. intros [[]]. apply wf_ret. }
        assert (Hgo : forall cs off cur w, wok key w -> Forall (gd w) cs ->
                  Forall (fun c => ilevel (root_ix c) < d) cs ->
                  post (go (map root_ix cs) off cur) w Sf (fun p w' =>
                    exists cs', fst (fst p) = map root_ix cs' /\ Forall (gd w') cs' /\ Forall2 samep cs cs'
                      /\ (snd (fst p) = false -> cs' = cs)
                      /\ keeps off (flat_map content cs) (flat_map content cs')
                      /\ cur_below (snd p) cur
                      /\ tracks_list (snd p) cur cs cs'
                      /\ (cur_le 0 cur = true -> dropped_list off cs' /\ (forallb no_open cs' = true -> cur_le 0 (snd p) = true)))).
        { clear -IH Fgo TL XL BL. intros cs. induction cs as [|c cs IHc]; intros off cur w W G Hl; cbn [map go].
          - apply post_ret. exists []. cbn [fst snd]. splits; auto using cur_below_refl; [constructor| |].
            + intros c Hc. cbn. auto.
            + intros Hc. split; [exact Logic.I|auto].
          - inversion G; inversion Hl; subst.
            eapply post_bind with (sec := sec); [apply wf_retain0|apply IH; auto|].
            intros [i cur1] w1 W1 (t1 & E1 & G1 & S1 & L1 & K1 & C1 & T1 & D1). cbn [fst snd] in *. subst i.
            pose proof (wext_ok _ _ _ W1 W) as Wok1. pose proof (gd_Forall_mono _ _ _ _ _ _ _ W1 H2) as G2.
            set (changed := negb (link_eqb (ilink (root_ix t1)) (ilink (root_ix c)))).
            replace (if changed then root_ix t1 else root_ix c) with (root_ix t1).
            2:{ subst changed. destruct (link_eqb _ _) eqn:E; [|easy]. apply link_eqb_eq in E. now rewrite (L1 E). }
            eapply post_bind with (sec := sec); [apply Fgo|apply IHc; auto|].
            intros [[is ch2] cur2] w2 W2 (cs' & F1 & F2 & F3 & F4 & F5 & F6 & F7 & F8). cbn [fst snd] in *.
            apply post_ret. cbn [fst snd]. exists (t1 :: cs'). cbn [map flat_map]. splits.
            + now rewrite F1.
            + constructor; [eapply gd_mono; eauto|easy].
            + now constructor.
            + intros E. apply orb_false_elim in E as [E3 E4]. rewrite (F4 E4). f_equal. apply L1.
              apply link_eqb_eq. unfold changed in E3. now apply negb_false_iff in E3.
            + destruct H1 as (R & _). apply keeps_app; [exact K1|]. now rewrite (length_content _ _ _ R).
            + eapply cur_below_trans; [exact F6|]. eapply cur_below_trans; [exact C1|]. apply retain_cursor_below.
            + intros c0 Hc0. rewrite !groots_list_cons, !pk_list_cons. cbn [snd].
              destruct (T1 c0 Hc0) as (T2 & T3 & T4). rewrite T2. destruct (F7 _ T4) as (T5 & T6 & T7).
              split; [easy|]. split; [|easy]. intros [P1 P2]. auto.
            + intros Hc. destruct (D1 Hc) as [D2 D3]. cbn [dropped_list forallb].
              replace (icount (root_ix t1)) with (icount (root_ix c)) by (symmetry; apply S1).
              split.
              * split; [exact D2|]. intros Ho. apply F8. auto.
              * intros Ho. apply andb_prop in Ho as [Ho1 Ho2]. apply F8; auto. }
        eapply post_bind with (sec := sec); [apply Fgo| |].
        { apply Hgo; auto. eapply Forall_impl; [|exact Hlv]. cbn beta. intros c Hc. cbn in Hd. lia. }
        intros [[is ch] cur2] w2 W2 (cs' & F1 & F2 & F3 & F4 & F5 & F6 & F7 & F8). cbn [fst snd] in *. subst is.
        pose proof (wext_trans _ _ _ _ W1 W2) as W02.
        destruct ch.
        * eapply post_bind with (sec := sec); [apply wf_persist_branch| |].
          { eapply (post_rebuild cfg sec Av Ps Sf x cs cs'); eauto using samep_same.
            eapply repr_weaken; [|exact R]. eapply wext_off; eauto. }
          intros [l' n] w3 W3 (H1 & H2). cbn [fst] in *. apply post_ret.
          exists (TBranch (branch_set_link x (Some l')) cs'). cbn [fst snd root_ix].
          split; [easy|]. split; [easy|]. split; [|split; [|split; [|split; [|split]]]].
          -- repeat split. now apply same_packed.
          -- cbn. congruence.
          -- exact F5.
          -- now subst.
          -- eapply tracks_branch; eauto; congruence.
          -- intros Hc. rewrite dropped_branch. cbn [no_open]. apply F8. auto.
        * rewrite (F4 eq_refl) in *. apply post_ret.
          exists (TBranch x cs). cbn [fst snd root_ix]. split; [easy|].
          split; [eapply gd_mono; eauto|]. splits; auto using samep_refl, keeps_refl; [now subst| |].
          -- eapply tracks_branch; eauto; congruence.
          -- intros Hc. rewrite dropped_branch. cbn [no_open]. apply F8. auto.
    - (* purged branch *)
      pose proof G as (R & I & A & P). cbn in R. rewrite R. cbn [andb]. rewrite R. apply post_ret.
      exists (TBranchP x). cbn [fst snd root_ix]. splits; auto using samep_refl, keeps_refl, cur_below_refl.
      + now apply (tracks_refl (IBranch x)).
      + intros Hc. split; [exact Logic.I|]. intros _. apply cur_le_cursor; [exact Hc|]. left. cbn. destruct I as [I _]. lia.
  Qed.
End RetainProofs.

Section PurgeOk.
  Context {T : Types} {TL : TypesLaws T} {X : Ext} {XL : ExtLaws X}
          {B : Backend T} {BL : BackendLaws T B}.

  Lemma query_purge_ok (cfg : Setting) sec q m : query_ok q m -> purge_ok cfg sec q m.
  Proof.
    intros Q. split.
    - intros off x vs E. rewrite (query_leaf _ _ _ _ Q) in E. now apply key_mask_none.
    - intros off lim x cs R I E. pose proof (query_branch _ _ _ _ _ _ _ off Q R I) as G.
      destruct (repr_branch_load _ _ _ _ R) as (l & r & _ & _ & _ & _ & _ & Hrc & _).
      eapply gates_none; eauto.
  Qed.

  Lemma nomatch_false off c : nomatch (fun _ _ => false) off c.
  Proof. revert off; induction c as [|[[k v]|] c IH]; intros; cbn; auto. Qed.

  (** Any query at all. *)
  Lemma any_purge_ok (cfg : Setting) sec q : purge_ok cfg sec q (fun _ _ => false).
  Proof. split; intros; apply nomatch_false. Qed.
End PurgeOk.

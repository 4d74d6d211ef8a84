(** Properties of the sizes recorded in index records: C73. *)
From Coq Require Import List NArith ZArith Lia Bool String Arith.
From Verif Require Import Base BaseProofs Cbor CborProofs Types Seq SeqProofs Query World Read Write Api Iter History Spec Ghost Frame ReadProofs RetainProofs Packable WriteProofs ApiProofs SysProofs HistProofs Instance Example PropsWrite PropsRead PropsMaintain PropsLocal PropsReuse.
Import ListNotations.

(** ** Specification *)

Section Spec.
  Context {T : Types} {X : Ext} {B : Backend T}.
  Variable sec : Secrets.

  (** [n] is the number of encrypted bytes in the block [blk]. *)
  Definition payload_size (blk : bytes) (n : N) : Prop :=
    exists off ls d rest, checked_prefix blk = Some (CArr [CUint off; ls; CBytes d], rest) /\ n = Nlen d.

  (** In the tree below [i], of which nothing is purged, the blocks of branches
      have [kb] bytes, and the blocks of leaves have [vb] encrypted bytes. *)
  Inductive weighs : Index -> N -> N -> Prop :=
  | weighs_leaf x blk vb : li_link x = Some (digest blk) -> payload_size blk vb -> weighs (ILeaf x) 0 vb
  | weighs_branch x blk cs rg kb vb :
      bi_link x = Some (digest blk) -> branch_block (index_key sec) blk cs rg -> weigh cs kb vb ->
      weighs (IBranch x) (kb + Nlen blk) vb
  with weigh : list Index -> N -> N -> Prop :=
  | weigh_nil : weigh [] 0 0
  | weigh_cons c cs k1 v1 k2 v2 : weighs c k1 v1 -> weigh cs k2 v2 -> weigh (c :: cs) (k1 + k2) (v1 + v2).

  (** Histories in which nothing is forgotten on purpose. *)
  Inductive keeping (s0 : sys) : sys -> Prop :=
  | keeping_start : keeping s0 s0
  | keeping_step s o r s' :
      keeping s0 s -> op_ok o s -> (forall q, o <> ORetain q) -> o <> ORepair -> exec o s = (r, s') -> keeping s0 s'.
End Spec.

Scheme weighs_mut := Induction for weighs Sort Prop with weigh_mut := Induction for weigh Sort Prop.

Section Bytes.
  Context {T : Types} {TL : TypesLaws T} {X : Ext} {XL : ExtLaws X}
          {B : Backend T} {BL : BackendLaws T B}.
  Variable cfg : Config.
  Variable sec : Secrets.
  Notation key := (index_key sec).
  Notation source := (list (K * V)).
  Notation sum l := (fold_right N.add 0%N l).

  (** Nothing was ever purged. *)
  Variable St : Prop.

  Inductive sized : Index -> Prop :=
  | sz_leaf x blk : li_link x = Some (digest blk) -> payload_size blk (li_vbytes x) -> sized (ILeaf x)
  | sz_leaf_p x : ~ St -> li_link x = None -> sized (ILeaf x)
  | sz_branch x cs blk rg : bi_link x = Some (digest blk) -> branch_block key blk cs rg ->
      bi_vbytes x = sum (map ivbytes cs) -> (St -> bi_kbytes x = sum (map ikbytes cs) + Nlen blk)%N ->
      Forall sized cs -> sized (IBranch x)
  | sz_branch_p x : ~ St -> bi_link x = None -> sized (IBranch x).

  Definition osized (o : option Index) : Prop := match o with Some i => sized i | None => True end.

  (** ** Loading *)
  Lemma loaded l w b w' : wok key w -> load_branch_from_link sec l w = (Ok b, w') -> decodes key l b.
  Proof.
    intros W E. pose proof (rf_load_branch_from_link sec _ _ _ _ E) as (Hw & _).
    apply load_branch_from_link_ok in E as (d & H1 & H2 & H3). exists d. splits; auto. exact (proj1 (proj1 Hw W) _ _ H1).
  Qed.
  Lemma loaded_cached l w b w' : wok key w -> load_branch_cached sec l w = (Ok b, w') -> decodes key l b \/ foreign key l.
  Proof.
    intros W E. unfold load_branch_cached, mbind at 1 in E.
    destruct (cache_get l w) as [o w1] eqn:Ec. pose proof (rf_cache_get sec _ _ _ _ Ec) as F. unfold cache_get in Ec.
    destruct (cget (w_cache w) l) as [[b'|] c] eqn:G; injection Ec as <- <-.
    - injection E as <- <-. apply cget_sound in G. exact (proj2 W _ _ G).
    - unfold mbind at 1 in E. destruct (load_branch_from_link sec l (set_cache w c)) as [[b1|e|p|] w2] eqn:El; try discriminate.
      cbn in E. injection E as <- <-. left. eapply loaded; [|exact El]. now apply F.
  Qed.

  Lemma sized_children x l b : sized (IBranch x) -> bi_link x = Some l -> decodes key l b \/ foreign key l ->
    Forall sized (br_children b) /\ bi_vbytes x = sum (map ivbytes (br_children b)).
  Proof.
    intros S El [(blk & -> & Hd & _)|U]; inversion S as [| |x' cs blk' rg Hl Hb Hv Hk Hf|]; subst; try congruence.
    all: rewrite El in Hl; injection Hl as Hl.
    - apply digest_inj in Hl as <-. rewrite (deserialize_spec _ _ _ _ Hb) in Hd.
      destruct (fits _); [|discriminate]. injection Hd as <- _. auto.
    - destruct (branch_block_opens _ _ _ _ Hb) as (z & D1 & D2). now rewrite (U _ _ _ Hl D1) in D2.
  Qed.

  (** ** Blocks *)
  Lemma put_size leaf k z raw w e l w1 w2 :
    encrypt_block leaf k z raw w = (Ok e, w1) -> put_block e w1 = (Ok l, w2) ->
    l = digest (ev_block e) /\ payload_size (ev_block e) (Nlen (zs_data z)).
  Proof.
    intros E1 E2. unfold encrypt_block in E1. destruct (reserve _ _) as [[o o']| | |]; try discriminate.
    unfold cbor_bytes in E1. destruct (cbor_ok _) eqn:Ok1; [|discriminate]. injection E1 as <- <-. unfold put_block in E2.
    destruct (sput _ _) as [[l2|] s2] eqn:Es; [|discriminate]. injection E2 as <- <-. apply sput_link in Es as [-> _]. split; [easy|].
    apply (checked_prefix_enc _ []) in Ok1. rewrite app_nil_r in Ok1. eexists o, _, _, _. split; [exact Ok1|].
    unfold Nlen. now rewrite apply_keystream_length.
  Qed.

  Lemma size_extend_leaf c keys from w : ok (extend_leaf cfg sec c keys from) w (fun p _ => sized (ILeaf (fst p))).
  Proof.
    unfold extend_leaf. apply ok_assert. intros _. apply ok_step. intros [[[z full] keys'] from'] w1 _.
    apply ok_step. intros e w2 E2. apply ok_step. intros l w3 E3. destruct (put_size _ _ _ _ _ _ _ _ _ E2 E3) as [-> Hs].
    apply ok_ret. cbn [fst]. eapply sz_leaf; [reflexivity|exact Hs].
  Qed.
  Lemma size_leaf_from_iter from w : ok (leaf_from_iter cfg sec from) w (fun p _ => sized (ILeaf (fst p))).
  Proof. unfold leaf_from_iter. apply ok_assert. intros _. apply size_extend_leaf. Qed.

  Lemma size_persist cs w : ok (persist_branch cfg sec cs) w (fun p _ =>
    exists blk rg, fst p = digest blk /\ branch_block key blk cs rg /\ snd p = Nlen blk).
  Proof.
    intros [l n] w' E. pose proof (post_persist_branch cfg sec cs w False) as P. unfold post in P. cbn [s_now only] in P. rewrite E in P. cbn [fst] in P.
    destruct P as (blk & rg & Hl & Hb & _). cbn in Hl. subst l. exists blk, rg. splits; auto. cbn [snd].
    unfold persist_branch in E. revert E.
    assert (H : ok (persist_branch cfg sec cs) w (fun p _ => exists b, fst p = digest b /\ snd p = Nlen b)).
    { unfold persist_branch. apply ok_step. intros z w1 _. apply ok_step. intros e w2 E2. apply ok_step. intros l w3 E3.
      destruct (put_size _ _ _ _ _ _ _ _ _ E2 E3) as [-> _]. apply ok_ret. cbn. eauto. }
    intros E. destruct (H _ _ E) as (b & H1 & H2). cbn in H1, H2. apply digest_inj in H1 as <-. exact H2.
  Qed.

  Lemma size_new_branch cs mode w : Forall sized cs -> ok (new_branch cfg sec cs mode) w (fun x _ => sized (IBranch x)).
  Proof.
    intros H. unfold new_branch. do 2 (apply ok_assert; intros _). eapply ok_bind; [apply size_persist|].
    intros [l n] w1 _ (blk & rg & Hl & Hb & Hn). cbn in Hl, Hn. subst l n. apply ok_ret. eapply sz_branch; cbn; eauto.
  Qed.

  Definition sizer (f : source -> M (Index * source)) : Prop := forall from w, ok (f from) w (fun p _ => sized (fst p)).

  Lemma size_fill_children f (Hf : sizer f) n : forall cs from w, Forall sized cs ->
    ok (fill_children f n cs from) w (fun p _ => Forall sized (fst p)).
  Proof.
    induction n as [|n IH]; intros cs from w H; cbn [fill_children]; [now apply ok_ret|].
    destruct from as [|p from]; [now apply ok_ret|]. eapply ok_bind; [apply Hf|]. intros [c from1] w1 _ Hc. cbn [fst] in Hc.
    apply IH. apply Forall_app. auto.
  Qed.
  Lemma size_extend_branch_with f (Hf : sizer f) cs level from mode w : Forall sized cs ->
    ok (extend_branch_with cfg sec f cs level from mode) w (fun p _ => sized (IBranch (fst p))).
  Proof.
    intros H. unfold extend_branch_with. do 3 (apply ok_assert; intros _).
    eapply ok_bind; [now apply size_fill_children|]. intros [cs1 from1] w1 _ H1. cbn [fst] in H1.
    eapply ok_bind; [now apply size_new_branch|]. intros x w2 _ Hx. apply ok_assert. intros _. now apply ok_ret.
  Qed.
  Lemma size_fill_node l : sizer (fill_node cfg sec l).
  Proof.
    induction l as [|l IH]; intros from w; cbn [fill_node]; apply ok_assert; intros _.
    - eapply ok_bind; [apply size_leaf_from_iter|]. intros [x f] w1 _ H. now apply ok_ret.
    - eapply ok_bind; [apply size_extend_branch_with; [exact IH|constructor]|]. intros [x f] w1 _ H. now apply ok_ret.
  Qed.
  Lemma size_extend_branch cs level from mode w : Forall sized cs ->
    ok (extend_branch cfg sec cs level from mode) w (fun p _ => sized (IBranch (fst p))).
  Proof. apply size_extend_branch_with, size_fill_node. Qed.

  Lemma size_climb fuel : forall i bnd from w, sized i -> ok (climb cfg sec fuel i bnd from) w (fun p _ => sized (fst p)).
  Proof.
    induction fuel as [|fuel IH]; intros i bnd from w H; cbn [climb];
      (match goal with |- ok (if ?b then _ else _) _ _ => destruct b end; [|now apply ok_ret]).
    - apply ok_none. discriminate.
    - eapply ok_bind; [apply size_extend_branch; auto|]. intros [x from1] w1 _ Hx. now apply IH.
  Qed.

  (** ** Extending *)
  Lemma size_extend0 rec i from w :
    (forall c lvl from w, wok key w -> sized c -> ok (rec c lvl from) w (fun p _ => sized (fst p))) ->
    wok key w -> sized i -> ok (extend0 cfg sec rec i from) w (fun p _ => sized (fst p)).
  Proof.
    intros Hrec W S. unfold extend0. destruct (isealed i || Write.is_nil from); [now apply ok_ret|].
    destruct (node_info_of i) as [x l|x l|x|x] eqn:En; try now apply ok_ret.
    - assert (i = IBranch x /\ bi_link x = Some l) as [-> Hl].
      { destruct i as [y|y]; cbn in En; [destruct (li_link y); discriminate|]. destruct (bi_link y) eqn:E; [|discriminate].
        injection En as -> ->. auto. }
      apply ok_step. intros b w1 E1. pose proof (rf_load_branch_cached sec _ _ _ _ E1) as R1.
      apply rext_wext in R1 as W1. pose proof (wext_ok _ _ _ W1 W) as Wok1.
      destruct (sized_children _ _ _ S Hl (loaded_cached _ _ _ _ W E1)) as [Hc _].
      eapply ok_bind with (Q := fun p _ => Forall sized (fst p)).
      { destruct (rev (br_children b)) as [|last rest] eqn:Er; [now apply ok_ret|].
        assert (Ech : br_children b = rev rest ++ [last]) by (rewrite <- (rev_involutive (br_children b)), Er; reflexivity).
        rewrite Ech in Hc. apply Forall_app in Hc as [Hc1 Hc2]. apply Forall_inv in Hc2.
        eapply ok_bind; [now apply Hrec|]. intros [last' from1] w2 _ H2. apply ok_ret. cbn [fst] in *. apply Forall_app. auto. }
      intros [cs1 from1] w2 _ H2. cbn [fst] in H2.
      eapply ok_bind; [now apply size_extend_branch|]. intros [x' from2] w3 _ H3. now apply ok_ret.
    - apply ok_step. intros z w1 _. eapply ok_bind; [apply size_extend_leaf|]. intros [x' from1] w2 _ H. now apply ok_ret.
  Qed.

  Lemma size_extend_above d : forall node bnd from w, wok key w -> osized node ->
    ok (extend_above cfg sec d node bnd from) w (fun p _ => sized (fst p)).
  Proof.
    induction d as [|d IH]; intros node bnd from w W H; cbn [extend_above]; [apply ok_none; discriminate|].
    destruct (Write.is_nil from); [apply ok_none; discriminate|]. apply ok_assert. intros _.
    eapply ok_bind with (Q := fun p _ => sized (fst p)).
    - destruct node as [i|].
      + apply size_extend0; auto; intros; now apply IH.
      + eapply ok_bind; [apply size_leaf_from_iter|]. intros [x f] w1 _ Hx. now apply ok_ret.
    - intros [i1 from1] w1 _ H1. eapply ok_bind; [now apply size_climb|]. intros [i2 from2] w2 _ H2.
      apply ok_assert. intros _. now apply ok_ret.
  Qed.

  Lemma size_extend_unpacked0 index from w : wok key w -> osized index ->
    ok (extend_unpacked0 cfg sec index from) w (fun r _ => osized r).
  Proof.
    intros W H. unfold extend_unpacked0. destruct (Write.is_nil from); [now apply ok_ret|].
    eapply ok_bind; [now apply size_extend_above|]. intros [b from1] w1 _ H1. cbn [fst] in H1.
    destruct index as [a|]; [|now apply ok_ret].
    eapply ok_bind; [apply size_extend_branch; auto|]. intros [x from2] w2 _ H2. now apply ok_ret.
  Qed.

  (** ** Packing *)
  Lemma size_simplify_roots fuel : forall rs from w, Forall sized rs ->
    ok (simplify_roots cfg sec fuel rs from) w (fun rs' _ => Forall sized rs').
  Proof.
    assert (Hsub : forall rs n, Forall sized rs -> Forall sized (firstn n rs) /\ Forall sized (skipn n rs)).
    { intros rs n H. rewrite <- (firstn_skipn n rs) in H. now apply Forall_app in H. }
    induction fuel as [|fuel IH]; intros rs from w H; cbn [simplify_roots];
      do 2 (apply ok_assert; intros _); apply ok_step; intros r w1 _;
      (destruct r as [n|n|n]; [| |first [apply ok_none; discriminate|now apply IH]]).
    all: eapply ok_bind; [apply size_new_branch; now apply Hsub, Hsub|]; intros x w2 _ H2; apply ok_ret;
      apply Forall_app; (split; [now apply Hsub|]); constructor; [exact H2|now apply Hsub].
  Qed.
  Lemma size_simplify_all fuel : forall rs w, Forall sized rs ->
    ok (simplify_all cfg sec fuel rs) w (fun rs' _ => Forall sized rs').
  Proof.
    induction fuel as [|fuel IH]; intros rs w H; cbn [simplify_all];
      (destruct (Nat.ltb 1 (List.length rs)); [|now apply ok_ret]).
    - apply ok_none; discriminate.
    - eapply ok_bind; [now apply size_simplify_roots|]. intros rs1 w1 _ H1. now apply IH.
  Qed.
  Lemma size_tree_from_roots rs w : Forall sized rs -> ok (tree_from_roots cfg sec rs) w (fun o _ => osized o).
  Proof.
    intros H. unfold tree_from_roots. do 2 (apply ok_assert; intros _).
    eapply ok_bind; [now apply size_simplify_all|]. intros rs1 w1 _ H1. apply ok_ret.
    destruct rs1 as [|a rs1]; [exact Logic.I|]. destruct (@exists_last _ (a :: rs1)) as (pre & z & E); [discriminate|].
    rewrite E in *. rewrite map_app. cbn [map]. rewrite last_last. apply Forall_app in H1 as [_ H1]. now inversion H1.
  Qed.

  Lemma size_roots0 d : forall i cur w, wok key w -> sized i -> ok (roots0 sec d i cur) w (fun p _ => Forall sized (fst p)).
  Proof.
    induction d as [|d IH]; intros i cur w W S; cbn [roots0];
      (match goal with |- ok (if ?b then _ else _) _ _ => destruct b end; [apply ok_ret; constructor; [exact S|constructor]|]);
      (destruct i as [x|x]; [apply ok_ret; constructor|]); (destruct (bi_link x) as [l|] eqn:El; [|apply ok_ret; constructor]).
    - apply ok_none. discriminate.
    - apply ok_step. intros b w1 E1. destruct (sized_children _ _ _ S El (or_introl (loaded _ _ _ _ W E1))) as [Hc _].
      pose proof (rf_load_branch_from_link sec _ _ _ _ E1) as R1. pose proof (proj1 (proj1 R1) W) as W1.
      clear - W1 Hc IH TL XL BL. revert W1. generalize (cur_min cur (Z.of_nat (ilevel (IBranch x)) - 1)). revert w1.
      induction Hc as [|c cs Hc _ IHc]; intros w1 cur1 W1; [apply ok_ret; constructor|].
      eapply ok_bind; [now apply IH|]. intros [r1 c1] w2 E2 H1. cbn [fst] in H1.
      pose proof (rf_roots0 sec _ _ _ _ _ _ E2) as R2. pose proof (proj1 (proj1 R2) W1) as W2.
      eapply ok_bind; [now apply IHc|]. intros [r2 c2] w3 _ H2. apply ok_ret. cbn [fst] in *. apply Forall_app. auto.
  Qed.

  (** ** Purging *)
  Notation same_size i j := (sized j /\ ivbytes j = ivbytes i).

  Lemma sized_rewrite x cs cs' blk rg : ~ St -> bi_vbytes x = sum (map ivbytes cs) -> map ivbytes cs' = map ivbytes cs ->
    Forall sized cs' -> branch_block key blk cs' rg -> sized (IBranch (branch_set_link x (Some (digest blk)))).
  Proof. intros Hn Hv He Hf Hb. eapply sz_branch; [reflexivity|exact Hb|cbn; congruence|easy|exact Hf]. Qed.

  Lemma size_retain0 q d : ~ St -> forall off i cur w, wok key w -> sized i ->
    ok (retain0 cfg sec q d off i cur) w (fun p _ => same_size i (fst p)).
  Proof.
    intros Hn. induction d as [|d IH]; intros off i cur w W S;
      (destruct i as [x|x];
       [cbn [retain0]; apply ok_ret; cbn [fst];
        match goal with |- context [if ?b then (if ?c then _ else _) else _] => destruct b; [destruct c|] end; split; auto; now apply sz_leaf_p|]);
      cbn [retain0]; set (z := if _ && negb _ && _ then _ else x);
      (assert (Hz : sized (IBranch z) /\ bi_vbytes z = bi_vbytes x)
         by (unfold z; match goal with |- context [if ?b then _ else _] => destruct b end; split; auto; now apply sz_branch_p));
      clearbody z; destruct Hz as [Sz Hv]; (destruct (bi_link z) as [l|] eqn:El; [|apply ok_ret; auto]).
    - apply ok_none. discriminate.
    - apply ok_step. intros b w1 E1. destruct (sized_children _ _ _ Sz El (or_introl (loaded _ _ _ _ W E1))) as [Hc Hsum].
      pose proof (rf_load_branch_from_link sec _ _ _ _ E1) as R1. pose proof (proj1 (proj1 R1) W) as W1.
      eapply ok_bind with (Q := fun r _ => Forall sized (fst (fst r)) /\ map ivbytes (fst (fst r)) = map ivbytes (br_children b)).
      { clear - W1 Hc IH TL XL BL. revert W1. generalize (retain_cursor (IBranch x) cur) off. revert w1.
        induction Hc as [|c cs Hc _ IHc]; intros w1 cur1 off1 W1; [apply ok_ret; split; [constructor|easy]|].
        eapply ok_bind; [now apply IH|]. intros [c1 cur2] w2 E2 [H1 H2]. cbn [fst] in H1, H2.
        pose proof (wf_retain0 sec cfg _ _ _ _ _ _ _ _ E2) as W2. pose proof (wext_ok _ _ _ W2 W1) as Wok2.
        eapply ok_bind; [now apply IHc|]. intros [[cs1 ch2] cur3] w3 _ [H3 H4]. cbn [fst] in *. apply ok_ret. cbn [fst map].
        destruct (negb (link_eqb (ilink c1) (ilink c))); split; try constructor; auto; congruence. }
      intros [[cs ch] cur1] w2 _ [H2 H3]. cbn [fst] in *. destruct ch; [|apply ok_ret; auto].
      eapply ok_bind; [apply size_persist|]. intros [l1 n1] w3 _ (blk & rg & Hl & Hb & _). cbn in Hl. subst l1. apply ok_ret. cbn [fst]. split; [|exact Hv].
      eapply sized_rewrite; eauto.
  Qed.

  Lemma size_repair0 d : ~ St -> forall i cur w, wok key w -> sized i ->
    ok (repair0 cfg sec d i cur) w (fun p _ => same_size i (fst (fst p))).
  Proof.
    intros Hn. induction d as [|d IH]; intros i cur w W S; (destruct i as [x|x];
      [cbn [repair0]; apply ok_step; intros r w1 E1; destruct r; apply ok_ret; cbn [fst]; split; auto; now apply sz_leaf_p|]);
      cbn [repair0]; apply ok_step; intros r w1 E1; pose proof (frame_try _ _ (rf_load_branch sec x) _ _ _ E1) as R1;
      (destruct r as [[b|]|e]; [|apply ok_ret; cbn [fst]; split; auto; now apply sz_branch_p..]).
    - apply ok_none. discriminate.
    - assert (exists l, bi_link x = Some l /\ decodes key l b) as (l & El & Hd).
      { unfold try, load_branch in E1. destruct (bi_link x) as [l|] eqn:El; [|discriminate]. unfold mbind in E1.
        destruct (load_branch_from_link sec l w) as [[b1|e|p|] w1'] eqn:Eb; try discriminate. injection E1 as -> ->.
        exists l. split; [easy|]. eapply loaded; eauto. }
      destruct (sized_children _ _ _ S El (or_introl Hd)) as [Hc Hsum]. pose proof (proj1 (proj1 R1) W) as W1.
      eapply ok_bind with (Q := fun r _ => Forall sized (fst (fst (fst r))) /\ map ivbytes (fst (fst (fst r))) = map ivbytes (br_children b)).
      { clear - W1 Hc IH TL XL BL. revert W1. generalize (repair_cursor (IBranch x) cur). revert w1.
        induction Hc as [|c cs Hc _ IHc]; intros w1 cur1 W1; [apply ok_ret; split; [constructor|easy]|].
        eapply ok_bind; [now apply IH|]. intros [[c1 rep1] cur2] w2 E2 [H1 H2]. cbn [fst] in H1, H2.
        pose proof (wf_repair0 sec cfg _ _ _ _ _ _ E2) as W2. pose proof (wext_ok _ _ _ W2 W1) as Wok2.
        eapply ok_bind; [now apply IHc|]. intros [[[cs1 ch2] rep2] cur3] w3 _ [H3 H4]. cbn [fst] in *. apply ok_ret. cbn [fst map].
        destruct (negb (link_eqb (ilink c1) (ilink c))); split; try constructor; auto; congruence. }
      intros [[[cs ch] rep] cur1] w2 _ [H2 H3]. cbn [fst] in *. destruct ch; [|apply ok_ret; auto].
      eapply ok_bind; [apply size_persist|]. intros [l1 n1] w3 _ (blk & rg & Hl & Hb & _). cbn in Hl. subst l1. apply ok_ret. cbn [fst]. split; [|easy].
      eapply sized_rewrite; eauto.
  Qed.

  (** ** Reloading *)
  Lemma size_create_index se l w x : wok key w -> sized (IBranch x) -> bi_link x = Some l ->
    ok (create_index_from_link sec se l) w (fun p _ => sized (fst p)).
  Proof.
    intros W S El. unfold create_index_from_link. apply ok_step. intros d w1 E1.
    pose proof (rf_get_block sec _ _ _ _ E1) as (Hw & _). apply Hw in W. clear Hw.
    unfold get_block in E1. destruct (sget _ _) as [[d'|] s'] eqn:Es; [|discriminate]. injection E1 as <- <-.
    apply sget_sound in Es. pose proof (proj1 W _ _ Es) as Hl.
    apply ok_step. intros [cs r] w2 E2. injection E2 as Ed _. destruct cs as [|c cs]; [apply ok_none; discriminate|]. apply ok_ret. cbn [fst].
    inversion S as [| |x' cs' blk rg Hl' Hb Hv Hk Hf|]; subst; [|congruence]. rewrite El in Hl'. injection Hl' as Hd.
    apply digest_inj in Hd as <-. rewrite (deserialize_spec _ _ _ _ Hb) in Ed. destruct (fits _); [|discriminate]. injection Ed as <- _.
    eapply sz_branch; cbn; eauto.
  Qed.

  (** ** Builders *)
  Lemma size_extend fo b items r fo' b' : fok sec fo -> b_sec b = sec -> b_cfg b = cfg -> osized (b_root b) ->
    extend fo b items = (r, fo', b') -> osized (b_root b').
  Proof.
    intros F Es Ec S E. unfold extend in E. destruct items as [|p items]; [injection E as <- <- <-; exact S|].
    rewrite Es, Ec in E. destruct (run fo b _) as [[r0 fo1] b1] eqn:Erun. apply run_inv in Erun as (Em & Er & _).
    destruct r0 as [[i rest]|e|p0|]; injection E as <- <- <-; [|rewrite Er; exact S..].
    refine (size_extend_above _ _ _ _ _ _ S _ _ Em). now apply fok_wok.
  Qed.
  Lemma size_extend_unpacked fo b items r fo' b' : fok sec fo -> b_sec b = sec -> b_cfg b = cfg -> osized (b_root b) ->
    extend_unpacked fo b items = (r, fo', b') -> osized (b_root b').
  Proof.
    intros F Es Ec S E. unfold extend_unpacked in E.
    rewrite Es, Ec in E. destruct (run fo b _) as [[r0 fo1] b1] eqn:Erun. apply run_inv in Erun as (Em & Er & _).
    destruct r0 as [i|e|p0|]; injection E as <- <- <-; [|rewrite Er; exact S..].
    refine (size_extend_unpacked0 _ _ _ _ S _ _ Em). now apply fok_wok.
  Qed.
  Lemma size_retain fo b q r fo' b' : ~ St -> fok sec fo -> b_sec b = sec -> b_cfg b = cfg -> osized (b_root b) ->
    retain fo b q = (r, fo', b') -> osized (b_root b').
  Proof.
    intros Hn F Es Ec S E. unfold retain in E. destruct (b_root b) as [i|] eqn:Eb; [|injection E as <- <- <-; now rewrite Eb].
    rewrite Es, Ec in E. destruct (run fo b _) as [[r0 fo1] b1] eqn:Erun. apply run_inv in Erun as (Em & Er & _).
    destruct r0 as [[i' c]|e|p0|]; injection E as <- <- <-; [|rewrite Er, Eb; exact S..].
    refine (proj1 (size_retain0 _ _ Hn _ _ _ _ _ S _ _ Em)). now apply fok_wok.
  Qed.
  Lemma size_repair fo b r fo' b' : ~ St -> fok sec fo -> b_sec b = sec -> b_cfg b = cfg -> osized (b_root b) ->
    repair fo b = (r, fo', b') -> osized (b_root b').
  Proof.
    intros Hn F Es Ec S E. unfold repair in E. destruct (b_root b) as [i|] eqn:Eb; [|injection E as <- <- <-; now rewrite Eb].
    rewrite Es, Ec in E. destruct (run fo b _) as [[r0 fo1] b1] eqn:Erun. apply run_inv in Erun as (Em & Er & _).
    destruct r0 as [[[i' rep] c]|e|p0|]; injection E as <- <- <-; [|rewrite Er, Eb; exact S..].
    refine (proj1 (size_repair0 _ Hn _ _ _ _ S _ _ Em)). now apply fok_wok.
  Qed.
  Lemma size_pack fo b r fo' b' : fok sec fo -> b_sec b = sec -> b_cfg b = cfg -> osized (b_root b) ->
    pack fo b = (r, fo', b') -> osized (b_root b').
  Proof.
    intros F Es Ec S E. unfold pack in E. destruct (roots fo b) as [rr fo1] eqn:Ers.
    assert (H1 : fsame sec fo fo1 /\ (forall rs, rr = Ok rs -> Forall sized rs)).
    { unfold roots in Ers. destruct (b_root b) as [i|]; [|injection Ers as <- <-; split; [apply fsame_refl|intros rs [= <-]; constructor]].
      rewrite Es in Ers. destruct (read fo _) as [rr0 fo0] eqn:Er. injection Ers as <- <-. split; [eapply read_fsame; [|exact Er]; apply rf_roots0|].
      intros rs Hrs. destruct rr0 as [[rs0 c0]| | |]; try discriminate. injection Hrs as <-.
      apply read_inv in Er as Em. exact (size_roots0 _ _ _ _ F S _ _ Em). }
    destruct H1 as [S1 Hrs]. destruct rr as [rs|e|p|]; [|injection E as <- <- <-; exact S..]. specialize (Hrs _ eq_refl).
    rewrite Es, Ec in E. destruct (run fo1 b _) as [[r1 fo2] b1] eqn:Erun. apply run_inv in Erun as (Em & Er1 & Es1 & Ec1).
    destruct r1 as [i|e|p|]; [|injection E as <- <- <-; rewrite Er1; exact S..].
    pose proof (wf_tree_from_roots sec cfg rs _ _ _ Em) as W2.
    assert (F2 : fok sec fo2) by (eapply fext_fok; [exact W2|]; eapply fext_fok; [exact (fsame_fext sec _ _ (b_off b) S1)|exact F]).
    pose proof (size_tree_from_roots _ _ Hrs _ _ Em) as Si. cbn in Si.
    destruct (collect_from fo2 _ _) as [rr3 fo3] eqn:Ecol.
    assert (S3 : fsame sec fo2 fo3).
    { unfold collect_from in Ecol. destruct (snapshot b) as [[[i0 s0] o0]|] eqn:En; [|injection Ecol as <- <-; apply fsame_refl].
      assert (s0 = sec) as -> by (unfold snapshot in En; rewrite Es in En; destruct (b_root b); [now injection En|discriminate]).
      eapply read_fsame; [|exact Ecol]. apply rf_collect0. }
    destruct rr3 as [l|e|p|]; [|injection E as <- <- <-; exact Si..].
    destruct (omapM _ l) as [rest|]; [|injection E as <- <- <-; exact Si].
    refine (size_extend fo3 (set_root b1 i) rest r fo' b' _ _ _ Si E); [|cbn; congruence..].
    exact (fext_fok sec _ _ _ _ (fsame_fext sec _ _ 0 S3) F2).
  Qed.

  (** ** Histories *)
  Definition tsized (t : Tree) : Prop := match t with Some (i, _, _) => sized i | None => True end.
  Definition sys_sized (s : sys) : Prop :=
    osized (b_root (sy_b s)) /\ Forall osized (se_saved (sy_se s)) /\ Forall tsized (sy_snaps s).

  Lemma sized_link s n l : Forall tsized (sy_snaps s) -> (forall t, nth_error (sy_snaps s) n = Some t -> branch_root t) ->
    obind (nth_error (sy_snaps s) n) tree_link = Some l -> exists x, sized (IBranch x) /\ bi_link x = Some l.
  Proof.
    intros H Hb E. destruct (nth_error (sy_snaps s) n) as [t|] eqn:En; [|discriminate]. specialize (Hb t eq_refl).
    apply nth_error_In in En. rewrite Forall_forall in H. apply H in En. cbn in E. destruct t as [[[i s1] o1]|]; [|discriminate].
    destruct i as [x|x]; [destruct Hb|]. cbn in *. eauto.
  Qed.

  Lemma size_step o s r s' : config_ok cfg -> sys_good cfg sec (k_lose anything = false) (k_repair anything = false) s ->
    op_ok o s -> (St -> (forall q, o <> ORetain q) /\ o <> ORepair) -> (St \/ ~ St) -> sys_sized s -> exec o s = (r, s') -> sys_sized s'.
  Proof.
    intros Hcfg G Hok Hno Hd (S1 & S2 & S3) E. pose proof G as ((n & I) & _). destruct I as (F & Es & Ec & _).
    destruct o; cbn [exec] in E.
    - destruct (extend _ _ _) as [[r0 fo] b] eqn:E0. injection E as <- <-. (unfold sys_sized; splits; auto). eapply size_extend; eauto.
    - destruct (push _ _ _ _) as [[r0 fo] b] eqn:E0. injection E as <- <-. (unfold sys_sized; splits; auto). exact (size_extend _ _ _ _ _ _ F Es Ec S1 E0).
    - destruct (extend_unpacked _ _ _) as [[r0 fo] b] eqn:E0. injection E as <- <-. (unfold sys_sized; splits; auto). eapply size_extend_unpacked; eauto.
    - destruct (pack _ _) as [[r0 fo] b] eqn:E0. injection E as <- <-. (unfold sys_sized; splits; auto). eapply size_pack; eauto.
    - destruct (retain _ _ _) as [[r0 fo] b] eqn:E0. injection E as <- <-. (unfold sys_sized; splits; auto).
      destruct Hd as [Hd|Hd]; [destruct (proj1 (Hno Hd) q eq_refl)|]. eapply size_retain; eauto.
    - destruct (repair _ _) as [[r0 fo] b] eqn:E0. injection E as <- <-. (unfold sys_sized; splits; auto).
      destruct Hd as [Hd|Hd]; [destruct (proj2 (Hno Hd) eq_refl)|]. eapply size_repair; eauto.
    - injection E as <- <-. (unfold sys_sized; splits; cbn; auto).
    - injection E as <- <-. (unfold sys_sized; splits; cbn; auto). destruct (se_saved (sy_se s)); [constructor|now inversion S2].
    - injection E as <- <-. unfold sys_sized, tx_drop, sy_b. cbn. destruct (se_saved (sy_se s)) as [|o os] eqn:Eo; [rewrite Eo; auto|].
      inversion S2; subst. cbn. auto.
    - injection E as <- <-. (unfold sys_sized; splits; cbn; auto). apply Forall_app. split; [exact S3|]. constructor; [|constructor].
      unfold snapshot. destruct (b_root (sy_b s)) as [i|]; [exact S1|exact Logic.I].
    - destruct (obind _ _) as [l|] eqn:El; [|injection E as <- <-; (unfold sys_sized; splits; auto)].
      destruct (sized_link _ _ _ S3 Hok El) as (x & Sx & Hx). rewrite Es, Ec in E. unfold load_stream_builder in E.
      destruct (read _ _) as [r0 fo0] eqn:Er. apply read_inv in Er as Em.
      destruct r0 as [[i rg]|e|p|]; cbn in E; injection E as <- <-; [|(unfold sys_sized; splits; auto)..].
      (unfold sys_sized; splits; cbn; auto). exact (size_create_index _ _ _ _ F Sx Hx _ _ Em).
    - destruct (obind _ _) as [l|] eqn:El; [|injection E as <- <-; (unfold sys_sized; splits; auto)].
      destruct (sized_link _ _ _ S3 Hok El) as (x & Sx & Hx). rewrite Es in E. unfold load_tree in E.
      destruct (read _ _) as [r0 fo0] eqn:Er. apply read_inv in Er as Em.
      destruct r0 as [[i rg]|e|p|]; cbn in E; injection E as <- <-; [|(unfold sys_sized; splits; auto)..].
      (unfold sys_sized; splits; cbn; auto). apply Forall_app. split; [exact S3|]. constructor; [|constructor]. exact (size_create_index _ _ _ _ F Sx Hx _ _ Em).
    - destruct (nth_error _ _) as [t|]; [|injection E as <- <-; (unfold sys_sized; splits; auto)].
      destruct (do_read _ _ _) as [r1 fo1]. injection E as <- <-. (unfold sys_sized; splits; auto).
    - destruct (check_invariants _ _) as [r1 fo1]. injection E as <- <-. (unfold sys_sized; splits; auto).
    - injection E as <- <-. (unfold sys_sized; splits; auto).
    - injection E as <- <-. (unfold sys_sized; splits; auto).
    - injection E as <- <-. (unfold sys_sized; splits; auto).
  Qed.
End Bytes.

Section Weights.
  Context {T : Types} {TL : TypesLaws T} {X : Ext} {XL : ExtLaws X}
          {B : Backend T} {BL : BackendLaws T B}.
  Variable sec : Secrets.
  Notation key := (index_key sec).

  Section Ind.
    Variable St : Prop.
    Variable P : Index -> Prop.
    Hypothesis H1 : forall x blk, li_link x = Some (digest blk) -> payload_size blk (li_vbytes x) -> P (ILeaf x).
    Hypothesis H2 : forall x, ~ St -> P (ILeaf x).
    Hypothesis H3 : forall x cs blk rg, bi_link x = Some (digest blk) -> branch_block key blk cs rg ->
      bi_vbytes x = fold_right N.add 0%N (map ivbytes cs) -> (St -> bi_kbytes x = fold_right N.add 0 (map ikbytes cs) + Nlen blk)%N ->
      Forall P cs -> P (IBranch x).
    Hypothesis H4 : forall x, ~ St -> P (IBranch x).
    Fixpoint sized_ind' i (s : sized sec St i) : P i :=
      match s with
      | sz_leaf _ _ x blk h1 h2 => H1 x blk h1 h2
      | sz_leaf_p _ _ x h1 _ => H2 x h1
      | sz_branch _ _ x cs blk rg h1 h2 h3 h4 h5 =>
          H3 x cs blk rg h1 h2 h3 h4
            ((fix go cs (f : Forall (sized sec St) cs) : Forall P cs :=
                match f with
                | Forall_nil _ => Forall_nil P
                | Forall_cons c h t => Forall_cons c (sized_ind' c h) (go _ t)
                end) cs h5)
      | sz_branch_p _ _ x h1 _ => H4 x h1
      end.
  End Ind.

  Lemma sized_weighs (St : Prop) i : St -> sized sec St i -> weighs sec i (ikbytes i) (ivbytes i).
  Proof.
    intros HS. revert i. apply (sized_ind' St (fun i => weighs sec i (ikbytes i) (ivbytes i))).
    - intros x blk Hl Hp. cbn. econstructor; eauto.
    - easy.
    - intros x cs blk rg Hl Hb Hv Hk Hf. cbn. rewrite (Hk HS), Hv. econstructor; eauto.
      clear - Hf. induction Hf as [|c cs Hc _ IH]; [constructor|]. cbn. now constructor.
    - easy.
  Qed.

  Lemma payload_size_det blk n n' : payload_size blk n -> payload_size blk n' -> n = n'.
  Proof. intros (o & ls & d & r & E & ->) (o' & ls' & d' & r' & E' & ->). rewrite E in E'. now injection E' as _ _ -> _. Qed.
  Lemma branch_block_cs blk cs rg cs' rg' : branch_block key blk cs rg -> branch_block key blk cs' rg' -> cs = cs'.
  Proof.
    intros (A1 & A2 & _) (B1 & B2 & _). destruct (block_payload_det _ _ _ _ _ _ A1 B1) as [E _]. now apply idxs_raw_inj in E.
  Qed.

  Lemma weighs_det i kb vb : weighs sec i kb vb -> forall kb' vb', weighs sec i kb' vb' -> kb = kb' /\ vb = vb'.
  Proof.
    intros H. induction H using weighs_mut with
      (P0 := fun cs kb vb _ => forall kb' vb', weigh sec cs kb' vb' -> kb = kb' /\ vb = vb'); intros kb' vb' H'.
    - inversion H' as [x' blk' vb2 El Hp|]; subst. rewrite e in El. injection El as El. apply digest_inj in El as <-.
      split; [easy|]. eapply payload_size_det; eauto.
    - inversion H' as [|x' blk' cs' rg' kb2 vb2 El Hb Hw]; subst. rewrite e in El. injection El as El. apply digest_inj in El as <-.
      pose proof (branch_block_cs _ _ _ _ _ b Hb) as <-. destruct (IHweighs _ _ Hw) as [-> ->]. easy.
    - inversion H'; subst. easy.
    - inversion H' as [|c' cs' k1' v1' k2' v2' A1 A2]; subst. destruct (IHweighs _ _ A1) as [-> ->], (IHweighs0 _ _ A2) as [-> ->]. easy.
  Qed.

  Lemma sized_values (St : Prop) i kb vb : sized sec St i -> weighs sec i kb vb -> vb = ivbytes i.
  Proof.
    intros S H. revert S. induction H using weighs_mut with
      (P0 := fun cs kb vb _ => Forall (sized sec St) cs -> vb = fold_right N.add 0%N (map ivbytes cs)); intros S.
    - inversion S as [x' blk' El Hp|x' _ El| |]; subst; [|congruence]. rewrite e in El. injection El as El. apply digest_inj in El as <-.
      eapply payload_size_det; eauto.
    - inversion S as [| |x' cs' blk' rg' El Hb Hv Hk Hf|x' _ El]; subst; [|congruence]. rewrite e in El. injection El as El. apply digest_inj in El as <-.
      pose proof (branch_block_cs _ _ _ _ _ b Hb) as <-. cbn. rewrite Hv. auto.
    - easy.
    - inversion S; subst. cbn. f_equal; auto.
  Qed.
End Weights.

(** ** C73 *)

Section Props.
  Context {T : Types} {TL : TypesLaws T} {X : Ext} {XL : ExtLaws X}
          {B : Backend T} {BL : BackendLaws T B}.
  Variable cfg : Config.
  Variable sec : Secrets.
  Hypothesis Hcfg : config_ok cfg.

  Lemma keeping_hist s0 s : keeping s0 s -> hist anything s0 s.
  Proof.
    induction 1 as [|s o r s' H IH Hok _ Hr E]; [constructor|]. econstructor; eauto. destruct o; cbn; auto.
  Qed.

  Lemma start_sized (St : Prop) s : start cfg sec s -> sys_sized sec St s.
  Proof. intros (E & _). rewrite E. unfold sys_sized. cbn. auto. Qed.

  Lemma keeping_sized s0 s : start cfg sec s0 -> keeping s0 s -> sys_sized sec True s.
  Proof.
    intros H0 H. induction H as [|s o r s' H IH Hok Hq Hr E]; [now apply start_sized|].
    refine (size_step cfg sec True o s r s' Hcfg _ Hok _ _ IH E); [|auto|now left].
    apply (reach_ok cfg sec Hcfg anything). exists s0. split; [exact H0|]. now apply keeping_hist.
  Qed.
  Lemma hist_sized s0 s : start cfg sec s0 -> hist anything s0 s -> sys_sized sec False s.
  Proof.
    intros H0 H. induction H as [|s o r s' H IH Hok Hin E]; [now apply start_sized|].
    refine (size_step cfg sec False o s r s' Hcfg _ Hok _ _ IH E); [|easy|right; tauto].
    apply (reach_ok cfg sec Hcfg anything). exists s0. auto.
  Qed.
  Lemma sized_known (St : Prop) s i sec' o : sys_sized sec St s -> known s (Some (i, sec', o)) -> sized sec St i.
  Proof.
    intros (S1 & _ & S3) [E|E].
    - unfold snapshot in E. destruct (b_root (sy_b s)) as [r|]; [|discriminate]. injection E as -> _ _. exact S1.
    - rewrite Forall_forall in S3. exact (S3 _ E).
  Qed.

  (** Whatever happened before: [value_bytes] of a tree of which nothing is
      purged is the number of encrypted bytes in its leaves. *)
  Theorem C73_values s i sec' o kb vb :
    reach anything cfg sec s -> known s (Some (i, sec', o)) -> weighs sec i kb vb -> ivbytes i = vb.
  Proof.
    intros (s0 & H0 & H) K Hw. symmetry. eapply sized_values; [|exact Hw]. eapply sized_known; [|exact K]. eapply hist_sized; eauto.
  Qed.

  (** If nothing was ever purged or repaired, [key_bytes] is the number of bytes in the blocks of its branches. *)
  Theorem C73_bytes_partial s0 s i sec' o :
    start cfg sec s0 -> keeping s0 s -> known s (Some (i, sec', o)) ->
    forall kb vb, weighs sec i kb vb <-> ikbytes i = kb /\ ivbytes i = vb.
  Proof.
    intros H0 H K kb vb. assert (S : sized sec True i) by (eapply sized_known; [|exact K]; eapply keeping_sized; eauto).
    apply sized_weighs in S; [|easy]. split.
    - intros Hw. exact (weighs_det _ _ _ _ S _ _ Hw).
    - now intros [<- <-].
  Qed.

  (** [retain] and [repair] do not change [value_bytes], though what they purge is not readable any more. *)
  Theorem C73_retain s q fo' b' i i' :
    reach anything cfg sec s -> b_root (sy_b s) = Some i ->
    retain (sy_fo s) (sy_b s) q = (Ok tt, fo', b') -> b_root b' = Some i' -> ivbytes i' = ivbytes i.
  Proof.
    intros (s0 & H0 & H) Er E Er'. pose proof (hist_sized _ _ H0 H) as (S1 & _ & _). rewrite Er in S1. cbn in S1.
    destruct (reach_b cfg sec Hcfg anything s) as (t & F & Es & Ec & _); [exists s0; auto|].
    unfold retain in E. rewrite Er, Es, Ec in E. destruct (run _ _ _) as [[r0 fo1] b1] eqn:Erun. apply run_inv in Erun as (Em & _).
    destruct r0 as [[j c]|e|p0|]; try discriminate. injection E as <- <-. injection Er' as ->.
    refine (proj2 (size_retain0 _ _ False _ _ (fun f => f) _ _ _ _ _ S1 _ _ Em)). now apply fok_wok.
  Qed.
  Theorem C73_repair s rep fo' b' i i' :
    reach anything cfg sec s -> b_root (sy_b s) = Some i ->
    repair (sy_fo s) (sy_b s) = (Ok rep, fo', b') -> b_root b' = Some i' -> ivbytes i' = ivbytes i.
  Proof.
    intros (s0 & H0 & H) Er E Er'. pose proof (hist_sized _ _ H0 H) as (S1 & _ & _). rewrite Er in S1. cbn in S1.
    destruct (reach_b cfg sec Hcfg anything s) as (t & F & Es & Ec & _); [exists s0; auto|].
    unfold repair in E. rewrite Er, Es, Ec in E. destruct (run _ _ _) as [[r0 fo1] b1] eqn:Erun. apply run_inv in Erun as (Em & _).
    destruct r0 as [[[j rp] c]|e|p0|]; try discriminate. injection E as _ <- <-. injection Er' as ->.
    refine (proj2 (size_repair0 _ _ False _ (fun f => f) _ _ _ _ S1 _ _ Em)). now apply fok_wok.
  Qed.
End Props.

(** * Cases *)

Definition keeps (o : @op ITypes IBackend) : bool := match o with ORetain _ | ORepair => false | _ => true end.
Lemma run_ops_keeping k s0 ops : forall s s', forallb keeps ops = true -> keeping s0 s -> run_ops k ops s = Some s' -> keeping s0 s'.
Proof.
  induction ops as [|o ops IH]; cbn [run_ops forallb]; intros s s' Hk H E; [congruence|]. apply andb_prop in Hk as [Hk1 Hk2].
  destruct (op_inb k o && op_okb o s) eqn:Eb; [|discriminate]. apply andb_prop in Eb as [E1 E2].
  destruct (exec o s) as [r s1] eqn:Ex. eapply IH; [exact Hk2| |exact E].
  eapply keeping_step; [exact H|exact (op_okb_ok _ _ E2)| | |exact Ex]; [intros q ->|intros ->]; discriminate.
Qed.
Lemma state_keeping k n ops : runs k n ops = true -> forallb keeps ops = true -> keeping (efresh n) (state k n ops).
Proof.
  unfold runs, state. destruct (run_ops k ops (efresh n)) as [s|] eqn:E; [|discriminate]. intros _ Hk.
  eapply run_ops_keeping; [exact Hk|constructor|exact E].
Qed.

(** A tree of three levels. *)
Example C73_case : exists i,
  keeping (efresh 1000000) st2 /\ known st2 (Some (i, esec, b_off (sy_b st2)))
  /\ Nat.ltb 1 (ilevel i) = true /\ N.ltb 0 (ikbytes i) = true /\ N.ltb 0 (ivbytes i) = true
  /\ weighs esec i (ikbytes i) (ivbytes i).
Proof.
  assert (K : keeping (efresh 1000000) st2) by (apply state_keeping; vm_compute; reflexivity).
  assert (H : exists i, b_root (sy_b st2) = Some i /\ Nat.ltb 1 (ilevel i) && N.ltb 0 (ikbytes i) && N.ltb 0 (ivbytes i) = true).
  { assert (E : match b_root (sy_b st2) with Some i => Nat.ltb 1 (ilevel i) && N.ltb 0 (ikbytes i) && N.ltb 0 (ivbytes i) | None => false end = true)
      by (vm_compute; reflexivity).
    destruct (b_root (sy_b st2)) as [i|]; [|discriminate]. eauto. }
  destruct H as (i & Ei & H). apply andb_prop in H as [H H3]. apply andb_prop in H as [H1 H2].
  assert (Kn : known st2 (Some (i, esec, b_off (sy_b st2)))).
  { left. unfold snapshot. rewrite Ei. assert (b_sec (sy_b st2) = esec) as -> by (vm_compute; reflexivity). reflexivity. }
  exists i. splits; auto. 
  apply (proj2 (C73_bytes_partial ecfg esec ecfg_ok (efresh 1000000) st2 i esec (b_off (sy_b st2)) (efresh_start _) K Kn (ikbytes i) (ivbytes i))).
  split; reflexivity.
Qed.

(** The cases of [C73_retain] and [C73_repair]: the calls succeed and write new blocks. *)
Definition writes {A} (s : @sys ITypes IBackend) (r : res A * Forest * Builder) : bool :=
  match r with
  | (Ok _, fo', b') => Nat.ltb (List.length (fo_log (sy_fo s))) (List.length (fo_log fo')) && match b_root b' with Some _ => true | None => false end
  | _ => false
  end.
Example C73_maintain_case :
  writes st2 (retain (sy_fo st2) (sy_b st2) rq) = true /\ writes st5 (repair (sy_fo st5) (sy_b st5)) = true.
Proof. split; vm_compute; reflexivity. Qed.

(** After [retain] the [key_bytes] of a branch it rewrote are those of its old
    block: loading the tree from its own link gives another number. *)
Definition st73 : sys := state no_loss 1000000 (ops2 ++ [ORetain rq; OSnapshot]).
Lemma st73_ok : reach no_loss ecfg esec st73. Proof. reached. Qed.

Definition case73 (s : @sys ITypes IBackend) : bool :=
  match b_root (sy_b s) with
  | Some (IBranch x) =>
      match bi_link x with
      | Some l =>
          match load_tree (sy_fo s) esec l with
          | (Ok (Some (IBranch x', _, _)), _) =>
              link_eqb (bi_link x') (Some l) && N.eqb (bi_vbytes x') (bi_vbytes x) && negb (N.eqb (bi_kbytes x') (bi_kbytes x))
          | _ => false
          end
      | None => false
      end
  | _ => false
  end.
Lemma case73_ok s : case73 s = true -> b_sec (sy_b s) = esec -> exists x x' l o o' fo',
  known s (Some (IBranch x, esec, o)) /\ bi_link x = Some l
  /\ load_tree (sy_fo s) esec l = (Ok (Some (IBranch x', esec, o')), fo')
  /\ bi_link x' = Some l /\ bi_vbytes x' = bi_vbytes x /\ bi_kbytes x' <> bi_kbytes x.
Proof.
  unfold case73. intros E Hs.
  destruct (b_root (sy_b s)) as [[x|x]|] eqn:Eb; try discriminate. destruct (bi_link x) as [l|] eqn:El; [|discriminate].
  destruct (load_tree (sy_fo s) esec l) as [r fo'] eqn:Er.
  destruct r as [[[[[x'|x'] sec'] o']|]| | |]; try discriminate.
  apply andb_prop in E as [E E3]. apply andb_prop in E as [E1 E2].
  apply negb_true_iff, N.eqb_neq in E3. apply N.eqb_eq in E2. apply RetainProofs.link_eqb_eq in E1.
  assert (sec' = esec) as ->.
  { unfold load_tree in Er. destruct (read _ _) as [rr f] in Er. destruct rr; try discriminate. now injection Er as _ <- _ _. }
  exists x, x', l, (b_off (sy_b s)), o', fo'. splits; auto.
  left. unfold snapshot. now rewrite Eb, Hs.
Qed.

Theorem C73_refuted : exists (s : @sys ITypes IBackend) x x' l o o' fo',
  reach no_loss ecfg esec s
  /\ known s (Some (IBranch x, esec, o)) /\ bi_link x = Some l
  /\ load_tree (sy_fo s) esec l = (Ok (Some (IBranch x', esec, o')), fo')
  /\ bi_link x' = Some l /\ bi_vbytes x' = bi_vbytes x /\ bi_kbytes x' <> bi_kbytes x.
Proof.
  destruct (case73_ok st73) as (x & x' & l & o & o' & fo' & H); [vm_compute; reflexivity|vm_compute; reflexivity|].
  exists st73, x, x', l, o, o', fo'. split; [exact st73_ok|exact H].
Qed.

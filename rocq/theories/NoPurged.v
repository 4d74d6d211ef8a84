(** Reading and extending never report purged data: only [pack] can. *)
From Coq Require Import List NArith ZArith Lia Bool String.
From Verif Require Import Base Cbor CborProofs Types Seq Query World Read Write Api.
Import ListNotations.

Definition rnp {A} (r : res A) : Prop := r <> Err EPurged.

Lemma rnp_bind {A B} (m : res A) (f : A -> res B) : rnp m -> (forall a, rnp (f a)) -> rnp (rbind m f).
Proof. unfold rnp. destruct m; cbn; auto; congruence. Qed.
Lemma rnp_ok_or {A} (o : option A) e : e <> EPurged -> rnp (ok_or o e).
Proof. unfold rnp. destruct o; cbn; congruence. Qed.
Lemma rnp_rmap {A B} (f : A -> B) m : rnp m -> rnp (rmap f m).
Proof. unfold rnp. destruct m; cbn; congruence. Qed.
Lemma rnp_rmapM {A B} (f : A -> res B) l : (forall a, rnp (f a)) -> rnp (rmapM f l).
Proof.
  intros Hf. induction l as [|a l IH]; [easy|]. cbn. apply rnp_bind; auto. intros. apply rnp_bind; auto. easy.
Qed.

Section NoPurged.
  Context {T : Types} {X : Ext} {B : Backend T}.

  Ltac rn :=
    repeat first
      [ assumption
      | discriminate
      | match goal with
        | |- rnp (rbind _ _) => apply rnp_bind; [|intros]
        | |- rnp (rmap _ _) => apply rnp_rmap
        | |- rnp (rmapM _ _) => apply rnp_rmapM; intros
        | |- rnp (ok_or _ _) => apply rnp_ok_or; discriminate
        | |- rnp (let '(_, _) := ?p in _) => destruct p
        | |- rnp (match ?p with _ => _ end) => destruct p eqn:?
        end
      | solve [eauto] ].

  Lemma rnp_decompress d : rnp (decompress d).
  Proof. unfold decompress. rn. Qed.
  Hint Resolve rnp_decompress : core.

  Lemma rnp_v_dec_res c : rnp (v_dec_res c).
  Proof. unfold v_dec_res. rn. Qed.
  Hint Resolve rnp_v_dec_res : core.

  Lemma rnp_items_loop f : forall b, rnp (items_loop f b).
  Proof. induction f; intros b; cbn [items_loop]; rn. Qed.
  Lemma rnp_items_ipld_loop f : forall b, rnp (items_ipld_loop f b).
  Proof. induction f; intros b; cbn [items_ipld_loop]; rn. Qed.
  Lemma rnp_get_loop i : forall b, rnp (get_loop i b).
  Proof. induction i; intros [|]; cbn [get_loop]; rn. Qed.
  Hint Resolve rnp_items_loop rnp_items_ipld_loop rnp_get_loop : core.

  Lemma rnp_decrypt d k n : rnp (decrypt d k n).
  Proof. unfold decrypt. rn. Qed.
  Hint Resolve rnp_decrypt : core.
  Lemma rnp_deserialize k d : rnp (deserialize_compressed k d).
  Proof. unfold deserialize_compressed, zs_items_ipld. rn. Qed.
  Hint Resolve rnp_deserialize : core.

  Lemma rnp_cbor_bytes c : rnp (cbor_bytes c).
  Proof. unfold cbor_bytes. rn. Qed.
  Hint Resolve rnp_cbor_bytes : core.
  Lemma rnp_rmapM_in {A C} (f : A -> res C) l : Forall (fun a => rnp (f a)) l -> rnp (rmapM f l).
  Proof. induction 1 as [|a l Ha _ IH]; [easy|]. cbn. rn. Qed.

  Lemma rnp_item_links c : forall tags, rnp (item_links tags c).
  Proof.
    induction c using cbor_ind'; intros tags; cbn [item_links];
      try (apply rnp_rmap, rnp_rmapM_in); rn.
    - eapply Forall_impl; [|eassumption]. cbn. auto.
    - eapply Forall_impl; [|eassumption]. cbn. intros [k v] [H1 H2]. rn.
  Qed.
  Hint Resolve rnp_item_links : core.
  Lemma rnp_scrape d ls : rnp (scrape_links d ls).
  Proof. unfold scrape_links. rn. Qed.
  Hint Resolve rnp_scrape : core.
  Lemma rnp_encode_items {A} (e : A -> res bytes) (H : forall a, rnp (e a)) items : forall c ls, rnp (encode_items e items c ls).
  Proof. induction items; intros; cbn [encode_items]; rn. Qed.
  Lemma rnp_from_iter_ipld items z : rnp (from_iter_ipld items z).
  Proof. unfold from_iter_ipld. rn. apply rnp_encode_items. intros. unfold index_bytes. rn. Qed.
  Hint Resolve rnp_from_iter_ipld : core.
  Lemma rnp_fill_loop z cs us mk from : forall ks s c ls, rnp (fill_loop z cs us mk from ks s c ls).
  Proof. induction from as [|[k v] from IH]; intros; cbn [fill_loop]; rn. Qed.
  Hint Resolve rnp_fill_loop : core.
  Lemma rnp_fill c from ks z cs us mk : rnp (fill c from ks z cs us mk).
  Proof. unfold fill. rn. Qed.
  Hint Resolve rnp_fill : core.

  (** ** Computations *)
  Definition np {A} (m : M A) : Prop := forall w, rnp (fst (m w)).

  Lemma np_ret {A} (a : A) : np (ret a). Proof. easy. Qed.
  Lemma np_lift {A} (r : res A) : rnp r -> np (lift r). Proof. easy. Qed.
  Lemma np_fail {A} e : e <> EPurged -> np (@fail _ _ A e). Proof. intros H w [= ->]. auto. Qed.
  Lemma np_mpanic {A} p : np (@mpanic _ _ A p). Proof. easy. Qed.
  Lemma np_nofuel {A} : np (@nofuel _ _ A). Proof. easy. Qed.
  Lemma np_massert b msg : np (massert b msg). Proof. now destruct b. Qed.
  Lemma np_bind {A C} (m : M A) (f : A -> M C) : np m -> (forall a, np (f a)) -> np (mbind m f).
  Proof.
    intros Hm Hf w. unfold mbind. specialize (Hm w). destruct (m w) as [[a|e|p|] w']; [apply Hf|unfold rnp in *; cbn in *; congruence..].
  Qed.
  Lemma np_mmapM {A C} (f : A -> M C) l : (forall a, np (f a)) -> np (mmapM f l).
  Proof.
    intros Hf. induction l as [|a l IH]; [apply np_ret|]. cbn. apply np_bind; [apply Hf|]. intros.
    apply np_bind; [exact IH|]. intros. apply np_ret.
  Qed.
  Lemma np_try {A} (m : M A) : np (try m).
  Proof. intros w. unfold try. destruct (m w) as [[]]; cbn; discriminate. Qed.
  Hint Resolve np_ret np_mpanic np_nofuel np_massert np_try : core.

  Ltac nn :=
    repeat first
      [ assumption
      | match goal with
        | |- np (mbind _ _) => apply np_bind; [|intros]
        | |- np (lift _) => apply np_lift
        | |- np (fail _) => apply np_fail; discriminate
        | |- np (mmapM _ _) => apply np_mmapM; intros
        | |- np (let '(_, _) := ?p in _) => destruct p
        | |- np (match ?p with _ => _ end) => destruct p eqn:?
        end
      | solve [eauto] ].

  Variable cfg : Config.
  Variable sec : Secrets.

  Lemma np_get_block l : np (get_block l).
  Proof. intros w. unfold get_block. now destruct (sget _ _) as [[]]. Qed.
  Hint Resolve np_get_block : core.
  Lemma np_load_leaf_from_link l : np (load_leaf_from_link sec l).
  Proof. unfold load_leaf_from_link. nn. Qed.
  Lemma np_load_branch_from_link l : np (load_branch_from_link sec l).
  Proof. unfold load_branch_from_link, new_branch_data. nn. Qed.
  Hint Resolve np_load_leaf_from_link np_load_branch_from_link : core.
  Lemma np_cache_get l : np (cache_get l).
  Proof. intros w. unfold cache_get. now destruct (cget _ _). Qed.
  Lemma np_cache_put l b : np (cache_put l b).
  Proof. easy. Qed.
  Hint Resolve np_cache_get np_cache_put : core.
  Lemma np_load_branch_cached l : np (load_branch_cached sec l).
  Proof. unfold load_branch_cached. nn. Qed.
  Hint Resolve np_load_branch_cached : core.

  Lemma np_collect0 d : forall i off, np (collect0 sec d i off).
  Proof.
    induction d as [|d IH]; intros i off; cbn [collect0]; nn.
    all: try (unfold zs_items; rn).
    clear Heqb. revert off. induction (br_children a) as [|c cs IHcs]; intros off; nn.
  Qed.

  Lemma np_roots0 d : forall i cur, np (roots0 sec d i cur).
  Proof.
    induction d as [|d IH]; intros i cur; cbn [roots0]; nn.
    match goal with |- np (_ _ ?c) => generalize c end.
    induction (br_children a) as [|c cs IHcs]; intros cr; nn.
  Qed.

  Lemma np_put_block e : np (put_block e).
  Proof. intros w. unfold put_block. now destruct (sput _ _) as [[]]. Qed.
  Lemma np_encrypt_block a b c d : np (encrypt_block a b c d).
  Proof.
    intros w. unfold encrypt_block, reserve. destruct (_ <? _)%N; [|easy]. cbn [fst]. rn.
  Qed.
  Hint Resolve np_put_block np_encrypt_block : core.
  Lemma np_extend_leaf c ks from : np (extend_leaf cfg sec c ks from).
  Proof. unfold extend_leaf. nn. Qed.
  Hint Resolve np_extend_leaf : core.
  Lemma np_leaf_from_iter from : np (leaf_from_iter cfg sec from).
  Proof. unfold leaf_from_iter. nn. Qed.
  Hint Resolve np_leaf_from_iter : core.
  Lemma np_persist_branch items : np (persist_branch cfg sec items).
  Proof. unfold persist_branch. nn. Qed.
  Hint Resolve np_persist_branch : core.
  Lemma np_new_branch cs mode : np (new_branch cfg sec cs mode).
  Proof. unfold new_branch. nn. Qed.
  Hint Resolve np_new_branch : core.
  Lemma np_fill_children f n : (forall from, np (f from)) -> forall cs from, np (fill_children f n cs from).
  Proof. intros Hf. induction n as [|n IH]; intros cs [|p from]; cbn [fill_children]; nn. Qed.
  Lemma np_extend_branch_with f cs level from mode : (forall from, np (f from)) ->
    np (extend_branch_with cfg sec f cs level from mode).
  Proof. intros Hf. unfold extend_branch_with. nn. now apply np_fill_children. Qed.
  Lemma np_fill_node level : forall from, np (fill_node cfg sec level from).
  Proof. induction level as [|l IH]; intros from; cbn [fill_node]; nn. now apply np_extend_branch_with. Qed.
  Lemma np_extend_branch cs level from mode : np (extend_branch cfg sec cs level from mode).
  Proof. apply np_extend_branch_with, np_fill_node. Qed.
  Hint Resolve np_extend_branch : core.
  Lemma np_climb f : forall n b from, np (climb cfg sec f n b from).
  Proof. induction f as [|f IH]; intros n b from; cbn [climb]; nn. Qed.
  Hint Resolve np_climb : core.
  Lemma np_extend_above d : forall n b from, np (extend_above cfg sec d n b from).
  Proof.
    induction d as [|d IH]; intros n b from; cbn [extend_above]; [apply np_nofuel|]. nn. unfold extend0. nn.
  Qed.

  Lemma np_find_valid_branch cs : rnp (find_valid_branch cfg cs).
  Proof. unfold find_valid_branch. rn. Qed.
  Hint Resolve np_find_valid_branch : core.
  Lemma np_simplify_roots f : forall rs from, np (simplify_roots cfg sec f rs from).
  Proof. induction f as [|f IH]; intros rs from; cbn [simplify_roots]; nn. Qed.
  Hint Resolve np_simplify_roots : core.
  Lemma np_simplify_all f : forall rs, np (simplify_all cfg sec f rs).
  Proof. induction f as [|f IH]; intros rs; cbn [simplify_all]; nn. Qed.
  Hint Resolve np_simplify_all : core.
  Lemma np_tree_from_roots rs : np (tree_from_roots cfg sec rs).
  Proof. unfold tree_from_roots. nn. Qed.
End NoPurged.

Section Api.
  Context {T : Types} {X : Ext} {B : Backend T}.

  Lemma rnp_read {A} fo (m : M A) : np m -> rnp (fst (read fo m)).
  Proof. intros H. unfold read. match goal with |- context [m ?w] => specialize (H w); destruct (m w) end. exact H. Qed.
  Lemma rnp_run {A} fo b (m : M A) : np m -> rnp (fst (fst (run fo b m))).
  Proof. intros H. unfold run. match goal with |- context [m ?w] => specialize (H w); destruct (m w) end. exact H. Qed.
  Lemma rnp_failed {A C} (r : res A) : rnp r -> rnp (@failed A C r).
  Proof. unfold rnp. destruct r; cbn; congruence. Qed.

  Lemma rnp_roots fo b : rnp (fst (roots fo b)).
  Proof.
    unfold roots. destruct (b_root b); [|discriminate]. pose proof (rnp_read fo _ (np_roots0 (b_sec b) (depth i) i None)) as H.
    destruct (read _ _). now apply rnp_rmap.
  Qed.
  Lemma rnp_collect_from fo t off : rnp (fst (collect_from fo t off)).
  Proof. unfold collect_from. destruct t as [[[i s] o]|]; [|discriminate]. apply rnp_read, np_collect0. Qed.
  Lemma rnp_extend fo b items : rnp (fst (fst (extend fo b items))).
  Proof.
    unfold extend. destruct items; [discriminate|].
    match goal with |- context [run fo b ?m] => pose proof (rnp_run fo b m (np_extend_above _ _ _ _ _ _)) as H; destruct (run fo b m) as [[[[i rest]|e|x|] fo'] b'] end;
    cbn in *; unfold rnp in *; congruence.
  Qed.
End Api.

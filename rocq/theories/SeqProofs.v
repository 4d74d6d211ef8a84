(** Lemmas about [Seq]: blocks hold what was put into them. *)
From Coq Require Import List Arith NArith Lia Bool String.
From Coq Require Import Strings.Byte.
From Verif Require Import Base BaseProofs Cbor CborProofs Types Seq.
Import ListNotations.

Lemma rmap_ok {A C} (f : A -> C) m c : rmap f m = Ok c -> exists a, m = Ok a /\ c = f a.
Proof. destruct m; cbn; try discriminate. intros [= <-]. eauto. Qed.

Lemma ok_or_ok {A} (o : option A) e a : ok_or o e = Ok a -> o = Some a.
Proof. destruct o; cbn; congruence. Qed.

Tactic Notation "rinv" hyp(H) :=
  apply rbind_ok in H;
  let a := fresh "a" in let E := fresh "E" in destruct H as (a & E & H).
Tactic Notation "rinv" hyp(H) "as" simple_intropattern(a) ident(E) :=
  apply rbind_ok in H; destruct H as (a & E & H).

Section SeqProofs.
  Context {T : Types} {TL : TypesLaws T} {X : Ext} {XL : ExtLaws X} {LL : LinkLaws T X}.

  (** ** Cipher *)

  Lemma apply_keystream_length key nce off d :
    List.length (apply_keystream key nce off d) = List.length d.
  Proof. revert off; induction d as [|b d IH]; intros; cbn; [easy|]. now rewrite IH. Qed.

  Lemma apply_keystream_Nlen key nce off d :
    Nlen (apply_keystream key nce off d) = Nlen d.
  Proof. unfold Nlen. now rewrite apply_keystream_length. Qed.

  Lemma apply_keystream_involutive key nce off d :
    apply_keystream key nce off (apply_keystream key nce off d) = d.
  Proof. revert off; induction d as [|b d IH]; intros; cbn; [easy|]. now rewrite bxor_involutive, IH. Qed.

  (** ** Index codec *)

  Lemma dec_enc_link (l : option L) : dec_link (clink l) = Some l.
  Proof. destruct l; cbn; [now rewrite l_codec|easy]. Qed.

  Lemma dec_enc_bool b : dec_bool (cbool b) = Some b.
  Proof. now destruct b. Qed.

  Lemma dec_enc_index (i : Index) :
    (N.of_nat (ilevel i) < two32)%N -> dec_index (enc_index i) = Some i.
  Proof.
    intros H. destruct i as [[se li ks vb]|[cnt lv se li ss vb kb]];
      cbn -[cbool clink dec_bool dec_link] in *.
    - unfold dec_leaf. cbn -[cbool clink dec_bool dec_link]. rewrite ks_codec, dec_enc_link, dec_enc_bool.
      reflexivity.
    - unfold dec_leaf, dec_branch. cbn -[cbool clink dec_bool dec_link].
      rewrite dec_enc_link, dec_enc_bool, ss_codec. cbn. destruct (N.leb_spec two32 (N.of_nat lv)); [lia|].
      now rewrite !Nat2N.id.
  Qed.

  Lemma index_ok_spec i :
    index_ok i = true -> cbor_ok (enc_index i) = true /\ dec_index (enc_index i) = Some i.
  Proof.
    unfold index_ok. intros H. apply andb_prop in H as [H1 H2]. apply N.ltb_lt in H2.
    split; [easy|]. now apply dec_enc_index.
  Qed.

  (** ** Payloads *)

  Definition vals_raw (vs : list V) : bytes := flat_map enc (map v_enc vs).
  Definition vals_ok (vs : list V) : bool := forallb cbor_ok (map v_enc vs).
  Definition idxs_raw (cs : list Index) : bytes := flat_map enc (map enc_index cs).
  Definition idxs_ok (cs : list Index) : bool := forallb index_ok cs.

  (** Links of all items of a payload, in order of appearance. *)
  Definition payload_links (cs : list cbor) : res (list bytes) :=
    rmap (@List.concat bytes) (rmapM (item_links []) cs).

  Lemma vals_raw_app a b : vals_raw (a ++ b) = vals_raw a ++ vals_raw b.
  Proof. unfold vals_raw. now rewrite map_app, flat_map_app. Qed.
  Lemma vals_ok_app a b : vals_ok (a ++ b) = vals_ok a && vals_ok b.
  Proof. unfold vals_ok. now rewrite map_app, forallb_app. Qed.

  Lemma idxs_ok_cbor cs : idxs_ok cs = true -> forallb cbor_ok (map enc_index cs) = true.
  Proof.
    unfold idxs_ok. induction cs as [|c cs IH]; cbn; [easy|]. intros H.
    apply andb_prop in H as [H1 H2]. apply index_ok_spec in H1 as [H1 _]. now rewrite H1, IH.
  Qed.

  Lemma rmapM_app {A C} (f : A -> res C) l1 l2 :
    rmapM f (l1 ++ l2) =
    rbind (rmapM f l1) (fun a => rbind (rmapM f l2) (fun b => Ok (a ++ b))).
  Proof.
    induction l1 as [|x l1 IH]; cbn.
    - destruct (rmapM f l2); reflexivity.
    - destruct (f x); cbn; try reflexivity. rewrite IH.
      destruct (rmapM f l1); cbn; try reflexivity. destruct (rmapM f l2); reflexivity.
  Qed.

  Lemma scrape_links_enc c ls :
    cbor_ok c = true ->
    scrape_links (enc c) ls = rbind (item_links [] c) (fun l => Ok (add_links ls l)).
  Proof.
    intros H. unfold scrape_links.
    assert (P : parse_seq (enc c) = Some [c]).
    { rewrite <- (app_nil_r (enc c)). apply (parse_seq_enc [c]). cbn. now rewrite H. }
    rewrite P. cbn. destruct (item_links [] c); cbn; try reflexivity.
    now rewrite app_nil_r.
  Qed.

  Lemma scrape_links_seq cs ls :
    forallb cbor_ok cs = true ->
    scrape_links (flat_map enc cs) ls = rbind (payload_links cs) (fun l => Ok (add_links ls l)).
  Proof.
    intros H. unfold scrape_links, payload_links. rewrite (parse_seq_enc cs H). cbn.
    destruct (rmapM (item_links []) cs); reflexivity.
  Qed.

  Lemma add_links_app ls a b : add_links ls (a ++ b) = add_links (add_links ls a) b.
  Proof. unfold add_links. apply fold_left_app. Qed.

  (** Members of the links of an encoded sequence. *)
  Lemma add_links_in ls new c : In c (add_links ls new) <-> In c ls \/ In c new.
  Proof.
    revert ls; induction new as [|x new IH]; intros ls; [cbn; tauto|].
    change (add_links ls (x :: new)) with (add_links (add_link ls x) new).
    rewrite IH. cbn [In]. unfold add_link.
    destruct (existsb (bytes_eqb x) ls) eqn:E.
    - apply existsb_exists in E as (y & Hy & E). apply bytes_eqb_eq in E. subst y.
      split; [tauto|]. intros [?|[->|?]]; auto.
    - rewrite in_app_iff. cbn. tauto.
  Qed.

  Definition cid_valid (c : bytes) : Prop := cid_read c = Some c.

  Lemma item_links_valid : forall c tags ls,
    item_links tags c = Ok ls -> Forall cid_valid ls.
  Proof.
    induction c using cbor_ind'; intros tags ls0 E; cbn in E;
      try (injection E as <-; constructor).
    - destruct tags as [|t [|? ?]]; try (injection E as <-; constructor).
      destruct (t =? 42)%N; [|injection E as <-; constructor].
      destruct b as [|x b]; [discriminate|]. destruct x; try discriminate.
      destruct (cid_read b) as [cid|] eqn:R; [|discriminate]. injection E as <-.
      constructor; [|constructor]. red. eapply cid_read_idem; eauto.
    - apply rmap_ok in E as (ll & E & ->).
      revert ll E. induction H as [|x l Hx Hl IH]; cbn; intros ll E.
      + injection E as <-. constructor.
      + rinv E. rinv E. injection E as <-. cbn. apply Forall_app. eauto.
    - apply rmap_ok in E as (ll & E & ->).
      revert ll E. induction H as [|x l Hx Hl IH]; cbn; intros ll E.
      + injection E as <-. constructor.
      + destruct Hx as [Hx1 Hx2]. rinv E. rinv E. rinv E0. rinv E0. injection E0 as <-.
        injection E as <-. cbn. apply Forall_app. split; [apply Forall_app|]; eauto.
    - eauto.
  Qed.

  Lemma payload_links_valid cs ls : payload_links cs = Ok ls -> Forall cid_valid ls.
  Proof.
    unfold payload_links. intros E. apply rmap_ok in E as (ll & E & ->).
    revert ll E. induction cs as [|c cs IH]; cbn; intros ll E.
    - injection E as <-. constructor.
    - rinv E. rinv E. injection E as <-. cbn. apply Forall_app. split; [|eauto].
      eapply item_links_valid; eauto.
  Qed.

  Lemma add_links_valid ls new :
    Forall cid_valid ls -> Forall cid_valid new -> Forall cid_valid (add_links ls new).
  Proof. rewrite !Forall_forall. intros H1 H2 c H. apply add_links_in in H as [?|?]; auto. Qed.

  Lemma payload_links_app a b :
    payload_links (a ++ b) =
    rbind (payload_links a) (fun x => rbind (payload_links b) (fun y => Ok (x ++ y))).
  Proof.
    unfold payload_links. rewrite rmapM_app. destruct (rmapM (item_links []) a); cbn; try reflexivity.
    destruct (rmapM (item_links []) b); cbn; try reflexivity. now rewrite concat_app.
  Qed.

  Lemma payload_links_cons c cs :
    payload_links (c :: cs) =
    rbind (item_links [] c) (fun x => rbind (payload_links cs) (fun y => Ok (x ++ y))).
  Proof.
    unfold payload_links. cbn. destruct (item_links [] c); cbn; try reflexivity.
    destruct (rmapM (item_links []) cs); reflexivity.
  Qed.

  (** ** Encoding sequences *)

  Lemma encode_items_spec {A} (e : A -> res bytes) (f : A -> cbor) items chunks ls chunks' ls' :
    (forall x b, e x = Ok b -> cbor_ok (f x) = true /\ b = enc (f x)) ->
    encode_items e items chunks ls = Ok (chunks', ls') ->
    forallb cbor_ok (map f items) = true
    /\ List.concat chunks' = List.concat chunks ++ flat_map enc (map f items)
    /\ exists new, payload_links (map f items) = Ok new /\ ls' = add_links ls new.
  Proof.
    intros He. revert chunks ls. induction items as [|x items IH]; intros chunks ls E; cbn in *.
    - injection E as <- <-. rewrite app_nil_r. repeat split; auto. exists []. auto.
    - rinv E as b Eb. rinv E as ls1 El. destruct (He _ _ Eb) as [Hok ->].
      rewrite scrape_links_enc in El by easy. rinv El as new1 En. injection El as <-.
      apply IH in E as (H1 & H2 & new & H3 & ->). rewrite Hok, H1. split; [easy|]. split.
      + rewrite H2, concat_app. cbn. now rewrite app_nil_r, <- app_assoc.
      + exists (new1 ++ new). rewrite payload_links_cons, En. cbn. rewrite H3. cbn.
        now rewrite add_links_app.
  Qed.

  Lemma encode_items_total {A} (e : A -> res bytes) (f : A -> cbor) items chunks ls new :
    (forall x, In x items -> e x = Ok (enc (f x)) /\ cbor_ok (f x) = true) ->
    payload_links (map f items) = Ok new ->
    exists chunks', encode_items e items chunks ls = Ok (chunks', add_links ls new).
  Proof.
    intros He. revert chunks ls new. induction items as [|x items IH]; intros chunks ls new E; cbn in *.
    - injection E as <-. eauto.
    - rewrite payload_links_cons in E. rinv E. rinv E. injection E as <-.
      destruct (He x (or_introl eq_refl)) as [-> Hok]. cbn.
      rewrite scrape_links_enc, E0 by easy. cbn.
      rewrite add_links_app. apply IH; auto.
  Qed.

  Lemma index_bytes_ok i b : index_bytes i = Ok b -> index_ok i = true /\ b = enc (enc_index i).
  Proof. unfold index_bytes. destruct (index_ok i); [|discriminate]. now intros [= <-]. Qed.

  Lemma cbor_bytes_ok c b : cbor_bytes c = Ok b -> cbor_ok c = true /\ b = enc c.
  Proof. unfold cbor_bytes. destruct (cbor_ok c); [|discriminate]. now intros [= <-]. Qed.

  Lemma encode_items_index_ok items chunks ls r :
    encode_items index_bytes items chunks ls = Ok r -> idxs_ok items = true.
  Proof.
    unfold idxs_ok. revert chunks ls. induction items as [|x items IH]; intros chunks ls E; cbn in *; [easy|].
    rinv E. rinv E. apply index_bytes_ok in E0 as [-> _]. cbn. eauto.
  Qed.

  Lemma from_iter_ipld_spec items lvl z :
    from_iter_ipld items lvl = Ok z ->
    idxs_ok items = true /\ z_dec (zs_data z) = Some (idxs_raw items)
    /\ zs_data z <> []
    /\ exists new, payload_links (map enc_index items) = Ok new /\ zs_links z = add_links [] new.
  Proof.
    unfold from_iter_ipld. intros E. rinv E. destruct a as [chunks ls]. injection E as <-. cbn.
    pose proof (encode_items_index_ok _ _ _ _ E0) as Hok.
    apply (encode_items_spec _ enc_index) in E0 as (_ & H2 & H3).
    - rewrite z_roundtrip, H2. cbn. repeat split; auto. apply z_nonempty.
    - intros x b Hb. apply index_bytes_ok in Hb as [Hb ->]. split; [|easy]. now apply index_ok_spec in Hb.
  Qed.

  Lemma from_iter_spec items lvl z :
    from_iter items lvl = Ok z ->
    vals_ok items = true /\ z_dec (zs_data z) = Some (vals_raw items)
    /\ exists new, payload_links (map v_enc items) = Ok new /\ zs_links z = add_links [] new.
  Proof.
    unfold from_iter. intros E. rinv E. destruct a as [chunks ls]. injection E as <-. cbn.
    apply (encode_items_spec _ v_enc) in E0 as (H1 & H2 & H3).
    - rewrite z_roundtrip, H2. cbn. auto.
    - intros x b Hb. now apply cbor_bytes_ok in Hb.
  Qed.

  (** Every link banyan writes itself can be scraped. *)
  Lemma item_links_clink l :
    item_links [] (clink l) = Ok (match l with Some x => [l_cid x] | None => [] end).
  Proof. destruct l as [x|]; cbn; [|easy]. now rewrite l_cid_read. Qed.

  (** ** Reading sequences *)

  Lemma items_loop_enc vs fuel :
    vals_ok vs = true -> List.length (vals_raw vs) <= fuel ->
    items_loop fuel (vals_raw vs) = Ok vs.
  Proof.
    revert fuel. induction vs as [|v vs IH]; intros fuel Hok Hf; [destruct fuel; reflexivity|].
    cbn [vals_raw map flat_map] in *. cbn in Hok. apply andb_prop in Hok as [H1 H2].
    pose proof (enc_nonempty (v_enc v)) as Hne.
    unfold vals_raw in Hf. cbn in Hf. rewrite app_length in Hf.
    unfold vals_raw. cbn [map flat_map].
    destruct fuel as [|fuel]; [lia|]. cbn [items_loop].
    rewrite checked_prefix_enc by easy.
    destruct (enc (v_enc v) ++ flat_map enc (map v_enc vs)) as [|b bs] eqn:E.
    { apply (f_equal (@List.length byte)) in E. rewrite app_length in E. cbn in E. lia. }
    cbn. unfold v_dec_res. rewrite v_codec. cbn.
    change (flat_map enc (map v_enc vs)) with (vals_raw vs). rewrite IH; auto.
    unfold vals_raw. lia.
  Qed.

  Lemma items_ipld_loop_enc cs fuel :
    idxs_ok cs = true -> List.length (idxs_raw cs) <= fuel ->
    items_ipld_loop fuel (idxs_raw cs) = Ok cs.
  Proof.
    revert fuel. induction cs as [|v vs IH]; intros fuel Hok Hf; [destruct fuel; reflexivity|].
    cbn in Hok. apply andb_prop in Hok as [H1 H2]. apply index_ok_spec in H1 as [H1 H1'].
    pose proof (enc_nonempty (enc_index v)) as Hne.
    unfold idxs_raw in Hf. cbn in Hf. rewrite app_length in Hf.
    unfold idxs_raw. cbn [map flat_map].
    destruct fuel as [|fuel]; [lia|]. cbn [items_ipld_loop].
    rewrite checked_prefix_enc by easy.
    destruct (enc (enc_index v) ++ flat_map enc (map enc_index vs)) as [|b bs] eqn:E.
    { apply (f_equal (@List.length byte)) in E. rewrite app_length in E. cbn in E. lia. }
    cbn -[enc_index]. rewrite H1'. cbn.
    change (flat_map enc (map enc_index vs)) with (idxs_raw vs). rewrite IH; auto.
    unfold idxs_raw. lia.
  Qed.

  Lemma get_loop_enc vs i :
    vals_ok vs = true -> get_loop i (vals_raw vs) = Ok (nth_error vs i).
  Proof.
    revert i. induction vs as [|v vs IH]; intros i Hok; [destruct i; reflexivity|].
    cbn in Hok. apply andb_prop in Hok as [H1 H2].
    pose proof (enc_nonempty (v_enc v)) as Hne. unfold vals_raw. cbn [map flat_map].
    destruct (enc (v_enc v) ++ flat_map enc (map v_enc vs)) as [|b bs] eqn:E.
    { apply (f_equal (@List.length byte)) in E. rewrite app_length in E. cbn in E. lia. }
    destruct i; cbn [get_loop]; rewrite <- E, checked_prefix_enc by easy; cbn.
    - unfold v_dec_res. now rewrite v_codec.
    - now apply IH.
  Qed.

  Lemma select_loop_enc vs m :
    vals_ok vs = true -> select_loop m (vals_raw vs) = Ok (mask_select m vs).
  Proof.
    revert m. induction vs as [|v vs IH]; intros m Hok; [destruct m; reflexivity|].
    destruct m as [|b m]; [reflexivity|].
    cbn in Hok. apply andb_prop in Hok as [H1 H2].
    pose proof (enc_nonempty (v_enc v)) as Hne. unfold vals_raw. cbn [map flat_map].
    destruct (enc (v_enc v) ++ flat_map enc (map v_enc vs)) as [|x bs] eqn:E.
    { apply (f_equal (@List.length byte)) in E. rewrite app_length in E. cbn in E. lia. }
    cbn [select_loop]. rewrite <- E, checked_prefix_enc by easy. cbn.
    change (flat_map enc (map v_enc vs)) with (vals_raw vs). rewrite IH by easy.
    destruct b; cbn; [|easy]. unfold v_dec_res. now rewrite v_codec.
  Qed.

  Lemma mask_select_nil {A} (l : list A) : mask_select [] l = [].
  Proof. now destruct l. Qed.

  Lemma shrink_select {A} m (l : list A) : mask_select (shrink_to_fit m) l = mask_select m l.
  Proof.
    revert l. induction m as [|b m IH]; intros l; [easy|].
    assert (H : shrink_to_fit (b :: m) = [] /\ shrink_to_fit m = [] /\ b = false
                \/ shrink_to_fit (b :: m) = b :: shrink_to_fit m).
    { cbn. destruct (shrink_to_fit m); [destruct b|]; auto. }
    destruct H as [(-> & H & ->)| ->].
    - destruct l as [|x l]; [easy|]. cbn. rewrite <- IH, H. now rewrite mask_select_nil.
    - destruct l as [|x l]; [easy|]. cbn. now rewrite IH.
  Qed.

  (** ** Blocks *)

  (** The compressed payload of a block, and the keystream positions it uses. *)
  Definition block_payload (key blk raw : bytes) (r : N * N) : Prop :=
    exists off ls d,
      decode_block blk = Some (off, ls, d)
      /\ (off + Nlen d < two64)%N
      /\ r = (off, off + Nlen d)%N
      /\ z_dec (apply_keystream key nonce off d) = Some raw
      /\ apply_keystream key nonce off d <> [].

  (** The links in the header of a leaf block are those of its values. *)
  Definition leaf_links (blk : bytes) (vs : list V) : Prop :=
    exists off d new, payload_links (map v_enc vs) = Ok new
      /\ decode_block blk = Some (off, add_links [] new, d).

  Definition leaf_block (key blk : bytes) (vs : list V) (r : N * N) : Prop :=
    block_payload key blk (vals_raw vs) r /\ vals_ok vs = true /\ leaf_links blk vs.

  (** The links in the header of a branch block are those of its children. *)
  Definition branch_links (blk : bytes) (cs : list Index) : Prop :=
    exists off d new, payload_links (map enc_index cs) = Ok new
      /\ decode_block blk = Some (off, add_links [] new, d).

  Definition branch_block (key blk : bytes) (cs : list Index) (r : N * N) : Prop :=
    block_payload key blk (idxs_raw cs) r /\ idxs_ok cs = true /\ branch_links blk cs.

  Definition fits (raw : bytes) : bool := negb (max_capacity <? Nlen raw)%N.

  Lemma decompress_spec d raw : z_dec d = Some raw ->
    decompress d = if fits raw then Ok raw else Err EZstd.
  Proof. unfold decompress, fits. intros ->. now destruct (max_capacity <? Nlen raw)%N. Qed.

  Lemma decode_block_enc off ls d rest :
    cbor_ok (block_cbor off ls d) = true -> Forall cid_valid ls ->
    decode_block (enc (block_cbor off ls d) ++ rest) = Some (off, ls, d).
  Proof.
    intros Hok Hv. unfold decode_block. rewrite checked_prefix_enc by easy. cbn.
    replace (omapM dec_cid (map ccid ls)) with (Some ls); [easy|].
    symmetry. clear Hok. induction Hv as [|c ls Hc Hv IH]; cbn; [easy|]. red in Hc. now rewrite Hc, IH.
  Qed.

  (** What [encrypt_block] writes. *)
  Lemma block_payload_enc key off z raw :
    cbor_ok (block_cbor off (zs_links z) (apply_keystream key nonce off (zs_data z))) = true ->
    (off + Nlen (zs_data z) < two64)%N ->
    Forall cid_valid (zs_links z) -> zs_data z <> [] -> z_dec (zs_data z) = Some raw ->
    block_payload key
      (enc (block_cbor off (zs_links z) (apply_keystream key nonce off (zs_data z)))) raw
      (off, off + Nlen (zs_data z))%N.
  Proof.
    intros Hok Hlt Hv Hne Hz. exists off, (zs_links z), (apply_keystream key nonce off (zs_data z)).
    rewrite <- (app_nil_r (enc _)), decode_block_enc by easy.
    rewrite apply_keystream_Nlen, apply_keystream_involutive. auto.
  Qed.

  Lemma block_payload_decrypt key blk raw r :
    block_payload key blk raw r ->
    exists z, decrypt blk key nonce = Ok (z, r) /\ z_dec (zs_data z) = Some raw /\ zs_data z <> [].
  Proof.
    intros (off & ls & d & H1 & H2 & -> & H3 & H4). unfold decrypt. rewrite H1. cbn.
    destruct (N.ltb_spec (off + Nlen d) two64); [|lia]. eauto.
  Qed.

  (** Values and children read back from a block. *)
  Lemma zs_items_spec z vs :
    z_dec (zs_data z) = Some (vals_raw vs) -> vals_ok vs = true ->
    zs_items z = if fits (vals_raw vs) then Ok vs else Err EZstd.
  Proof.
    intros H Hok. unfold zs_items. rewrite (decompress_spec _ _ H).
    destruct (fits (vals_raw vs)); cbn; [|easy]. now apply items_loop_enc.
  Qed.

  Lemma zs_count_spec z vs :
    z_dec (zs_data z) = Some (vals_raw vs) -> vals_ok vs = true ->
    zs_count z = if fits (vals_raw vs) then Ok (List.length vs) else Err EZstd.
  Proof.
    intros H Hok. unfold zs_count. rewrite (decompress_spec _ _ H).
    destruct (fits (vals_raw vs)); cbn; [|easy].
    unfold vals_raw. rewrite parse_seq_enc by easy. cbn. now rewrite map_length.
  Qed.

  Lemma zs_get_spec z vs i :
    z_dec (zs_data z) = Some (vals_raw vs) -> vals_ok vs = true ->
    zs_get z i = if fits (vals_raw vs) then Ok (nth_error vs i) else Err EZstd.
  Proof.
    intros H Hok. unfold zs_get. rewrite (decompress_spec _ _ H).
    destruct (fits (vals_raw vs)); cbn; [|easy]. now apply get_loop_enc.
  Qed.

  Lemma shrink_nil_select {A} m (l : list A) : shrink_to_fit m = [] -> mask_select m l = [].
  Proof. intros H. rewrite <- shrink_select, H. destruct l; reflexivity. Qed.

  Lemma zs_select_spec z vs m :
    z_dec (zs_data z) = Some (vals_raw vs) -> vals_ok vs = true ->
    zs_select z m = if fits (vals_raw vs) || negb (existsb (fun b => b) m) then Ok (mask_select m vs) else Err EZstd.
  Proof.
    intros H Hok. unfold zs_select.
    assert (Hs : shrink_to_fit m = [] <-> existsb (fun b => b) m = false).
    { clear. induction m as [|b m IH]; cbn; [easy|]. destruct (shrink_to_fit m).
      - destruct IH as [IH _]. rewrite (IH eq_refl), orb_false_r. destruct b; split; congruence.
      - split; [congruence|]. intros E. apply orb_false_iff in E as [_ E]. apply IH in E. discriminate. }
    destruct (shrink_to_fit m) as [|b m'] eqn:E.
    - destruct Hs as [Hs _]. rewrite (Hs eq_refl). cbn. rewrite orb_true_r.
      now rewrite (shrink_nil_select m vs E).
    - assert (existsb (fun b => b) m = true) as ->.
      { destruct (existsb (fun b => b) m) eqn:E'; [easy|]. destruct Hs as [_ Hs]. discriminate (Hs eq_refl). }
      cbn [negb]. rewrite orb_false_r, (decompress_spec _ _ H).
      destruct (fits (vals_raw vs)); cbn [rbind]; [|easy].
      rewrite select_loop_enc by easy. now rewrite <- E, shrink_select.
  Qed.

  Lemma deserialize_spec key blk cs r :
    branch_block key blk cs r ->
    deserialize_compressed key blk = if fits (idxs_raw cs) then Ok (cs, r) else Err EZstd.
  Proof.
    intros (Hp & Hok & _). apply block_payload_decrypt in Hp as (z & Hd & Hz & _).
    unfold deserialize_compressed. rewrite Hd. cbn.
    unfold zs_items_ipld. rewrite (decompress_spec _ _ Hz).
    destruct (fits (idxs_raw cs)); cbn; [|easy]. now rewrite items_ipld_loop_enc.
  Qed.

  Lemma branch_block_opens key blk cs r :
    branch_block key blk cs r -> exists z, decrypt blk key nonce = Ok (z, r) /\ z_dec (zs_data z) <> None.
  Proof.
    intros [Hp _]. apply block_payload_decrypt in Hp as (z & Hd & Hz & _). exists z. split; [exact Hd|]. now rewrite Hz.
  Qed.
  Lemma deserialize_opens key blk p :
    deserialize_compressed key blk = Ok p -> exists z r, decrypt blk key nonce = Ok (z, r) /\ z_dec (zs_data z) <> None.
  Proof.
    unfold deserialize_compressed. destruct (decrypt blk key nonce) as [[z r]| | |]; try discriminate. cbn.
    unfold zs_items_ipld, decompress. intros H. exists z, r. split; [easy|]. now destruct (z_dec (zs_data z)).
  Qed.

  Lemma branch_block_det key blk cs r cs' r' :
    branch_block key blk cs r -> deserialize_compressed key blk = Ok (cs', r') -> cs' = cs /\ r' = r.
  Proof.
    intros H E. rewrite (deserialize_spec _ _ _ _ H) in E.
    destruct (fits (idxs_raw cs)); [|discriminate]. now injection E as <- <-.
  Qed.

  (** ** Filling leaves *)

  Lemma Nlen_nil {A} : Nlen (@nil A) = 0%N. Proof. reflexivity. Qed.

  (** The loop of [fill], from a state in which [chunks] hold [vs0]. *)
  Lemma fill_loop_spec lvl csize usize maxk from : forall keys size chunks ls st vs0 new0,
    fill_loop lvl csize usize maxk from keys size chunks ls = Ok st ->
    List.concat chunks = vals_raw vs0 -> vals_ok vs0 = true ->
    size = Nlen (vals_raw vs0) ->
    payload_links (map v_enc vs0) = Ok new0 -> ls = add_links [] new0 ->
    exists taken new,
      from = taken ++ f_from st
      /\ f_keys st = keys ++ map fst taken
      /\ List.concat (f_chunks st) = vals_raw (vs0 ++ map snd taken)
      /\ vals_ok (vs0 ++ map snd taken) = true
      /\ f_size st = Nlen (vals_raw (vs0 ++ map snd taken))
      /\ payload_links (map v_enc (vs0 ++ map snd taken)) = Ok new
      /\ f_links st = add_links [] new
      /\ (f_from st <> [] ->
          f_full st = true \/ maxk <= List.length (f_keys st)
          \/ (csize <= z_flushed lvl (f_chunks st))%N)
      /\ (taken <> [] -> (f_size st <= usize)%N /\ List.length (f_keys st) <= maxk)
      /\ (from <> [] -> List.length keys < maxk -> size = 0%N -> taken <> [])
      /\ (f_full st = true -> exists k v rest, f_from st = (k, v) :: rest
            /\ (usize < f_size st + Nlen (enc (v_enc v)))%N).
  Proof.
    induction from as [|[k v] from IH]; intros keys size chunks ls st vs0 new0 E Hc Hok Hs Hl Hls.
    - cbn in E. injection E as <-. cbn. exists [], new0. cbn. rewrite !app_nil_r.
      repeat split; auto; congruence.
    - cbn in E. destruct (Nat.leb_spec maxk (List.length keys)) as [Hm|Hm].
      { injection E as <-. cbn. exists [], new0. cbn. rewrite !app_nil_r.
        repeat split; auto; try congruence; try lia. }
      rinv E. apply cbor_bytes_ok in E0 as [Hv ->].
      destruct (N.ltb_spec usize (Nlen (enc (v_enc v)))) as [|Hfit1]; [discriminate|].
      destruct (N.ltb_spec usize (size + Nlen (enc (v_enc v)))) as [Hnf|Hfit].
      { injection E as <-. cbn. exists [], new0. cbn. rewrite !app_nil_r.
        repeat split; auto; try congruence; try lia. intros _. exists k, v, from. auto. }
      rinv E. rewrite scrape_links_enc in E0 by easy. rinv E0. injection E0 as <-.
      assert (Hvs : vals_raw (vs0 ++ [v]) = List.concat (chunks ++ [enc (v_enc v)])).
      { rewrite vals_raw_app, concat_app, Hc. unfold vals_raw at 2. reflexivity. }
      assert (Hsz : (size + Nlen (enc (v_enc v)))%N = Nlen (vals_raw (vs0 ++ [v]))).
      { rewrite vals_raw_app, Nlen_app, Hs. unfold vals_raw at 3. cbn. now rewrite app_nil_r. }
      assert (Hok' : vals_ok (vs0 ++ [v]) = true).
      { rewrite vals_ok_app, Hok. cbn. now rewrite Hv. }
      assert (Hl' : payload_links (map v_enc (vs0 ++ [v])) = Ok (new0 ++ a0)).
      { rewrite map_app, payload_links_app, Hl. cbn [rbind map].
        rewrite payload_links_cons, E1. cbn. now rewrite !app_nil_r. }
      destruct (N.leb_spec csize (z_flushed lvl (chunks ++ [enc (v_enc v)]))) as [Hz|Hz].
      { injection E as <-. cbn. exists [(k, v)], (new0 ++ a0). cbn.
        rewrite Hvs, Hls, add_links_app, app_length. cbn.
        repeat split; auto; try congruence; try lia; rewrite <- Hvs; lia. }
      eapply IH in E; eauto; cycle 1. { now rewrite Hls, add_links_app. }
      destruct E as (taken & new & H1 & H2 & H3 & H4 & H5 & H6 & H7 & H8 & H9 & H10 & H11).
      exists ((k, v) :: taken), new. cbn. rewrite <- app_assoc in *. cbn in *.
      repeat split; auto; try congruence.
      + destruct taken as [|t taken].
        * cbn in *. rewrite H5. lia.
        * apply H9. discriminate.
      + destruct taken as [|t taken].
        * cbn in *. rewrite H2, !app_length. cbn. lia.
        * apply H9. discriminate.
  Qed.

  (** [fill] as a whole: [vs0] is what the compressed data holds. *)
  Lemma fill_spec compressed from keys lvl csize usize maxk vs0 z full keys' from' :
    fill compressed from keys lvl csize usize maxk = Ok (z, full, keys', from') ->
    (compressed = [] /\ vs0 = [] \/ compressed <> [] /\ z_dec compressed = Some (vals_raw vs0)) ->
    vals_ok vs0 = true ->
    exists taken new,
      from = taken ++ from'
      /\ keys' = keys ++ map fst taken
      /\ z_dec (zs_data z) = Some (vals_raw (vs0 ++ map snd taken))
      /\ zs_data z <> []
      /\ vals_ok (vs0 ++ map snd taken) = true
      /\ payload_links (map v_enc (vs0 ++ map snd taken)) = Ok new
      /\ zs_links z = add_links [] new
      /\ (from' <> [] -> full = true)
      /\ (taken <> [] -> (Nlen (vals_raw (vs0 ++ map snd taken)) <= usize)%N
                         /\ List.length keys' <= maxk)
      /\ (from <> [] -> List.length keys < maxk -> vs0 = [] -> taken <> [])
      /\ (full = true ->
            (csize <= Nlen (zs_data z))%N \/ maxk <= List.length keys'
            \/ (usize <= Nlen (vals_raw (vs0 ++ map snd taken)))%N
            \/ exists k v rest, from' = (k, v) :: rest
                 /\ (usize < Nlen (vals_raw (vs0 ++ map snd taken)) + Nlen (enc (v_enc v)))%N).
  Proof.
    unfold fill. intros E Hcomp Hok. rinv E. destruct a as [[size chunks] ls].
    assert (Hinit : List.concat chunks = vals_raw vs0 /\ size = Nlen (vals_raw vs0)
            /\ exists new0, payload_links (map v_enc vs0) = Ok new0 /\ ls = add_links [] new0).
    { destruct Hcomp as [[-> ->]|[Hne Hz]].
      - injection E0 as <- <- <-. cbn. repeat split; auto. exists []. auto.
      - destruct compressed as [|c0 c1]; [congruence|]. rinv E0.
        rewrite (decompress_spec _ _ Hz) in E1.
        destruct (fits (vals_raw vs0)); [|discriminate]. injection E1 as <-. rinv E0.
        injection E0 as <- <- <-. unfold vals_raw in E1. rewrite scrape_links_seq in E1 by easy.
        rinv E1. injection E1 as <-. cbn. rewrite app_nil_r. repeat split; auto. eauto. }
    destruct Hinit as (Hc & Hs & new0 & Hl & Hls). rinv E.
    injection E as <- <- <- <-.
    eapply fill_loop_spec in E1 as
        (taken & new & H1 & H2 & H3 & H4 & H5 & H6 & H7 & H8 & H9 & H10 & H11); eauto.
    exists taken, new. cbn. rewrite z_roundtrip, H3.
    repeat split; auto.
    - apply z_nonempty.
    - intros Hne. destruct (H8 Hne) as [->|[Hm|Hz]]; [reflexivity| |].
      + destruct (Nat.leb_spec maxk (List.length (f_keys a))); [|lia].
        now rewrite ?orb_true_r.
      + destruct (N.leb_spec csize (Nlen (z_finish lvl (f_chunks a)))) as [|Hlt].
        * now rewrite ?orb_true_r.
        * pose proof (z_finish_ge lvl (f_chunks a)). lia.
    - rewrite <- H5. now apply H9.
    - now apply H9.
    - intros Hf Hk ->. apply H10; auto.
    - intros Hf. rewrite <- H5. apply orb_prop in Hf as [Hf|Hf]; [apply orb_prop in Hf as [Hf|Hf]; [apply orb_prop in Hf as [Hf|Hf]|]|].
      + right; right; right. now apply H11.
      + left. now apply N.leb_le in Hf.
      + right; left. now apply Nat.leb_le in Hf.
      + right; right; left. now apply N.leb_le in Hf.
  Qed.
End SeqProofs.

(** Sequences and blocks: C30, C31, C32, C34. *)
From Coq Require Import List NArith ZArith Lia Bool String Arith Permutation.
From Coq Require Import Strings.Byte.
From Verif Require Import Base BaseProofs Cbor CborProofs Types Seq SeqProofs World Write Instance Example.
Import ListNotations.

Section Props.
  Context {T : Types} {TL : TypesLaws T} {X : Ext} {XL : ExtLaws X}.

  (** ** C30: encrypted blocks *)

  (** A sequence is well formed if its links are CIDs. All sequences made by the
      code are ([C30_made]). *)
  Definition zs_wf (z : zseq) : Prop := Forall (fun c => cid_read c = Some c) (zs_links z).

  Theorem C30_roundtrip key nce off z blk off' :
    zs_wf z -> into_encrypted key nce off z = Ok (blk, off') ->
    decrypt blk key nce = Ok (z, (off, off')) /\ off' = (off + Nlen (zs_data z))%N /\ (off' < two64)%N.
  Proof.
    intros Hl E. unfold into_encrypted in E. rinv E. destruct a as [o o1].
    unfold reserve in E0. destruct (N.ltb_spec (off + Nlen (zs_data z)) two64); [|discriminate]. injection E0 as <- <-.
    rinv E. injection E as <- <-. apply cbor_bytes_ok in E0 as [H1 ->]. split; [|auto].
    unfold decrypt. rewrite <- (app_nil_r (enc _)), decode_block_enc by auto. cbn [ok_or rbind].
    rewrite apply_keystream_Nlen, apply_keystream_involutive.
    destruct (N.ltb_spec (off + Nlen (zs_data z)) two64); [|lia]. now destruct z.
  Qed.

  (** Another key or nonce gives the keystream difference, not an error: the
      block itself is not authenticated. *)
  Theorem C30_wrong_key key key' nce nce' off z blk off' :
    zs_wf z -> into_encrypted key nce off z = Ok (blk, off') ->
    exists z', decrypt blk key' nce' = Ok (z', (off, off')) /\ zs_links z' = zs_links z
      /\ zs_data z' = apply_keystream key' nce' off (apply_keystream key nce off (zs_data z)).
  Proof.
    intros Hl E. unfold into_encrypted in E. rinv E. destruct a as [o o1].
    unfold reserve in E0. destruct (N.ltb_spec (off + Nlen (zs_data z)) two64); [|discriminate]. injection E0 as <- <-.
    rinv E. injection E as <- <-. apply cbor_bytes_ok in E0 as [H1 ->].
    unfold decrypt. rewrite <- (app_nil_r (enc _)), decode_block_enc by auto. cbn [ok_or rbind].
    rewrite apply_keystream_Nlen.
    destruct (N.ltb_spec (off + Nlen (zs_data z)) two64); [|lia]. eexists. split; [reflexivity|]. auto.
  Qed.

  (** Writing succeeds if the offset does not wrap around (and numbers of links
      and their lengths are below 2^64, as in any real memory). *)
  Theorem C30_writes key nce off z :
    (off + Nlen (zs_data z) < two64)%N ->
    (Nlen (zs_links z) < two64)%N -> Forall (fun c => Nlen c + 1 < two64)%N (zs_links z) ->
    exists blk, into_encrypted key nce off z = Ok (blk, off + Nlen (zs_data z))%N.
  Proof.
    intros H1 H2 H3. unfold into_encrypted, reserve. destruct (N.ltb_spec (off + Nlen (zs_data z)) two64); [|lia].
    cbn [rbind]. unfold cbor_bytes.
    replace (cbor_ok _) with true; [cbn; eauto|].
    symmetry. unfold block_cbor. cbn -[two64]. rewrite apply_keystream_Nlen.
    assert (Hm : Nlen (map ccid (zs_links z)) = Nlen (zs_links z)) by (unfold Nlen; now rewrite map_length).
    rewrite Hm. repeat rewrite andb_true_iff. splits; auto; try (apply N.ltb_lt; lia).
    - rewrite forallb_forall. intros c Hc. apply in_map_iff in Hc as (b & <- & Hb).
      rewrite Forall_forall in H3. apply H3 in Hb. unfold ccid. cbn -[two64].
      apply andb_true_iff. split; apply N.ltb_lt; [reflexivity|]. unfold Nlen in *. cbn [List.length]. lia.
  Qed.

  Theorem C30_wraps_writing key nce off z :
    (two64 <= off + Nlen (zs_data z))%N -> into_encrypted key nce off z = Panic POverflow.
  Proof.
    intros H. unfold into_encrypted, reserve. destruct (N.ltb_spec (off + Nlen (zs_data z)) two64); [lia|]. reflexivity.
  Qed.

  (** The blocks of streams are made in this way, with the cipher offset of the
      stream builder. *)
  Theorem C30_in_streams {B : Backend T} leaf key z raw w :
    match into_encrypted key nonce (w_off w) z with
    | Ok (blk, off') =>
        encrypt_block leaf key z raw w
        = (Ok {| ev_leaf := leaf; ev_key := key; ev_off := w_off w; ev_len := Nlen (zs_data z); ev_raw := raw; ev_block := blk |}, set_off w off')
    | _ => forall e, fst (encrypt_block leaf key z raw w) <> Ok e
    end.
  Proof.
    unfold into_encrypted, encrypt_block, reserve. destruct (N.ltb_spec (w_off w + Nlen (zs_data z)) two64); cbn [rbind]; [|easy].
    destruct (cbor_bytes _) as [blk|e|p|]; cbn; [reflexivity|easy..].
  Qed.

  Theorem C30_wraps_reading key nce off links d :
    cbor_ok (block_cbor off links d) = true -> Forall (fun c => cid_read c = Some c) links ->
    (two64 <= off + Nlen d)%N ->
    decrypt (enc (block_cbor off links d)) key nce = Err ECipher.
  Proof.
    intros H1 H2 H3. unfold decrypt. rewrite <- (app_nil_r (enc _)), decode_block_enc by auto. cbn [ok_or rbind].
    destruct (N.ltb_spec (off + Nlen d) two64); [lia|]. reflexivity.
  Qed.

  (** ** C31: sequences of values *)

  (** The sequences the code makes of values: from scratch with [from_iter], or
      by (repeatedly) filling a leaf. [made] says which values were accepted. *)
  Inductive made (cap : N) : zseq -> list V -> Prop :=
  | made_iter vs lvl z : from_iter vs lvl = Ok z -> (Nlen (vals_raw vs) <= cap)%N -> made cap z vs
  | made_first taken from keys lvl csize usize maxk z full keys' :
      fill [] (taken ++ from) keys lvl csize usize maxk = Ok (z, full, keys', from) -> (usize <= cap)%N ->
      made cap z (map snd taken)
  | made_next z0 vs taken from keys lvl csize usize maxk z full keys' :
      made cap z0 vs ->
      fill (zs_data z0) (taken ++ from) keys lvl csize usize maxk = Ok (z, full, keys', from) -> (usize <= cap)%N ->
      made cap z (vs ++ map snd taken).

  Lemma cut_app {A} (a b a' : list A) : a ++ b = a' ++ b -> a = a'.
  Proof. apply app_inv_tail. Qed.

  Lemma made_data cap z vs : made cap z vs ->
    z_dec (zs_data z) = Some (vals_raw vs) /\ vals_ok vs = true /\ zs_data z <> []
    /\ (Nlen (vals_raw vs) <= cap)%N
    /\ exists new, payload_links (map v_enc vs) = Ok new /\ zs_links z = add_links [] new.
  Proof.
    induction 1 as [vs lvl z E Hc|taken from keys lvl csize usize maxk z full keys' E Hc|z0 vs taken from keys lvl csize usize maxk z full keys' M IH E Hc].
    - pose proof (from_iter_spec _ _ _ E) as (H1 & H2 & H3). splits; auto.
      unfold from_iter in E. rinv E. destruct a. injection E as <-. apply z_nonempty.
    - eapply (fill_spec _ _ _ _ _ _ _ []) in E as (tk & new & H1 & _ & H3 & H4 & H5 & H6 & H7 & _ & H8 & _); [|auto|reflexivity].
      apply cut_app in H1 as ->. cbn [app] in *. splits; eauto.
      destruct tk as [|t tk]; [cbn; lia|]. etransitivity; [apply H8; discriminate|exact Hc].
    - destruct IH as (I1 & I2 & I3 & I4 & _).
      eapply (fill_spec _ _ _ _ _ _ _ vs) in E as (tk & new & H1 & _ & H3 & H4 & H5 & H6 & H7 & _ & H8 & _); [|auto|auto].
      apply cut_app in H1 as ->. splits; eauto.
      destruct tk as [|t tk]; [cbn; rewrite app_nil_r; lia|]. etransitivity; [apply H8; discriminate|exact Hc].
  Qed.

  (** What fits into 16 MiB can be read back, and all accessors agree. *)
  Theorem C31_accessors z vs :
    made max_capacity z vs ->
    zs_items z = Ok vs
    /\ zs_count z = Ok (List.length vs)
    /\ (forall i, zs_get z i = Ok (nth_error vs i))
    /\ (forall m, zs_select z m = Ok (map snd (filter fst (combine m vs)))).
  Proof.
    intros M. apply made_data in M as (H1 & H2 & _ & H4 & _).
    assert (F : fits (vals_raw vs) = true).
    { unfold fits. destruct (N.ltb_spec max_capacity (Nlen (vals_raw vs))); [lia|reflexivity]. }
    splits.
    - rewrite (zs_items_spec _ vs); auto. now rewrite F.
    - rewrite (zs_count_spec _ vs); auto. now rewrite F.
    - intros i. rewrite (zs_get_spec _ vs); auto. now rewrite F.
    - intros m. rewrite (zs_select_spec _ vs); auto. rewrite F. cbn. f_equal.
      clear. revert vs. induction m as [|b m IH]; intros vs; [reflexivity|].
      destruct vs as [|v vs]; [now destruct b|]. cbn. destruct b; cbn; now rewrite IH.
  Qed.

  (** Larger sequences cannot be read at all; they never give wrong data. *)
  Theorem C31_too_large cap z vs :
    made cap z vs -> (max_capacity < Nlen (vals_raw vs))%N ->
    zs_items z = Err EZstd /\ zs_count z = Err EZstd /\ (forall i, zs_get z i = Err EZstd).
  Proof.
    intros M Hl. apply made_data in M as (H1 & H2 & _ & H4 & _).
    assert (F : fits (vals_raw vs) = false).
    { unfold fits. destruct (N.ltb_spec max_capacity (Nlen (vals_raw vs))); [reflexivity|lia]. }
    splits.
    - rewrite (zs_items_spec _ vs); auto. now rewrite F.
    - rewrite (zs_count_spec _ vs); auto. now rewrite F.
    - intros i. rewrite (zs_get_spec _ vs); auto. now rewrite F.
  Qed.

  (** [fill] takes a prefix of the offered pairs: the values go into the
      sequence, the keys are appended to the keys, the rest is left. *)
  Theorem C31_fill_takes cap z0 vs from keys lvl csize usize maxk z full keys' from' :
    made cap z0 vs ->
    fill (zs_data z0) from keys lvl csize usize maxk = Ok (z, full, keys', from') -> (usize <= cap)%N ->
    exists taken, from = taken ++ from' /\ keys' = keys ++ map fst taken /\ made cap z (vs ++ map snd taken).
  Proof.
    intros M E Hc. pose proof M as M'. apply made_data in M' as (I1 & I2 & I3 & _).
    destruct (fill_spec _ _ _ _ _ _ _ vs _ _ _ _ E) as (tk & _ & -> & -> & _); auto.
    exists tk. splits; auto. eapply made_next; eauto.
  Qed.
  Theorem C31_fill_starts cap from keys lvl csize usize maxk z full keys' from' :
    fill [] from keys lvl csize usize maxk = Ok (z, full, keys', from') -> (usize <= cap)%N ->
    exists taken, from = taken ++ from' /\ keys' = keys ++ map fst taken /\ made cap z (map snd taken).
  Proof.
    intros E Hc. destruct (fill_spec _ _ _ _ _ _ _ [] _ _ _ _ E) as (tk & _ & -> & -> & _); auto.
    exists tk. splits; auto. eapply made_first; eauto.
  Qed.

  (** C30 applies to everything that is made. *)
  Theorem C30_made cap z vs : made cap z vs -> zs_wf z.
  Proof.
    intros M. apply made_data in M as (_ & _ & _ & _ & new & H1 & H2). unfold zs_wf. rewrite H2.
    apply add_links_valid; [constructor|]. eapply payload_links_valid; eauto.
  Qed.

  (** ** C32: limits and progress of [fill] *)

  (** A value that can be encoded at all. *)
  Definition encodable (v : V) : Prop := exists lvl z, from_iter [v] lvl = Ok z.
  Definition vsize (v : V) : N := Nlen (enc (v_enc v)).
  Definition vsizes (vs : list V) : N := fold_right N.add 0%N (map vsize vs).

  Lemma vsizes_raw vs : vsizes vs = Nlen (vals_raw vs).
  Proof.
    induction vs as [|v vs IH]; [reflexivity|]. unfold vsizes, vals_raw in *. cbn [map fold_right flat_map].
    rewrite Nlen_app, IH. reflexivity.
  Qed.

  Lemma encodable_spec v : encodable v -> cbor_ok (v_enc v) = true /\ exists ls, item_links [] (v_enc v) = Ok ls.
  Proof.
    intros (lvl & z & E). apply from_iter_spec in E as (H1 & _ & new & H2 & _). cbn in H1, H2.
    rewrite andb_true_r in H1. split; [exact H1|]. rewrite payload_links_cons in H2.
    destruct (item_links [] (v_enc v)); try discriminate. eauto.
  Qed.

  (** What [fill] reports and keeps within; [seed] is what the leaf held. *)
  Definition seeded (data : bytes) (seed : list V) : Prop :=
    data = [] /\ seed = [] \/ exists z, made max_capacity z seed /\ data = zs_data z.

  Lemma seeded_data data seed : seeded data seed ->
    (data = [] /\ seed = [] \/ data <> [] /\ z_dec data = Some (vals_raw seed)) /\ vals_ok seed = true
    /\ (Nlen (vals_raw seed) <= max_capacity)%N /\ exists new, payload_links (map v_enc seed) = Ok new.
  Proof.
    intros [[-> ->]|(z & M & ->)]; [cbn; splits; auto; [lia|eauto]|].
    apply made_data in M as (H1 & H2 & H3 & H4 & new & H5 & _). splits; eauto.
  Qed.

  Theorem C32_limits data seed from keys lvl csize usize maxk z full keys' from' :
    seeded data seed ->
    fill data from keys lvl csize usize maxk = Ok (z, full, keys', from') ->
    exists taken, from = taken ++ from'
      /\ List.length keys' <= Nat.max maxk (List.length keys)
      /\ (vsizes (seed ++ map snd taken) <= N.max usize (vsizes seed))%N
      /\ (from' <> [] -> full = true)
      /\ (from <> [] -> seed = [] -> List.length keys < maxk -> taken <> [])
      /\ (full = true ->
            (csize <= Nlen (zs_data z))%N                            (* compressed size reached *)
            \/ maxk <= List.length keys'                             (* number of keys reached *)
            \/ (usize <= vsizes (seed ++ map snd taken))%N           (* uncompressed size reached *)
            \/ exists k v rest, from' = (k, v) :: rest               (* the next value does not fit *)
                 /\ (usize < vsizes (seed ++ map snd taken) + vsize v)%N).
  Proof.
    intros S E. apply seeded_data in S as (S1 & S2 & _).
    destruct (fill_spec _ _ _ _ _ _ _ seed _ _ _ _ E S1 S2) as (tk & new & -> & -> & _ & _ & _ & _ & _ & H1 & H2 & H3 & H4).
    exists tk. rewrite !vsizes_raw. splits; auto.
    - destruct tk as [|t tk]; [cbn; rewrite app_nil_r; lia|]. destruct H2 as [_ H2]; [discriminate|]. lia.
    - destruct tk as [|t tk]; [cbn; rewrite app_nil_r; lia|]. destruct H2 as [H2 _]; [discriminate|]. lia.
  Qed.

  Lemma fill_loop_total lvl csize usize maxk from : forall keys size chunks ls,
    Forall (fun kv => encodable (snd kv)) from ->
    (exists st, fill_loop lvl csize usize maxk from keys size chunks ls = Ok st)
    \/ fill_loop lvl csize usize maxk from keys size chunks ls = Err ETooLarge
       /\ exists a k v c, from = a ++ (k, v) :: c /\ (usize < vsize v)%N.
  Proof.
    induction from as [|[k v] from IH]; intros keys size chunks ls F; cbn; [eauto|].
    destruct (Nat.leb maxk (List.length keys)); [eauto|]. inversion F as [|? ? Fv Ff]; subst.
    destruct (encodable_spec _ Fv) as (C1 & lk & C2). cbn in C1, C2. unfold cbor_bytes. rewrite C1. cbn [rbind].
    destruct (N.ltb_spec usize (Nlen (enc (v_enc v)))) as [Hl|Hl].
    { right. split; [reflexivity|]. now exists [], k, v, from. }
    destruct (usize <? size + Nlen (enc (v_enc v)))%N; [eauto|].
    rewrite scrape_links_enc by auto. rewrite C2. cbn [rbind].
    destruct (csize <=? _)%N; [eauto|].
    destruct (IH (keys ++ [k]) (size + Nlen (enc (v_enc v)))%N (chunks ++ [enc (v_enc v)]) (add_links ls lk) Ff) as [H|(H & a & k' & v' & c & -> & Hv)].
    - eauto.
    - right. split; [exact H|]. exists ((k, v) :: a), k', v', c. auto.
  Qed.

  (** The only failure is a single value that is larger than the limit. *)
  Theorem C32_fails_only_for_large data seed from keys lvl csize usize maxk :
    seeded data seed -> Forall (fun kv => encodable (snd kv)) from ->
    (exists r, fill data from keys lvl csize usize maxk = Ok r)
    \/ fill data from keys lvl csize usize maxk = Err ETooLarge
       /\ exists a k v c, from = a ++ (k, v) :: c /\ (usize < vsize v)%N.
  Proof.
    intros S F. apply seeded_data in S as (S1 & S2 & S3 & new & S4). unfold fill.
    assert (exists size chunks ls, match data with
       | [] => Ok (0%N, [], [])
       | _ => (raw <- decompress data;; ls <- scrape_links raw [];; Ok (Nlen raw, [raw], ls))%res
       end = Ok (size, chunks, ls)) as (size & chunks & ls & ->).
    { destruct S1 as [[-> ->]|[Hne Hz]]; [eauto|]. destruct data; [congruence|].
      rewrite (decompress_spec _ _ Hz). unfold fits. destruct (N.ltb_spec max_capacity (Nlen (vals_raw seed))); [lia|].
      cbn [negb rbind]. unfold vals_raw at 1. rewrite scrape_links_seq by exact S2. rewrite S4. cbn. eauto. }
    cbn [rbind]. destruct (fill_loop_total lvl csize usize maxk from keys size chunks ls F) as [(st & ->)|(-> & H)]; [left|right; auto].
    cbn. eauto.
  Qed.

  (** ** C34: index records *)

  Theorem C34_roundtrip key off items lvl blk off' :
    serialize_compressed key off items lvl = Ok (blk, off') ->
    (Nlen (flat_map (fun i => enc (enc_index i)) items) <= max_capacity)%N ->
    deserialize_compressed key blk = Ok (items, (off, off')).
  Proof.
    intros E Hc. unfold serialize_compressed in E. rinv E.
    pose proof (from_iter_ipld_spec _ _ _ E0) as (H1 & H2 & H3 & new & H4 & H5).
    assert (Hw : zs_wf a).
    { unfold zs_wf. rewrite H5. apply add_links_valid; [constructor|]. eapply payload_links_valid; eauto. }
    apply C30_roundtrip in E as (E & _); [|exact Hw]. unfold deserialize_compressed. rewrite E. cbn [rbind].
    unfold zs_items_ipld. rewrite (decompress_spec _ _ H2). unfold fits.
    assert (Hr : idxs_raw items = flat_map (fun i => enc (enc_index i)) items).
    { unfold idxs_raw. clear. induction items as [|i is IH]; [reflexivity|]. cbn. now rewrite IH. }
    destruct (N.ltb_spec max_capacity (Nlen (idxs_raw items))); [rewrite Hr in *; lia|]. cbn [negb rbind].
    rewrite items_ipld_loop_enc; auto.
  Qed.

  (** Fields are found by name: records with their fields in any order decode to
      the same record. *)
  Definition rec_cbor (fs : list (string * cbor)) : cbor :=
    CMap (map (fun f => (CText (text_bytes (fst f)), snd f)) fs).

  Lemma byte_of_ascii_inj a b : Ascii.byte_of_ascii a = Ascii.byte_of_ascii b -> a = b.
  Proof. intros H. rewrite <- (Ascii.ascii_of_byte_of_ascii a), <- (Ascii.ascii_of_byte_of_ascii b). now rewrite H. Qed.
  Lemma text_bytes_inj a : forall b, text_bytes a = text_bytes b -> a = b.
  Proof.
    induction a as [|x a IH]; intros [|y b]; cbn; try discriminate; auto.
    intros H. injection H as H1 H2. apply byte_of_ascii_inj in H1 as ->. now rewrite (IH b).
  Qed.

  Lemma field_in name c fs : NoDup (map fst fs) -> In (name, c) fs ->
    field name (map (fun f => (CText (text_bytes (fst f)), snd f)) fs) = Some c.
  Proof.
    unfold field. induction fs as [|[n c'] fs IH]; cbn; [easy|]. intros Hd Hi. inversion Hd as [|? ? Hn Hd']; subst.
    destruct (bytes_eqb (text_bytes n) (text_bytes name)) eqn:E.
    - apply bytes_eqb_eq, text_bytes_inj in E as ->. destruct Hi as [Hi|Hi]; [congruence|].
      exfalso. apply Hn. apply in_map_iff. exists (name, c). auto.
    - destruct Hi as [Hi|Hi]; [|auto]. injection Hi as -> ->.
      assert (bytes_eqb (text_bytes name) (text_bytes name) = true) by now apply bytes_eqb_eq. congruence.
  Qed.
  Lemma field_out name fs : ~ In name (map fst fs) ->
    field name (map (fun f => (CText (text_bytes (fst f)), snd f)) fs) = None.
  Proof.
    unfold field. induction fs as [|[n c'] fs IH]; cbn; [easy|]. intros Hn.
    destruct (bytes_eqb (text_bytes n) (text_bytes name)) eqn:E; [|apply IH; tauto].
    apply bytes_eqb_eq, text_bytes_inj in E as ->. tauto.
  Qed.

  Theorem C34_any_order i fs :
    (N.of_nat (ilevel i) < two32)%N ->
    Permutation fs (match i with ILeaf x => leaf_fields x | IBranch x => branch_fields x end) ->
    dec_index (rec_cbor fs) = Some i.
  Proof.
    intros Hl P. assert (P' := P). apply (Permutation_map fst) in P'. apply Permutation_sym in P'.
    assert (Hin : forall n c, In (n, c) (match i with ILeaf x => leaf_fields x | IBranch x => branch_fields x end) ->
              field n (map (fun f => (CText (text_bytes (fst f)), snd f)) fs) = Some c).
    { intros n c H. apply field_in.
      - eapply Permutation_NoDup; [exact P'|]. destruct i; cbn; repeat constructor; cbn; intuition discriminate.
      - eapply Permutation_in; [apply Permutation_sym; exact P|exact H]. }
    destruct i as [[se li ks vb]|[cnt lv se li ss vb kb]]; unfold rec_cbor, dec_index.
    - unfold dec_leaf.
      rewrite (Hin "keys"%string (ks_enc ks)) by (cbn; auto). rewrite (Hin "link"%string (clink li)) by (cbn; auto).
      rewrite (Hin "sealed"%string (cbool se)) by (cbn; auto). rewrite (Hin "value_bytes"%string (CUint vb)) by (cbn; auto 6).
      cbn [obind]. now rewrite ks_codec, dec_enc_link, dec_enc_bool.
    - replace (dec_leaf _) with (@None LeafIndex).
      2: { unfold dec_leaf. rewrite field_out; [reflexivity|]. intros H. eapply Permutation_in in H; [|apply Permutation_sym; exact P'].
           cbn in H. intuition discriminate. }
      unfold dec_branch. cbn in Hl.
      rewrite (Hin "link"%string (clink li)) by (cbn; auto). rewrite (Hin "count"%string (CUint (N.of_nat cnt))) by (cbn; auto).
      rewrite (Hin "level"%string (CUint (N.of_nat lv))) by (cbn; auto). rewrite (Hin "sealed"%string (cbool se)) by (cbn; auto 6).
      rewrite (Hin "key_bytes"%string (CUint kb)) by (cbn; auto 7). rewrite (Hin "summaries"%string (ss_enc ss)) by (cbn; auto 8).
      rewrite (Hin "value_bytes"%string (CUint vb)) by (cbn; auto 9).
      cbn [obind]. rewrite dec_enc_link, dec_enc_bool, ss_codec. cbn [obind dec_uint].
      destruct (N.leb_spec two32 (N.of_nat lv)); [lia|]. now rewrite !Nat2N.id.
  Qed.

  (** Records are written with their fields in canonical order: shorter names
      first, names of the same length alphabetically. *)
  Definition canonical (a b : bytes) : bool :=
    Nat.ltb (List.length a) (List.length b)
    || Nat.eqb (List.length a) (List.length b)
       && (fix lt a b := match a, b with
                         | x :: a', y :: b' => (byte_to_N x <? byte_to_N y)%N || (byte_to_N x =? byte_to_N y)%N && lt a' b'
                         | _, _ => false end) a b.
  Fixpoint ordered (l : list bytes) : bool :=
    match l with
    | a :: (b :: _) as l' => canonical a b && ordered l'
    | _ => true
    end.
  Theorem C34_canonical i :
    exists fs, enc_index i = rec_cbor fs
      /\ ordered (map (fun f => text_bytes (fst f)) fs) = true
      /\ map fst fs = match i with
                      | ILeaf _ => ["keys"; "link"; "sealed"; "value_bytes"]%string
                      | IBranch _ => ["link"; "count"; "level"; "sealed"; "key_bytes"; "summaries"; "value_bytes"]%string
                      end
      /\ forall rest, cbor_ok (enc_index i) = true -> checked_prefix (enc (enc_index i) ++ rest) = Some (rec_cbor fs, rest).
  Proof.
    exists (match i with ILeaf x => leaf_fields x | IBranch x => branch_fields x end).
    destruct i as [x|x]; splits; try reflexivity; intros rest H; rewrite checked_prefix_enc by exact H; reflexivity.
  Qed.
End Props.

(** * Concrete cases *)

Definition kvs (n : nat) : list (N * N) := pairs 0 n.
Definition leaf1 := fill [] (kvs 9) [] 1 1000 10 5.
Definition leaf2 := match leaf1 with Ok (z, _, ks, rest) => fill (zs_data z) rest ks 1 1000 40 7 | r => r end.

(** Nine values of two bytes are offered to leaves that may hold ten bytes, and
    then forty bytes but only seven keys. *)
Example C31_case :
  exists z ks z' ks',
    leaf1 = Ok (z, true, ks, pairs 5 4) /\ leaf2 = Ok (z', true, ks', pairs 7 2)
    /\ @made ITypes IExt max_capacity z (map snd (pairs 0 5)) /\ @made ITypes IExt max_capacity z' (map snd (pairs 0 7))
    /\ into_encrypted [x01] [x02] 77 z' = Ok (fst (match into_encrypted [x01] [x02] 77 z' with Ok r => r | _ => ([], 0%N) end), 92%N)
    /\ Forall (fun kv => @encodable ITypes IExt (snd kv)) (kvs 9).
Proof.
  destruct leaf1 as [[[[z full] ks] rest]| | |] eqn:E1; try (vm_compute in E1; discriminate).
  destruct leaf2 as [[[[z' full'] ks'] rest']| | |] eqn:E2; try (vm_compute in E2; discriminate).
  assert (M1 : @made ITypes IExt max_capacity z (map snd (pairs 0 5))).
  { eapply (@made_first ITypes IExt _ (pairs 0 5) (pairs 5 4) [] 1 1000 10 5).
    - change (pairs 0 5 ++ pairs 5 4) with (kvs 9). unfold leaf1 in E1. rewrite E1.
      vm_compute in E1. injection E1 as <- <- <- <-. vm_compute. reflexivity.
    - vm_compute. discriminate. }
  exists z, ks, z', ks'. splits.
  - vm_compute in E1. injection E1 as <- <- <- <-. vm_compute. reflexivity.
  - vm_compute in E2. injection E2 as <- <- <- <-. vm_compute. reflexivity.
  - exact M1.
  - change (map snd (pairs 0 7)) with (map snd (pairs 0 5) ++ map snd (pairs 5 2)).
    eapply (@made_next ITypes IExt _ z _ (pairs 5 2) (pairs 7 2) ks 1 1000 40 7); [exact M1| |vm_compute; discriminate].
    unfold leaf2 in E2. rewrite E1 in E2. vm_compute in E1. injection E1 as <- <- <- <-.
    vm_compute in E2. injection E2 as <- <- <- <-. vm_compute. reflexivity.
  - vm_compute in E2. injection E2 as <- <- <- <-. vm_compute. reflexivity.
  - clear. remember (kvs 9) as l eqn:El. vm_compute in El. subst l.
    repeat (constructor; [exists 1%N; eexists; reflexivity|]). constructor.
Qed.

(** A value that is too large. *)
Example C32_case : fill [] (pairs 0 2 ++ [(7, 1000000)]%N) [] 1 1000 4 9 = Err ETooLarge.
Proof. reflexivity. Qed.

Example C34_case :
  exists blk, serialize_compressed [x01] 5 [ILeaf {| li_sealed := true; li_link := Some [x07]; li_keys := [1; 2]%N; li_vbytes := 3 |};
     IBranch {| bi_count := 3; bi_level := 1; bi_sealed := false; bi_link := None; bi_sums := [(1, 2)]%N; bi_vbytes := 9; bi_kbytes := 4 |}] 1
   = Ok (blk, 113%N).
Proof. eexists. vm_compute. reflexivity. Qed.

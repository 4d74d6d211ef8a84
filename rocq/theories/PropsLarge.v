(** C44 does not hold: a branch whose records have more than 16 MiB is written
    without complaint and can not be read again. *)
From Coq Require Import List NArith ZArith Lia Bool String Arith.
From Coq Require Import Strings.Byte.
From Verif Require Import Base BaseProofs Cbor CborProofs Types Seq SeqProofs Query QuerySpec World Read Write Api Iter History Spec Ghost Frame ReadProofs Packable WriteProofs ApiProofs SysProofs HistProofs LogProofs Instance Example PropsLog.
Import ListNotations.

(** Keys with long encodings: the key [n] is encoded as [n] bytes. Otherwise as
    in Instance.v, with a store that accepts everything. *)
Definition zeros (n : N) : bytes := repeat x00 (N.to_nat n).
Definition dec_zeros (c : cbor) : option N := match c with CBytes b => Some (Nlen b) | _ => None end.

#[local] Instance BTypes : Types := {
  K := N; V := N; Sm := N * N; KS := list N; SS := list (N * N); L := bytes;
  ks_of := fun l => l;
  ks_to := fun l => l;
  ks_sum := fun l => (nmin l, nmax l);
  ss_of := fun l => l;
  ss_to := fun l => l;
  ss_sum := fun l => (nmin (map fst l), nmax (map snd l));
  s_eqb := fun a b => N.eqb (fst a) (fst b) && N.eqb (snd a) (snd b);
  l_eqb := bytes_eqb;
  ks_enc := fun l => CArr (map (fun n => CBytes (zeros n)) l);
  ks_dec := fun c => match c with CArr l => omapM dec_zeros l | _ => None end;
  ss_enc := fun l => CArr (map cpair l);
  ss_dec := dec_pairs;
  v_enc := CUint;
  v_dec := dec_uint;
  l_cid := fun l => l;
  l_of_cid := Some;
  nonce := []
}.

Lemma Nlen_zeros n : Nlen (zeros n) = n.
Proof. unfold zeros, Nlen. rewrite repeat_length. apply N2Nat.id. Qed.

#[local] Instance BTypesLaws : TypesLaws BTypes.
Proof.
  constructor; cbn; intros; try reflexivity.
  - now rewrite !N.eqb_refl.
  - apply bytes_eqb_eq.
  - apply (omapM_map_id N cbor (fun n => CBytes (zeros n)) dec_zeros). intros n. cbn [dec_zeros]. now rewrite Nlen_zeros.
  - apply (omapM_map_id _ cbor cpair dec_pair). intros []. reflexivity.
Qed.

#[local] Instance BLinkLaws : LinkLaws BTypes IExt.
Proof. constructor. reflexivity. Qed.

#[local] Instance BBackend : Backend BTypes := {
  Store := list bytes : Type;
  sblocks := fun s l => if existsb (bytes_eqb l) s then Some (l : bytes) else None;
  sget := fun s l => (if existsb (bytes_eqb l) s then Some (l : bytes) else None, s);
  sput := fun s d => (Some (d : @L BTypes), d :: s);
  digest := fun b => b : @L BTypes;
  Cache := unit : Type;
  cin := fun c l b => False;
  cget := fun c l => (None, c);
  cput := fun c l b => c
}.

#[local] Instance BBackendLaws : BackendLaws BTypes BBackend.
Proof.
  constructor; cbn; intros; try easy.
  - injection H as <- <-. exact H0.
  - injection H as <- <-. auto.
  - injection H as H <-. exact H.
  - injection H as <- <-. cbn. destruct (bytes_eqb x d); [|exact H0]. cbn. destruct (existsb (bytes_eqb x) s); [exact H0|discriminate].
  - injection H as <- <-. cbn in H0. destruct (bytes_eqb x d) eqn:E; cbn in H0; [|auto].
    injection H0 as <-. auto.
  - injection H as <- <-. split; [reflexivity|]. cbn. assert (bytes_eqb d d = true) by now apply bytes_eqb_eq. now rewrite H.
Qed.

Definition fresh_b : @sys BTypes BBackend :=
  {| sy_fo := {| fo_store := [] : @Store BTypes BBackend; fo_cache := tt : @Cache BTypes BBackend; fo_log := [] |};
     sy_se := {| se_b := builder_new ecfg esec; se_saved := [] |};
     sy_snaps := [] |}.

Lemma fresh_reach k : reach k ecfg esec fresh_b.
Proof. exists fresh_b. split; [|constructor]. split; [reflexivity|]. cbn. splits; try easy. Qed.

(** One entry with a key of [k] bytes. *)
Section Big.
  Variable k : N.
  Hypothesis Hk : (k < 1000000000)%N.

  Definition w0 : @world BTypes BBackend :=
    {| w_store := [] : @Store BTypes BBackend; w_cache := tt : @Cache BTypes BBackend; w_off := 0; w_log := [] |}.
  Definition lb : bytes := Eval vm_compute in
    match leaf_from_iter ecfg esec [(5, 0)%N] w0 with (Ok (x, _), _) => match li_link x with Some l => l | None => [] end | _ => [] end.
  Definition leafx : @LeafIndex BTypes :=
    {| li_link := Some (lb : @L BTypes); li_vbytes := 2; li_sealed := false; li_keys := [k] : @KS BTypes |}.
  Definition w1 : @world BTypes BBackend := Eval vm_compute in
    snd (leaf_from_iter ecfg esec [(5, 0)%N] w0).

  Lemma leaf_step : leaf_from_iter ecfg esec [(k, 0)%N] w0 = (Ok (leafx, []), w1).
  Proof. vm_compute. reflexivity. Qed.

  Lemma big_ok : index_ok (ILeaf leafx) = true.
  Proof.
    assert (E : (Nlen (zeros k) <? two64)%N = true) by (apply N.ltb_lt; rewrite Nlen_zeros; change two64 with 18446744073709551616%N; lia).
    unfold index_ok. cbn [ilevel]. rewrite andb_true_r.
    lazy -[Nlen N.ltb two64 zeros]. rewrite E. vm_compute. reflexivity.
  Qed.

  Definition big_raw : bytes := enc (enc_index (ILeaf leafx)).
  Lemma enc_head_len m n : (1 <= Nlen (enc_head m n) <= 9)%N.
  Proof.
    unfold enc_head.
    destruct (n <? 24)%N; [vm_compute; split; discriminate|]. destruct (n <? 256)%N; [vm_compute; split; discriminate|].
    destruct (n <? 65536)%N; [vm_compute; split; discriminate|]. destruct (n <? two32)%N; vm_compute; split; discriminate.
  Qed.
  Lemma big_raw_len : (k <= Nlen big_raw <= k + 1000)%N.
  Proof.
    assert (E : exists a b, big_raw = a ++ enc_head 2 (Nlen (zeros k)) ++ zeros k ++ b /\ (Nlen a + Nlen b <= 500)%N).
    { unfold big_raw. eexists (enc_head 5 4 ++ enc (ctext "keys") ++ enc_head 4 1), _. split.
      - unfold enc_index, cmap, leaf_fields, leafx. cbn [li_keys li_link li_sealed li_vbytes map ks_enc BTypes fst snd].
        cbn [enc flat_map fst snd map]. rewrite <- !app_assoc. rewrite ?app_nil_l. reflexivity.
      - vm_compute. discriminate. }
    destruct E as (a & b & -> & H). rewrite !Nlen_app, Nlen_zeros. pose proof (enc_head_len 2 k). lia.
  Qed.

  Lemma big_links : scrape_links big_raw [] = Ok [lb].
  Proof.
    unfold big_raw. rewrite scrape_links_enc; [|pose proof big_ok as H; unfold index_ok in H; now apply andb_true_iff in H].
    lazy -[zeros]. reflexivity.
  Qed.

  Definition big_data : bytes := x28 :: big_raw.
  Definition big_block : bytes := enc (block_cbor (w_off w1) [lb] (apply_keystream (index_key esec) nonce (w_off w1) big_data)).
  Definition big_event : event :=
    {| ev_leaf := false; ev_key := index_key esec; ev_off := w_off w1; ev_len := Nlen big_data; ev_raw := big_raw; ev_block := big_block |}.
  Definition w2 : world :=
    {| w_store := (big_block :: w_store w1 : @Store BTypes BBackend); w_cache := w_cache w1; w_off := (w_off w1 + Nlen big_data)%N; w_log := w_log w1 ++ [big_event] |}.

  Lemma big_persist : persist_branch ecfg esec [ILeaf leafx] w1 = (Ok (big_block : @L BTypes, Nlen big_block), w2).
  Proof.
    assert (Hd : Nlen big_data = (1 + Nlen big_raw)%N) by (unfold big_data, Nlen; cbn [List.length]; lia).
    pose proof big_raw_len as Hl.
    unfold persist_branch. unfold mbind at 1, lift.
    assert (E : from_iter_ipld [ILeaf leafx] (zstd_level ecfg) = Ok {| zs_data := big_data; zs_links := [lb] |}).
    { unfold from_iter_ipld. cbn [encode_items]. unfold index_bytes at 1. rewrite big_ok. cbn [rbind].
      fold big_raw. rewrite big_links. cbn [rbind app z_finish IExt List.concat]. rewrite app_nil_r. reflexivity. }
    rewrite E. unfold mbind at 1. unfold encrypt_block. cbn [zs_data zs_links]. unfold reserve.
    assert (E2 : (w_off w1 + Nlen big_data <? two64)%N = true).
    { apply N.ltb_lt. rewrite Hd. change (w_off w1) with 2%N. change two64 with 18446744073709551616%N. lia. }
    rewrite E2. unfold cbor_bytes.
    assert (E3 : cbor_ok (block_cbor (w_off w1) [lb] (apply_keystream (index_key esec) nonce (w_off w1) big_data)) = true).
    { unfold block_cbor. cbn [cbor_ok forallb]. rewrite apply_keystream_Nlen.
      assert (Nlen big_data <? two64 = true)%N as ->.
      { apply N.ltb_lt. rewrite Hd. change two64 with 18446744073709551616%N. lia. }
      vm_compute. reflexivity. }
    rewrite E3. cbn [rmap]. reflexivity.
  Qed.

  Definition big_branch : BranchIndex :=
    {| bi_level := 1; bi_count := 1; bi_sealed := false; bi_link := Some (big_block : @L BTypes);
       bi_sums := [(k, k)] : @SS BTypes; bi_kbytes := (0 + 0 + Nlen big_block)%N; bi_vbytes := 2 |}.
  Definition big_sys : sys :=
    {| sy_fo := {| fo_store := w_store w2; fo_cache := w_cache w2; fo_log := w_log w2 |};
       sy_se := {| se_b := {| b_root := Some (IBranch big_branch); b_off := w_off w2; b_sec := esec; b_cfg := ecfg |}; se_saved := [] |};
       sy_snaps := [] |}.

  Lemma big_new_branch : new_branch ecfg esec [ILeaf leafx] Packed w1 = (Ok big_branch, w2).
  Proof.
    unfold new_branch. cbn [Write.is_nil negb massert levels_desc]. unfold massert, ret. unfold mbind at 1 2 3.
    rewrite big_persist. unfold big_branch. remember big_block as bb. cbn - [N.min N.max].
    rewrite N.min_id, N.max_0_r. reflexivity.
  Qed.

  Lemma big_extend : exec (OExtend [(k, 0)%N]) fresh_b = (Ok tt, big_sys).
  Proof.
    assert (E : extend_above ecfg esec 1 None None [(k, 0)%N] w0 = (Ok (IBranch big_branch, []), w2)).
    { cbn [extend_above Write.is_nil massert]. unfold mbind at 1, ret at 1. unfold mbind at 1. unfold mbind at 1. rewrite leaf_step.
      unfold ret at 1. unfold mbind at 1. unfold climb_fuel. cbn [List.length].
      remember 1 as n eqn:En. cbn [climb Write.is_nil negb orb ilevel Nat.eqb andb Write.below]. subst n. unfold mbind at 1.
      assert (E1 : extend_branch ecfg esec [ILeaf leafx] 1 [] Packed w1 = (Ok (big_branch, []), w2)).
      { unfold extend_branch, extend_branch_with. cbn [Nat.ltb Nat.leb ilevel forallb Write.is_nil orb andb massert].
        unfold mbind at 1 2 3. unfold ret at 1 2 3. unfold mbind at 1.
        change (fill_children _ _ [ILeaf leafx] [] w1) with (Ok ([ILeaf leafx], @nil (@K BTypes * @V BTypes)), w1). unfold mbind at 1. rewrite big_new_branch. reflexivity. }
      change (S (ilevel (ILeaf leafx))) with 1. rewrite E1. reflexivity. }
    unfold exec, extend. cbn [sy_b sy_se fresh_b se_b sy_fo]. unfold run.
    change {| w_store := _; w_cache := _; w_off := _; w_log := _ |} with w0.
    change (extend_above _ _ _ _ _ _ w0) with (extend_above ecfg esec 1 None None [(k, 0)%N] w0). rewrite E. reflexivity.
  Qed.

  Lemma big_push : exec (OPush (k : @K BTypes) (0%N : @V BTypes)) fresh_b = (Ok tt, big_sys).
  Proof. exact big_extend. Qed.

  Lemma big_reach : reach anything ecfg esec big_sys.
  Proof.
    destruct (fresh_reach anything) as (s0 & H1 & H2). exists s0. split; [exact H1|].
    eapply hist_step; [exact H2| | |apply big_extend]; exact Logic.I.
  Qed.

  Lemma big_in : In big_event (fo_log (sy_fo big_sys)).
  Proof. cbn [big_sys sy_fo fo_log w2 w_log]. apply in_or_app. right. now left. Qed.

  Hypothesis Hbig : (max_capacity < k)%N.

  Lemma big_broken : deserialize_compressed (index_key esec) big_block = Err EZstd.
  Proof.
    destruct (C44_branch_partial ecfg esec ecfg_ok big_sys big_event big_reach big_in eq_refl) as (cs & _ & H).
    cbn [big_event ev_block ev_raw] in H. rewrite H. destruct (N.leb_spec (Nlen big_raw) max_capacity) as [Hl|]; [|reflexivity].
    exfalso. pose proof big_raw_len as [Hl2 _]. clear - Hl Hl2 Hbig. lia.
  Qed.

  Lemma eqb_self b : bytes_eqb b b = true.
  Proof. now apply bytes_eqb_eq. Qed.

  Lemma big_load o lg : load_branch_cached esec (big_block : @L BTypes) {| w_store := w_store w2; w_cache := w_cache w2; w_off := o; w_log := lg |}
               = (Err EZstd, {| w_store := w_store w2; w_cache := w_cache w2; w_off := o; w_log := lg |}).
  Proof.
    unfold load_branch_cached, mbind at 1, cache_get. cbn [cget BBackend w_cache set_cache].
    unfold mbind at 1, load_branch_from_link, mbind at 1, get_block. cbn [w_store set_cache w2 sget BBackend existsb].
    rewrite eqb_self. cbn [orb]. unfold mbind, lift. rewrite big_broken. reflexivity.
  Qed.
  Lemma big_stored : sblocks (fo_store (sy_fo big_sys)) (digest (ev_block big_event)) = Some (ev_block big_event).
  Proof.
    cbn [big_sys sy_fo fo_store w2 w_store big_event ev_block sblocks BBackend digest existsb]. rewrite eqb_self. reflexivity.
  Qed.
  Lemma big_get : fst (get (sy_fo big_sys) (snapshot (sy_b big_sys)) 0) = Err EZstd.
  Proof.
    unfold get, snapshot, sy_b. cbn [big_sys sy_se se_b b_root b_sec b_off sy_fo]. unfold read. cbn [fo_store fo_cache fo_log].
    unfold depth. cbn [ilevel big_branch bi_level get0 icount bi_count Nat.leb node_info_of bi_link]. unfold mbind at 1.
    rewrite big_load. reflexivity.
  Qed.
  Lemma big_collect : fst (collect (sy_fo big_sys) (snapshot (sy_b big_sys))) = Err EZstd.
  Proof.
    unfold collect, collect_from, snapshot, sy_b. cbn [big_sys sy_se se_b b_root b_sec b_off sy_fo]. unfold read. cbn [fo_store fo_cache fo_log].
    unfold depth. cbn [ilevel big_branch bi_level collect0 icount bi_count Nat.leb node_info_of bi_link]. unfold mbind at 1.
    rewrite big_load. reflexivity.
  Qed.
End Big.


(** A history of one successful operation, [push] of one entry whose key has 16
    MiB, by a stream whose configuration [Config::validate] accepts, with a store
    that accepts everything. The stream then has one entry, the last block that
    was written can not be decoded, and the entry can not be read. *)
Theorem C44_refuted :
  exists (T : Types) (X : Ext) (B : Backend T), TypesLaws T /\ ExtLaws X /\ LinkLaws T X /\ BackendLaws T B
  /\ config_validate ecfg = true
  /\ exists s s' key v e,
     reach no_loss ecfg esec s /\ exec (OPush key v) s = (Ok tt, s')
     /\ builder_count (sy_b s') = 1
     /\ In e (fo_log (sy_fo s')) /\ sblocks (fo_store (sy_fo s')) (digest (ev_block e)) = Some (ev_block e)
     /\ deserialize_compressed (index_key esec) (ev_block e) = Err EZstd
     /\ fst (get (sy_fo s') (snapshot (sy_b s')) 0) = Err EZstd
     /\ fst (collect (sy_fo s') (snapshot (sy_b s'))) = Err EZstd.
Proof.
  exists BTypes, IExt, BBackend. splits; [apply BTypesLaws|apply IExtLaws|apply BLinkLaws|apply BBackendLaws|reflexivity|].
  assert (H : exists k, (k < 1000000000 /\ max_capacity < k)%N) by (exists (max_capacity + 1)%N; split; vm_compute; reflexivity).
  destruct H as (k & H1 & H2).
  exists fresh_b, (big_sys k), k, 0%N, (big_event k). splits.
  - apply fresh_reach.
  - exact (big_push k H1).
  - reflexivity.
  - apply big_in.
  - apply big_stored.
  - now apply big_broken.
  - now apply big_get.
  - now apply big_collect.
Qed.

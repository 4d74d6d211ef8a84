(** store/zstd_dag_cbor_seq.rs: compressed and encrypted sequences of cbor items. *)
From Coq Require Import List NArith Lia Bool String.
From Coq Require Import Strings.Byte.
From Verif Require Import Base Cbor Types.
Import ListNotations.
Open Scope res_scope.

(** External algorithms: zstd, XChaCha20, CID parsing.

    A zstd encoder is described by the list of chunks written to it:
    [z_flushed level chunks] is [encoder.get_ref().len()] and
    [z_finish level chunks] the frame returned by [encoder.finish()]. *)
Class Ext := {
  z_flushed : N -> list bytes -> N;
  z_finish : N -> list bytes -> bytes;
  z_dec : bytes -> option bytes;
  keystream : bytes -> bytes -> N -> byte;       (* key, nonce, position *)
  cid_read : bytes -> option bytes               (* Cid::read_bytes *)
}.

Class ExtLaws (X : Ext) : Prop := {
  (* decompression inverts compression *)
  z_roundtrip : forall lvl chunks, z_dec (z_finish lvl chunks) = Some (List.concat chunks);
  (* a frame is never empty *)
  z_nonempty : forall lvl chunks, z_finish lvl chunks <> [];
  (* finishing only appends to what has been flushed *)
  z_finish_ge : forall lvl chunks, (z_flushed lvl chunks <= Nlen (z_finish lvl chunks))%N;
  cid_read_idem : forall b c, cid_read b = Some c -> cid_read c = Some c
}.

(** All links of the tree are valid CIDs. *)
Class LinkLaws (T : Types) (X : Ext) : Prop := {
  l_cid_read : forall l, cid_read (l_cid l) = Some (l_cid l)
}.

Section Seq.
  Context {T : Types} {X : Ext}.

  (** zstd_dag_cbor_seq.rs 51-56 *)
  Record zseq := { zs_data : bytes; zs_links : list bytes }.

  (** thread_local_zstd.rs 9: [MAX_CAPACITY] *)
  Definition max_capacity : N := (16 * 1024 * 1024)%N.

  (** thread_local_zstd.rs 29-55, 61-68 [decompress_and_transform]: the buffer never exceeds
      [MAX_CAPACITY]; a frame that does not fit is an error. *)
  Definition decompress (d : bytes) : res bytes :=
    match z_dec d with
    | None => Err EZstd
    | Some raw => if (max_capacity <? Nlen raw)%N then Err EZstd else Ok raw
    end.

  (** Encode one item. A number or length that does not fit its Rust type is an
      overflow panic; Rust values of that kind cannot exist. *)
  Definition cbor_bytes (c : cbor) : res bytes :=
    if cbor_ok c then Ok (enc c) else Panic POverflow.

  (** [BTreeSet<Cid>::insert]; the order of the set is not modelled. *)
  Definition add_link (ls : list bytes) (c : bytes) : list bytes :=
    if existsb (bytes_eqb c) ls then ls else ls ++ [c].
  Definition add_links (ls new : list bytes) : list bytes := fold_left add_link new ls.

  (** [visit_simple] of the visitor in [scrape_links], zstd_dag_cbor_seq.rs 498-511, applied to
      all simple items of a cbor item; [tags] are the tags around the item. *)
  Fixpoint item_links (tags : list N) (c : cbor) : res (list bytes) :=
    match c with
    | CTag t c' => item_links (tags ++ [t]) c'
    | CBytes b =>
        match tags with
        | [t] =>
            if (t =? 42)%N then
              match b with
              | x00 :: rest => match cid_read rest with Some cid => Ok [cid] | None => Err ELink end
              | _ => Err ELink
              end
            else Ok []
        | _ => Ok []
        end
    | CArr l => rmap (@List.concat bytes) (rmapM (item_links []) l)
    | CMap l =>
        rmap (@List.concat bytes)
          (rmapM (fun kv => a <- item_links [] (fst kv) ;;
                            b <- item_links [] (snd kv) ;; Ok (a ++ b)) l)
    | _ => Ok []
    end.

  (** zstd_dag_cbor_seq.rs 494-521 *)
  Definition scrape_links (data : bytes) (ls : list bytes) : res (list bytes) :=
    items <- ok_or (parse_seq data) ECbor ;;
    found <- rmapM (item_links []) items ;;
    Ok (add_links ls (List.concat found)).

  (** zstd_dag_cbor_seq.rs 94-119 ([from_iter] 64-91 is the same for [WriteCbor] items) *)
  Fixpoint encode_items {A} (e : A -> res bytes) (items : list A)
           (chunks : list bytes) (ls : list bytes) : res (list bytes * list bytes) :=
    match items with
    | [] => Ok (chunks, ls)
    | x :: items' =>
        b <- e x ;;
        ls' <- scrape_links b ls ;;
        encode_items e items' (chunks ++ [b]) ls'
    end.

  Definition index_bytes (i : Index) : res bytes :=
    if index_ok i then Ok (enc (enc_index i)) else Panic POverflow.

  Definition from_iter_ipld (items : list Index) (zlevel : N) : res zseq :=
    '(chunks, ls) <- encode_items index_bytes items [] [] ;;
    Ok {| zs_data := z_finish zlevel chunks; zs_links := ls |}.

  Definition from_iter (items : list V) (zlevel : N) : res zseq :=
    '(chunks, ls) <- encode_items (fun v => cbor_bytes (v_enc v)) items [] [] ;;
    Ok {| zs_data := z_finish zlevel chunks; zs_links := ls |}.

  (** State of the loop in [fill], zstd_dag_cbor_seq.rs 176-206. *)
  Record fill_st := {
    f_from : list (K * V);
    f_keys : list K;
    f_size : N;
    f_chunks : list bytes;
    f_links : list bytes;
    f_full : bool
  }.

  Fixpoint fill_loop (zlevel csize usize : N) (max_keys : nat) (from : list (K * V))
           (keys : list K) (size : N) (chunks ls : list bytes) : res fill_st :=
    match from with
    | [] => Ok {| f_from := []; f_keys := keys; f_size := size; f_chunks := chunks;
                  f_links := ls; f_full := false |}
    | (k, v) :: rest =>
        if Nat.leb max_keys (List.length keys) then
          Ok {| f_from := from; f_keys := keys; f_size := size; f_chunks := chunks;
                f_links := ls; f_full := false |}
        else
          b <- cbor_bytes (v_enc v) ;;
          if (usize <? Nlen b)%N then Err ETooLarge
          else if (usize <? size + Nlen b)%N then
            Ok {| f_from := from; f_keys := keys; f_size := size; f_chunks := chunks;
                  f_links := ls; f_full := true |}
          else
            ls' <- scrape_links b ls ;;
            let chunks' := chunks ++ [b] in
            if (csize <=? z_flushed zlevel chunks')%N then
              Ok {| f_from := rest; f_keys := keys ++ [k]; f_size := size + Nlen b;
                    f_chunks := chunks'; f_links := ls'; f_full := false |}
            else fill_loop zlevel csize usize max_keys rest (keys ++ [k]) (size + Nlen b) chunks' ls'
    end.

  (** zstd_dag_cbor_seq.rs 148-220 *)
  Definition fill (compressed : bytes) (from : list (K * V)) (keys : list K)
             (zlevel csize usize : N) (max_keys : nat)
    : res (zseq * bool * list K * list (K * V)) :=
    '(size, chunks, ls) <-
       match compressed with
       | [] => Ok (0%N, [], [])
       | _ =>
           raw <- decompress compressed ;;
           ls <- scrape_links raw [] ;;
           Ok (Nlen raw, [raw], ls)
       end ;;
    st <- fill_loop zlevel csize usize max_keys from keys size chunks ls ;;
    let data := z_finish zlevel (f_chunks st) in
    let full :=
      f_full st || (csize <=? Nlen data)%N
      || Nat.leb max_keys (List.length (f_keys st))
      || (usize <=? f_size st)%N in
    Ok ({| zs_data := data; zs_links := f_links st |}, full, f_keys st, f_from st).

  Definition v_dec_res (c : cbor) : res V := ok_or (v_dec c) ECbor.

  (** zstd_dag_cbor_seq.rs 314-319, 481-491 *)
  Definition zs_count (z : zseq) : res nat :=
    raw <- decompress (zs_data z) ;;
    items <- ok_or (parse_seq raw) ECbor ;;
    Ok (List.length items).

  (** zstd_dag_cbor_seq.rs 322-333 *)
  Fixpoint items_loop (fuel : nat) (bs : bytes) : res (list V) :=
    match bs with
    | [] => Ok []
    | _ =>
        match fuel with
        | O => NoFuel
        | S f =>
            '(c, rest) <- ok_or (checked_prefix bs) ECbor ;;
            v <- v_dec_res c ;;
            vs <- items_loop f rest ;;
            Ok (v :: vs)
        end
    end.
  Definition zs_items (z : zseq) : res (list V) :=
    raw <- decompress (zs_data z) ;; items_loop (List.length raw) raw.

  (** zstd_dag_cbor_seq.rs 336-347 *)
  Fixpoint items_ipld_loop (fuel : nat) (bs : bytes) : res (list Index) :=
    match bs with
    | [] => Ok []
    | _ =>
        match fuel with
        | O => NoFuel
        | S f =>
            '(c, rest) <- ok_or (checked_prefix bs) ECbor ;;
            i <- ok_or (dec_index c) ECbor ;;
            is <- items_ipld_loop f rest ;;
            Ok (i :: is)
        end
    end.
  Definition zs_items_ipld (z : zseq) : res (list Index) :=
    raw <- decompress (zs_data z) ;; items_ipld_loop (List.length raw) raw.

  (** zstd_dag_cbor_seq.rs 350-367 *)
  Fixpoint get_loop (i : nat) (bs : bytes) : res (option V) :=
    match bs with
    | [] => Ok None
    | _ =>
        '(c, rest) <- ok_or (checked_prefix bs) ECbor ;;
        match i with
        | O => rmap Some (v_dec_res c)
        | S i' => get_loop i' rest
        end
    end.
  Definition zs_get (z : zseq) (i : nat) : res (option V) :=
    raw <- decompress (zs_data z) ;; get_loop i raw.

  (** zstd_dag_cbor_seq.rs 465-472 *)
  Fixpoint shrink_to_fit (m : list bool) : list bool :=
    match m with
    | [] => []
    | b :: m' =>
        match shrink_to_fit m' with
        | [] => if b then [true] else []
        | m'' => b :: m''
        end
    end.

  (** zstd_dag_cbor_seq.rs 372-397 *)
  Fixpoint select_loop (take : list bool) (bs : bytes) : res (list V) :=
    match take with
    | [] => Ok []
    | b :: take' =>
        match bs with
        | [] => Ok []
        | _ =>
            '(c, rest) <- ok_or (checked_prefix bs) ECbor ;;
            if b then v <- v_dec_res c ;; vs <- select_loop take' rest ;; Ok (v :: vs)
            else select_loop take' rest
        end
    end.
  Definition zs_select (z : zseq) (take : list bool) : res (list V) :=
    match shrink_to_fit take with
    | [] => Ok []
    | take' => raw <- decompress (zs_data z) ;; select_loop take' raw
    end.

  (** XChaCha20: exclusive or with the keystream starting at [off]
      (zstd_dag_cbor_seq.rs 419-422, 435-440). The seek limits of the chacha20 crate are not
      modelled. *)
  Fixpoint apply_keystream (key : bytes) (nce : bytes) (off : N) (d : bytes) : bytes :=
    match d with
    | [] => []
    | b :: d' => bxor b (keystream key nce off) :: apply_keystream key nce (off + 1) d'
    end.

  (** [CipherOffset::reserve], stream_builder.rs 28-35 *)
  Definition reserve (off : N) (n : N) : res (N * N) :=
    if (off + n <? two64)%N then Ok (off, off + n)%N else Panic POverflow.

  (** [IpldNode], zstd_dag_cbor_seq.rs 447-462: a three element array. *)
  Definition block_cbor (off : N) (links : list bytes) (data : bytes) : cbor :=
    CArr [CUint off; CArr (map ccid links); CBytes data].

  (** zstd_dag_cbor_seq.rs 411-426; returns the block and the new cipher offset. The offset is
      reserved before the block is encoded. *)
  Definition into_encrypted (key nce : bytes) (off : N) (z : zseq) : res (bytes * N) :=
    '(o, off') <- reserve off (Nlen (zs_data z)) ;;
    b <- cbor_bytes (block_cbor o (zs_links z) (apply_keystream key nce o (zs_data z))) ;;
    Ok (b, off').

  Definition dec_cid (c : cbor) : option bytes :=
    match c with
    | CTag 42 (CBytes (x00 :: b)) => cid_read b
    | _ => None
    end%N.

  (** [DagCborCodec.decode::<IpldNode>(data)?.into_data()], zstd_dag_cbor_seq.rs 434 *)
  Definition decode_block (data : bytes) : option (N * list bytes * bytes) :=
    match checked_prefix data with
    | Some (CArr [CUint off; CArr links; CBytes d], _) =>
        match omapM dec_cid links with Some ls => Some (off, ls, d) | None => None end
    | _ => None
    end.

  (** zstd_dag_cbor_seq.rs 429-443 *)
  Definition decrypt (data key nce : bytes) : res (zseq * (N * N)) :=
    '(off, links, d) <- ok_or (decode_block data) ECbor ;;
    let end_ := (off + Nlen d)%N in
    if (end_ <? two64)%N then
      Ok ({| zs_data := apply_keystream key nce off d; zs_links := links |}, (off, end_))
    else Err ECipher.

  (** index.rs 431-440 *)
  Definition serialize_compressed (key : bytes) (off : N) (items : list Index) (zlevel : N)
    : res (bytes * N) :=
    z <- from_iter_ipld items zlevel ;; into_encrypted key nonce off z.

  (** index.rs 442-450 *)
  Definition deserialize_compressed (key data : bytes) : res (list Index * (N * N)) :=
    '(z, r) <- decrypt data key nonce ;;
    items <- zs_items_ipld z ;;
    Ok (items, r).
End Seq.

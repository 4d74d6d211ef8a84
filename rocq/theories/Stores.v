(** The stores of banyan-utils: banyan-utils/src/sqlite.rs, the block functions
    of banyan-utils/src/ipfs.rs, and the choice between stores of
    banyan-utils/src/bin/cli.rs 31-71.

    What is behind them is a parameter: the crate [ipfs_sqlite_block_store] as a
    machine with [get_block] and [put_block], the IPFS node as a machine that
    answers requests. Simplifications: the threads [IpfsStore] starts for each
    request are not modelled (each is joined at once); neither are temporary
    pins and aliases, which the wrapper does not use. *)
From Coq Require Import List NArith Lia Bool String.
From Coq Require Import Strings.Byte.
From Verif Require Import Base Cbor Types MemStore Links.
Import ListNotations.

Section Stores.
  (** SHA-256: [multihash::Code::Sha2_256.digest], tags.rs 41-49. *)
  Context (sha : bytes -> sha256).

  (** ** sqlite.rs *)

  (** [BlockStore] of ipfs_sqlite_block_store, behind a mutex (sqlite.rs 11-18). *)
  Record block_store := {
    bs_st : Type;
    bs_get : bs_st -> cid -> res (option bytes) * bs_st;
    bs_put : bs_st -> cid -> bytes -> res unit * bs_st
  }.

  (** [SqliteStore::get], sqlite.rs 24-33 *)
  Definition sq_get (S : block_store) (s : bs_st S) (l : sha256) : res bytes * bs_st S :=
    match bs_get S s (cid_of_sha l) with
    | (Ok (Some d), s') => (Ok d, s')
    | (Ok None, s') => (Err EMissing, s')
    | (Err e, s') => (Err e, s')
    | (Panic p, s') => (Panic p, s')
    | (NoFuel, s') => (NoFuel, s')
    end.

  (** [SqliteStore::put], sqlite.rs 39-46 *)
  Definition sq_put (S : block_store) (s : bs_st S) (d : bytes) : res sha256 * bs_st S :=
    let digest := sha d in
    match bs_put S s (cid_of_sha digest) d with
    | (Ok _, s') => (Ok digest, s')
    | (Err e, s') => (Err e, s')
    | (Panic p, s') => (Panic p, s')
    | (NoFuel, s') => (NoFuel, s')
    end.

  (** As a store for [MemCache] and the rest of banyan. *)
  Definition sq_inner (S : block_store) : inner sha256 :=
    {| i_st := bs_st S; i_get := sq_get S; i_put := sq_put S |}.

  (** ** ipfs.rs *)

  (** An answer over HTTP: no answer at all, or a status and a body. *)
  Definition answer := option (N * bytes).
  (** The node at localhost:5001: [block/get] and [block/put] with the format
      [cbor] and no pin. *)
  Record node := {
    n_st : Type;
    n_get : n_st -> cid -> answer * n_st;
    n_put : n_st -> bytes -> answer * n_st
  }.
  (** [json()] to [IpfsBlockPutResponseIo] (ipfs.rs 157-161), the field [Key]; and
      the decoders of text forms other than base 32. *)
  Context (json_key : bytes -> option bytes) (other_base base58 : bytes -> option bytes).

  (** [block_get], ipfs.rs 11-19: the status is not looked at. *)
  Definition block_get (nd : node) (s : n_st nd) (c : cid) : res bytes * n_st nd :=
    match n_get nd s c with
    | (Some (_, body), s') => (Ok body, s')
    | (None, s') => (Err EOther, s')
    end.

  (** [block_put], ipfs.rs 119-132 *)
  Definition block_put (nd : node) (s : n_st nd) (d : bytes) : res cid * n_st nd :=
    match n_put nd s d with
    | (Some (_, body), s') =>
        match json_key body with
        | Some key =>
            match cid_of_text other_base base58 key with
            | Some c => (Ok c, s')
            | None => (Err EOther, s')
            end
        | None => (Err EOther, s')
        end
    | (None, s') => (Err EOther, s')
    end.

  (** [IpfsStore::get], ipfs.rs 138-143 *)
  Definition ip_get (nd : node) (s : n_st nd) (l : sha256) : res bytes * n_st nd :=
    block_get nd s (cid_of_sha l).

  (** [IpfsStore::put], ipfs.rs 147-154 *)
  Definition ip_put (nd : node) (s : n_st nd) (d : bytes) : res sha256 * n_st nd :=
    match block_put nd s d with
    | (Ok c, s') =>
        if negb (cid_code c =? 0x12)%N then (Panic (PAssert "cid.hash().code() == 0x12"), s')
        else if negb (Nat.eqb (List.length (cid_digest c)) 32)
             then (Panic (PAssert "cid.hash().digest().len() == 32"), s')
        else match sha_of_cid c with
             | Some l => (Ok l, s')
             | None => (Err EOther, s')
             end
    | (Err e, s') => (Err e, s')
    | (Panic p, s') => (Panic p, s')
    | (NoFuel, s') => (NoFuel, s')
    end.

  Definition ip_inner (nd : node) : inner sha256 :=
    {| i_st := n_st nd; i_get := ip_get nd; i_put := ip_put nd |}.
End Stores.

(** Specification side: histories of a stream. A forest, one stream builder with
    its open transactions, and the snapshots that were taken; any sequence of
    public operations on them, with any outcome, interleaved with a store that
    loses blocks and a cache that drops entries. *)
From Coq Require Import List NArith ZArith Lia Bool String.
From Verif Require Import Base Cbor Types Seq Query World Read Write Api Iter.
Import ListNotations.

Section History.
  Context {T : Types} {X : Ext} {B : Backend T}.

  Record sys := {
    sy_fo : Forest;
    sy_se : Session;
    sy_snaps : list Tree
  }.

  Definition sy_b (s : sys) : Builder := se_b (sy_se s).

  (** Reading operations; those on trees are applied to a snapshot. *)
  Inductive reading :=
  | RGet (offset : nat)
  | RCollectFrom (offset : nat)
  | RIsPacked
  | RLeftRoots
  | RDumpGraph
  | RChunks (m : mode) (q : Query) (n : nat)     (* the first n items of a chunk iterator *)
  | RIndexes (m : mode) (q : Query) (n : nat).   (* the first n items of an index iterator *)

  Inductive op :=
  | OExtend (items : list (K * V))
  | OPush (k : K) (v : V)
  | OExtendUnpacked (items : list (K * V))
  | OPack
  | ORetain (q : Query)
  | ORepair
  | OBegin | OCommit | ODrop          (* stream transactions *)
  | OSnapshot
  | OReload (n : nat)                 (* continue from the link of the n-th snapshot *)
  | OLoad (n : nat)                   (* load_tree from that link: a new snapshot *)
  | ORead (n : nat) (r : reading)     (* read the n-th snapshot *)
  | OCheck                            (* check_invariants *)
  | OLose (s : Store)                 (* the store now is [s], with some blocks gone *)
  | OEvict (c : Cache)                (* the cache now is [c], with some entries gone *)
  | OOthers (s : Store) (c : Cache).  (* other users of the forest added blocks to the store,
                                         and branches to the cache *)

  Definition with_b (s : sys) (fo : Forest) (b : Builder) : sys :=
    {| sy_fo := fo; sy_se := {| se_b := b; se_saved := se_saved (sy_se s) |}; sy_snaps := sy_snaps s |}.
  Definition with_fo (s : sys) (fo : Forest) : sys :=
    {| sy_fo := fo; sy_se := sy_se s; sy_snaps := sy_snaps s |}.

  Definition void {A} (r : res A) : res unit := rmap (fun _ => tt) r.

  Definition do_read (fo : Forest) (t : Tree) (r : reading) : res unit * Forest :=
    match r with
    | RGet o => let '(r, fo) := get fo t o in (void r, fo)
    | RCollectFrom o => let '(r, fo) := collect_from fo t o in (void r, fo)
    | RIsPacked => let '(r, fo) := is_packed fo t in (void r, fo)
    | RLeftRoots => let '(r, fo) := left_roots fo t in (void r, fo)
    | RDumpGraph => let '(r, fo) := dump_graph fo t (fun _ i => i) in (void r, fo)
    | RChunks Forward q n => let '(_, fo, _) := take_chunks n fo (iter_filtered_chunked t q (fun _ => tt)) in (Ok tt, fo)
    | RChunks Backward q n => let '(_, fo, _) := take_chunks n fo (iter_filtered_chunked_reverse t q (fun _ => tt)) in (Ok tt, fo)
    | RIndexes Forward q n => let '(_, fo, _) := take_indexes n fo (iter_index t q) in (Ok tt, fo)
    | RIndexes Backward q n => let '(_, fo, _) := take_indexes n fo (iter_index_reverse t q) in (Ok tt, fo)
    end.

  Definition tree_link (t : Tree) : option L :=
    match t with Some (i, _, _) => ilink i | None => None end.

  (** The effect of one operation and its outcome. *)
  Definition exec (o : op) (s : sys) : res unit * sys :=
    let fo := sy_fo s in
    let b := sy_b s in
    match o with
    | OExtend items => let '(r, fo, b) := extend fo b items in (r, with_b s fo b)
    | OPush k v => let '(r, fo, b) := push fo b k v in (r, with_b s fo b)
    | OExtendUnpacked items => let '(r, fo, b) := extend_unpacked fo b items in (r, with_b s fo b)
    | OPack => let '(r, fo, b) := pack fo b in (r, with_b s fo b)
    | ORetain q => let '(r, fo, b) := retain fo b q in (r, with_b s fo b)
    | ORepair => let '(r, fo, b) := repair fo b in (void r, with_b s fo b)
    | OBegin => (Ok tt, {| sy_fo := fo; sy_se := tx_begin (sy_se s); sy_snaps := sy_snaps s |})
    | OCommit => (Ok tt, {| sy_fo := fo; sy_se := tx_commit (sy_se s); sy_snaps := sy_snaps s |})
    | ODrop => (Ok tt, {| sy_fo := fo; sy_se := tx_drop (sy_se s); sy_snaps := sy_snaps s |})
    | OSnapshot =>
        (Ok tt, {| sy_fo := fo; sy_se := sy_se s; sy_snaps := sy_snaps s ++ [snapshot b] |})
    | OReload n =>
        match obind (nth_error (sy_snaps s) n) tree_link with
        | Some l =>
            match load_stream_builder fo (b_sec b) (b_cfg b) l with
            | (Ok b', fo) =>
                (Ok tt, {| sy_fo := fo; sy_se := {| se_b := b'; se_saved := [] |}; sy_snaps := sy_snaps s |})
            | (r, fo) => (failed r, with_fo s fo)
            end
        | None => (Ok tt, s)
        end
    | OLoad n =>
        match obind (nth_error (sy_snaps s) n) tree_link with
        | Some l =>
            match load_tree fo (b_sec b) l with
            | (Ok t, fo) => (Ok tt, {| sy_fo := fo; sy_se := sy_se s; sy_snaps := sy_snaps s ++ [t] |})
            | (r, fo) => (failed r, with_fo s fo)
            end
        | None => (Ok tt, s)
        end
    | ORead n r =>
        match nth_error (sy_snaps s) n with
        | Some t => let '(r, fo) := do_read fo t r in (r, with_fo s fo)
        | None => (Ok tt, s)
        end
    | OCheck => let '(r, fo) := check_invariants fo b in (void r, with_fo s fo)
    | OLose st => (Ok tt, with_fo s {| fo_store := st; fo_cache := fo_cache fo; fo_log := fo_log fo |})
    | OEvict c => (Ok tt, with_fo s {| fo_store := fo_store fo; fo_cache := c; fo_log := fo_log fo |})
    | OOthers st c => (Ok tt, with_fo s {| fo_store := st; fo_cache := c; fo_log := fo_log fo |})
    end.

  Definition branch_root (t : Tree) : Prop :=
    match t with Some (ILeaf _, _, _) => False | _ => True end.

  (** [b] is what a reader with the index key [key] gets for the link [l]. *)
  Definition decodes (key : bytes) (l : L) (b : Branch) : Prop :=
    exists blk, l = digest blk
      /\ deserialize_compressed key blk = Ok (br_children b, br_range b) /\ br_children b <> [].

  (** [l] is the link of a block that a reader with the index key [key] cannot
      read: what it decrypts to does not decompress. *)
  Definition foreign (key : bytes) (l : L) : Prop :=
    forall blk z r, l = digest blk -> decrypt blk key nonce = Ok (z, r) -> z_dec (zs_data z) = None.

  (** What store and cache may do on their own. Other users of the forest may
      add any blocks, under their digests; what they leave in the cache for a
      link must be what this stream would have decoded, unless it cannot read
      that block (the cache is keyed by the link alone,
      store/branch_cache.rs 30-60). Links are only loaded when they
      are links of branches: a tree that is a single leaf has no loadable link
      (see the property C17). *)
  Definition op_ok (o : op) (s : sys) : Prop :=
    match o with
    | OLose st => forall l d, sblocks st l = Some d -> sblocks (fo_store (sy_fo s)) l = Some d
    | OEvict c => forall l b, cin c l b -> cin (fo_cache (sy_fo s)) l b
    | OOthers st c =>
        (forall l d, sblocks (fo_store (sy_fo s)) l = Some d -> sblocks st l = Some d)
        /\ (forall l d, sblocks st l = Some d -> l = digest d)
        /\ (forall l b, cin c l b -> cin (fo_cache (sy_fo s)) l b
             \/ decodes (index_key (b_sec (sy_b s))) l b \/ foreign (index_key (b_sec (sy_b s))) l)
    | OReload n | OLoad n => forall t, nth_error (sy_snaps s) n = Some t -> branch_root t
    | _ => True
    end.

  (** Kinds of histories. *)
  Record kind := { k_lose : bool; k_repair : bool; k_reload : bool }.
  Definition op_in (k : kind) (o : op) : Prop :=
    match o with
    | OLose _ => k_lose k = true
    | ORepair => k_repair k = true
    | OReload _ => k_reload k = true
    | _ => True
    end.

  Inductive hist (k : kind) (s0 : sys) : sys -> Prop :=
  | hist_start : hist k s0 s0
  | hist_step s o r s' :
      hist k s0 s -> op_ok o s -> op_in k o -> exec o s = (r, s') -> hist k s0 s'.

  (** A new stream in a forest in which every block is filed under its digest
      and the cache returns for a link, if anything, what the stream would have
      decoded, unless it cannot read the block. *)
  Definition start (cfg : Config) (sec : Secrets) (s : sys) : Prop :=
    s = {| sy_fo := sy_fo s; sy_se := {| se_b := builder_new cfg sec; se_saved := [] |}; sy_snaps := [] |}
    /\ (forall l d, sblocks (fo_store (sy_fo s)) l = Some d -> l = digest d)
    /\ (forall l b, cin (fo_cache (sy_fo s)) l b ->
          decodes (index_key sec) l b \/ foreign (index_key sec) l)
    /\ fo_log (sy_fo s) = [].

  (** [s] is reachable by a history of kind [k]. *)
  Definition reach (k : kind) (cfg : Config) (sec : Secrets) (s : sys) : Prop :=
    exists s0, start cfg sec s0 /\ hist k s0 s.

  (** Every kind of operation. *)
  Definition anything : kind := {| k_lose := true; k_repair := true; k_reload := true |}.
  (** Everything but repair. *)
  Definition no_repair : kind := {| k_lose := true; k_repair := false; k_reload := true |}.
  (** The store keeps its blocks; no repair. *)
  Definition no_loss : kind := {| k_lose := false; k_repair := false; k_reload := true |}.
  (** One builder from the start. *)
  Definition no_reload : kind := {| k_lose := true; k_repair := true; k_reload := false |}.
End History.

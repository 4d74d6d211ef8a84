(** The public operations on stream builders and trees: tree.rs,
    stream_builder.rs. *)
From Coq Require Import List NArith ZArith Lia Bool String.
From Coq Require Import Strings.Byte.
From Verif Require Import Base Cbor Types Seq Query World Read Write.
Import ListNotations.

Section Api.
  Context {T : Types} {X : Ext} {B : Backend T}.

  (** forest/mod.rs 49-57: store and branch cache (and the ghost log of all
      blocks written, see World.v). A [Transaction] (mod.rs 99-103) has a reader
      and a writer; here both are the one store, i.e. what the writer accepted
      can be read back at once, as with [MemStore] in banyan/tests. Other writers
      are in Transaction.v. *)
  Record Forest := {
    fo_store : Store;
    fo_cache : Cache;
    fo_log : list event
  }.

  (** stream_builder.rs 42-54, 83-87 *)
  Record Builder := {
    b_root : option Index;
    b_off : N;
    b_sec : Secrets;
    b_cfg : Config
  }.

  (** tree.rs 28-36: a snapshot, [None] for an empty tree. *)
  Definition Tree := option (Index * Secrets * N).

  Definition set_root (b : Builder) (r : option Index) : Builder :=
    {| b_root := r; b_off := b_off b; b_sec := b_sec b; b_cfg := b_cfg b |}.

  (** stream_builder.rs 116-119 *)
  Definition builder_new (cfg : Config) (sec : Secrets) : Builder :=
    {| b_root := None; b_off := 0; b_sec := sec; b_cfg := cfg |}.

  (** stream_builder.rs 134-145 *)
  Definition snapshot (b : Builder) : Tree :=
    match b_root b with
    | Some r => Some (r, b_sec b, b_off b)
    | None => None
    end.

  (** stream_builder.rs 147-149 *)
  Definition builder_link (b : Builder) : option L :=
    match b_root b with Some r => ilink r | None => None end.

  (** stream_builder.rs 161-168 *)
  Definition builder_count (b : Builder) : nat :=
    match b_root b with Some r => icount r | None => 0 end.

  (** tree.rs 67-75 *)
  Definition tree_count (t : Tree) : nat :=
    match t with Some (i, _, _) => icount i | None => 0 end.

  (** Run a computation on the forest and the cipher offset of the builder. *)
  Definition run {A} (fo : Forest) (b : Builder) (m : M A) : res A * Forest * Builder :=
    let '(r, w) := m {| w_store := fo_store fo; w_cache := fo_cache fo;
                        w_off := b_off b; w_log := fo_log fo |} in
    (r, {| fo_store := w_store w; fo_cache := w_cache w; fo_log := w_log w |},
        {| b_root := b_root b; b_off := w_off w; b_sec := b_sec b; b_cfg := b_cfg b |}).

  (** Run a computation that only reads. *)
  Definition read {A} (fo : Forest) (m : M A) : res A * Forest :=
    let '(r, w) := m {| w_store := fo_store fo; w_cache := fo_cache fo;
                        w_off := 0; w_log := fo_log fo |} in
    (r, {| fo_store := w_store w; fo_cache := w_cache w; fo_log := w_log w |}).

  (** Results other than [Ok] at another type. *)
  Definition failed {A C} (r : res A) : res C :=
    match r with
    | Ok _ => NoFuel
    | Err e => Err e
    | Panic p => Panic p
    | NoFuel => NoFuel
    end.

  (** tree.rs 498-507 *)
  Definition collect_from (fo : Forest) (t : Tree) (offset : nat)
    : res (list (option (K * V))) * Forest :=
    match t with
    | Some (i, sec, _) => read fo (collect0 sec (depth i) i offset)
    | None => (Ok [], fo)
    end.

  (** tree.rs 491-494 *)
  Definition collect (fo : Forest) (t : Tree) := collect_from fo t 0.

  (** tree.rs 478-487 *)
  Definition get (fo : Forest) (t : Tree) (offset : nat) : res (option (K * V)) * Forest :=
    match t with
    | Some (i, sec, _) => read fo (get0 sec (depth i) i offset)
    | None => (Ok None, fo)
    end.

  (** tree.rs 292-298 *)
  Definition is_packed (fo : Forest) (t : Tree) : res bool * Forest :=
    match t with
    | Some (i, sec, _) => read fo (is_packed0 sec (depth i) i)
    | None => (Ok true, fo)
    end.

  (** tree.rs 277-290 *)
  Definition check_invariants (fo : Forest) (b : Builder) : res (list violation) * Forest :=
    match b_root b with
    | Some i => read fo (check_invariants0 (b_sec b) (b_cfg b) (depth i) i)
    | None => (Ok [], fo)
    end.

  (** tree.rs 242-247, read.rs 665-670 *)
  Definition roots (fo : Forest) (b : Builder) : res (list Index) * Forest :=
    match b_root b with
    | Some i =>
        let '(r, fo) := read fo (roots0 (b_sec b) (depth i) i None) in (rmap fst r, fo)
    | None => (Ok [], fo)
    end.

  (** tree.rs 250-258 *)
  Definition left_roots (fo : Forest) (t : Tree) : res (list Tree) * Forest :=
    match t with
    | Some (i, sec, _) =>
        let '(r, fo) := read fo (left_roots0 sec (depth i) i) in
        (rmap (map (fun x => Some (x, sec, (two64 - 1)%N))) r, fo)
    | None => (Ok [], fo)
    end.

  (** tree.rs 139-148 *)
  Definition dump_graph {S} (fo : Forest) (t : Tree) (f : nat -> Index -> S)
    : res (list (nat * nat) * list (nat * S)) * Forest :=
    match t with
    | Some (i, sec, _) => read fo (dump_graph0 sec f (depth i) None 0 i)
    | None => (Err EEmpty, fo)
    end.

  (** tree.rs 108-121 *)
  Definition load_stream_builder (fo : Forest) (sec : Secrets) (cfg : Config) (l : L)
    : res Builder * Forest :=
    let '(r, fo) := read fo (create_index_from_link sec (branch_sealed cfg) l) in
    (rmap (fun p => {| b_root := Some (fst p); b_off := snd (snd p); b_sec := sec; b_cfg := cfg |}) r, fo).

  (** tree.rs 123-128 *)
  Definition load_tree (fo : Forest) (sec : Secrets) (l : L) : res Tree * Forest :=
    let '(r, fo) := read fo (create_index_from_link sec (fun _ _ => true) l) in
    (rmap (fun p => Some (fst p, sec, snd (snd p))) r, fo).

  (** tree.rs 558-578 *)
  Definition extend (fo : Forest) (b : Builder) (items : list (K * V)) : res unit * Forest * Builder :=
    match items with
    | [] => (Ok tt, fo, b)
    | _ =>
        let '(r, fo, b) :=
          run fo b (extend_above (b_cfg b) (b_sec b) (node_depth (b_root b)) (b_root b) None items) in
        match r with
        | Ok (i, _) => (Ok tt, fo, set_root b (Some i))
        | r => (failed r, fo, b)
        end
    end.

  (** tree.rs 546-553 *)
  Definition push (fo : Forest) (b : Builder) (k : K) (v : V) : res unit * Forest * Builder :=
    extend fo b [(k, v)].

  (** tree.rs 589-599 *)
  Definition extend_unpacked (fo : Forest) (b : Builder) (items : list (K * V))
    : res unit * Forest * Builder :=
    let '(r, fo, b) := run fo b (extend_unpacked0 (b_cfg b) (b_sec b) (b_root b) items) in
    match r with
    | Ok i => (Ok tt, fo, set_root b i)
    | r => (failed r, fo, b)
    end.

  (** tree.rs 532-543 *)
  Definition pack (fo : Forest) (b : Builder) : res unit * Forest * Builder :=
    let initial := snapshot b in
    match roots fo b with
    | (Ok rs, fo) =>
        let '(r, fo, b) := run fo b (tree_from_roots (b_cfg b) (b_sec b) rs) in
        match r with
        | Ok i =>
            let b := set_root b i in
            match collect_from fo initial (builder_count b) with
            | (Ok l, fo) =>
                match omapM (fun x => x) l with
                | Some remainder => extend fo b remainder
                | None => (Err EPurged, fo, b)
                end
            | (r, fo) => (failed r, fo, b)
            end
        | r => (failed r, fo, b)
        end
    | (r, fo) => (failed r, fo, b)
    end.

  (** tree.rs 611-623 *)
  Definition retain (fo : Forest) (b : Builder) (q : Query) : res unit * Forest * Builder :=
    match b_root b with
    | None => (Ok tt, fo, b)
    | Some i =>
        let '(r, fo, b) := run fo b (retain0 (b_cfg b) (b_sec b) q (depth i) 0 i None) in
        match r with
        | Ok (i', _) => (Ok tt, fo, set_root b (Some i'))
        | r => (failed r, fo, b)
        end
    end.

  (** tree.rs 632-641 *)
  Definition repair (fo : Forest) (b : Builder) : res (list report) * Forest * Builder :=
    match b_root b with
    | None => (Ok [], fo, b)
    | Some i =>
        let '(r, fo, b) := run fo b (repair0 (b_cfg b) (b_sec b) (depth i) i None) in
        match r with
        | Ok (i', rep, _) => (Ok rep, fo, set_root b (Some i'))
        | r => (failed r, fo, b)
        end
    end.

  (** ** Stream transactions (stream_builder.rs 177-181, 208-246)

      A transaction remembers the root; dropping it without [commit] restores
      the root. Transactions nest, since a transaction dereferences to its
      builder. The state is the builder and the remembered roots, innermost
      first. *)
  Record Session := { se_b : Builder; se_saved : list (option Index) }.

  Definition tx_begin (s : Session) : Session :=
    {| se_b := se_b s; se_saved := b_root (se_b s) :: se_saved s |}.
  Definition tx_commit (s : Session) : Session :=
    {| se_b := se_b s; se_saved := tl (se_saved s) |}.
  Definition tx_drop (s : Session) : Session :=
    match se_saved s with
    | [] => s
    | r :: rs => {| se_b := set_root (se_b s) r; se_saved := rs |}
    end.
End Api.

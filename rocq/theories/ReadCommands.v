(** The commands of banyan-utils, bin/cli.rs, that read trees: dump-values,
    stream, filter and graph. (dump is [DumpTree.dump] of a loaded tree.)

    Simplifications: the text of the printed lines is not modelled, only what is
    in them. [stream_filtered] is a stream of the same items as [iter_filtered],
    see Iter.v. *)
From Coq Require Import List NArith ZArith Lia Bool String Arith.
From Verif Require Import Base Cbor Types Seq Query World Read Write Api Iter DumpTree Cli.
Import ListNotations.
Open Scope list_scope.

Section ReadCommands.
  Context {T : Types} {X : Ext} {B : Backend T}.
  Notation item := (nat * K * V)%type.

  (** The items up to the end of an iterator or its first error. [fuel] bounds
      the number of chunks. *)
  Fixpoint each {E} (fuel : nat) (fo : Forest) (it : chunk_iter E) : list item * res unit * Forest :=
    match fuel with
    | O => ([], NoFuel, fo)
    | S fuel' =>
        match next_chunk fo it with
        | (None, fo, _) => ([], Ok tt, fo)
        | (Some (Ok c), fo, it) => let '(ls, r, fo) := each fuel' fo it in (c_data c ++ ls, r, fo)
        | (Some r, fo, _) => ([], failed r, fo)
        end
    end.

  (** The items of [iter_filtered] and [iter_from], tree.rs 355-391. Every chunk has entries of
      the tree. *)
  Definition items (fo : Forest) (t : Tree) (q : Query) : list item * res unit * Forest :=
    each (S (tree_count t)) fo (iter_filtered_chunked t q (fun _ => tt)).

  (** cli.rs 373-380, dump-values: an error ends the program *)
  Definition cmd_dump_values (sec : Secrets) (root : L) (fo : Forest) : list item * res unit * Forest :=
    match load_tree fo sec root with
    | (Ok t, fo) => items fo t all_query
    | (r, fo) => ([], failed r, fo)
    end.

  (** [if i % 1000 == 0] in the loops of stream and filter; [i] numbers the items. *)
  Fixpoint sampled {A} (m i : nat) (l : list A) : list A :=
    match l with
    | [] => []
    | x :: l' => if Nat.eqb (i mod m) 0 then x :: sampled m (S i) l' else sampled m (S i) l'
    end.

  (** cli.rs 393-398 and 477-482: [while let Some((i, Ok(v))) = stream.next().await].
      An error ends the loop, and the program goes on. *)
  Definition print_stream (fo : Forest) (t : Tree) (q : Query) : list item * res unit * Forest :=
    let '(ls, r, fo) := items fo t q in
    (sampled 1000 0 ls, match r with Err _ => Ok tt | r => r end, fo).

  (** cli.rs 390-400 *)
  Definition cmd_stream (sec : Secrets) (root : L) (fo : Forest) : list item * res unit * Forest :=
    match load_tree fo sec root with
    | (Ok t, fo) => print_stream fo t all_query
    | (r, fo) => ([], failed r, fo)
    end.

  (** cli.rs 466-483; [q] is the query for the tags, see C78. What dump prints
      comes first. *)
  Definition cmd_filter (q : Query) (root : L) (fo : Forest) : list line * list item * res unit * Forest :=
    match load_stream_builder fo default_secrets config_debug root with
    | (Ok b, fo) =>
        match dump fo (snapshot b) with
        | (ls, Ok _, fo) => let '(is, r, fo) := print_stream fo (snapshot b) q in (ls, is, r, fo)
        | (ls, r, fo) => (ls, [], failed r, fo)
        end
    | (r, fo) => ([], [], failed r, fo)
    end.

  (** * graph *)

  (** dump.rs 18-31. The levels and sizes are not used. *)
  Inductive descriptor :=
  | DBranch (id : nat) (sealed : bool)
  | DLeaf (id items : nat) (sealed : bool).

  (** dump.rs 114-130 *)
  Definition describe (id : nat) (i : Index) : descriptor :=
    match i with
    | IBranch x => DBranch id (bi_sealed x)
    | ILeaf x => DLeaf id (List.length (leaf_keys x)) (li_sealed x)
    end.

  (** What dot prints of a node: its name, label, shape and colour. *)
  Inductive shape := Box | Circle.
  Inductive statement :=
  | Node (name label : nat) (sh : shape) (grey : bool)
  | Edge (from to : nat).

  (** dump.rs 38-44 *)
  Definition node_id (n : descriptor) : nat := match n with DBranch id _ => id | DLeaf id _ _ => id end.
  (** dump.rs 45-51 *)
  Definition node_label (n : descriptor) : nat := match n with DBranch id _ => id | DLeaf _ items _ => items end.
  (** dump.rs 53-59 *)
  Definition node_shape (n : descriptor) : shape := match n with DBranch _ _ => Box | DLeaf _ _ _ => Circle end.
  (** dump.rs 61-83 *)
  Definition node_grey (n : descriptor) : bool := match n with DBranch _ s => s | DLeaf _ _ s => s end.

  (** [self.nodes[&id]], dump.rs 95-101 *)
  Definition node_at (ns : list (nat * descriptor)) (id : nat) : res descriptor :=
    match find (fun n => Nat.eqb (fst n) id) ns with
    | Some n => Ok (snd n)
    | None => Panic (PAssert "no entry found for key")
    end.
  (** [dot::render]: the nodes, dump.rs 87-89, then the edges, 91-93. *)
  Fixpoint render_edges (ns : list (nat * descriptor)) (es : list (nat * nat)) : list statement * res unit :=
    match es with
    | [] => ([], Ok tt)
    | (a, b) :: es' =>
        match node_at ns a, node_at ns b with
        | Ok x, Ok y => let '(ls, r) := render_edges ns es' in (Edge (node_id x) (node_id y) :: ls, r)
        | Ok _, r => ([], failed r)
        | r, _ => ([], failed r)
        end
    end.
  Definition render (es : list (nat * nat)) (ns : list (nat * descriptor)) : list statement * res unit :=
    let '(ls, r) := render_edges ns es in
    (map (fun n => Node (node_id (snd n)) (node_label (snd n)) (node_shape (snd n)) (node_grey (snd n))) ns ++ ls, r).

  (** cli.rs 364-368, dump.rs 104-134 *)
  Definition cmd_graph (sec : Secrets) (root : L) (fo : Forest) : list statement * res unit * Forest :=
    match load_tree fo sec root with
    | (Ok t, fo) =>
        match dump_graph fo t describe with
        | (Ok (es, ns), fo) => let '(ls, r) := render es ns in (ls, r, fo)
        | (r, fo) => ([], failed r, fo)
        end
    | (r, fo) => ([], failed r, fo)
    end.
End ReadCommands.

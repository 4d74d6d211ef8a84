(** The commands of banyan-utils, bin/cli.rs, that make trees: build, pack,
    forget and repair.

    Simplifications: of what is printed only the lines of [dump] are modelled, not
    the progress messages and not [println!("{:?}", tree)], which prints the
    builder; here the builder is the result of the command. Offsets of values are
    natural numbers; in the code they are u64. The text of values and the tags of
    keys are the function [ev]. *)
From Coq Require Import List NArith ZArith Lia Bool String.
From Verif Require Import Base Cbor Types Seq Query World Read Write Api Iter History DumpTree Cli.
Import ListNotations.
Open Scope list_scope.

Section Commands.
  Context {T : Types} {X : Ext} {B : Backend T}.

  (** A run of the program: the printed lines, and how it ended. The first error
      ends it ([?] in main). *)
  Definition prog (A : Type) : Type := Forest -> list line * res A * Forest.
  Definition done {A} (a : A) : prog A := fun fo => ([], Ok a, fo).
  Definition andthen {A C} (m : prog A) (f : A -> prog C) : prog C := fun fo =>
    match m fo with
    | (ls, Ok a, fo) => let '(ls', r, fo) := f a fo in (ls ++ ls', r, fo)
    | (ls, r, fo) => (ls, failed r, fo)
    end.
  (** Operations that read, that print, and that change a builder. *)
  Definition reads {A} (m : Forest -> res A * Forest) : prog A := fun fo => let '(r, fo) := m fo in ([], r, fo).
  Definition prints (t : Tree) : prog unit := fun fo => dump fo t.
  Definition writes {A} (m : Forest -> res A * Forest * Builder) : prog Builder := fun fo =>
    let '(r, fo, b) := m fo in ([], rmap (fun _ => b) r, fo).
  Definition require (c : bool) (msg : string) : prog unit := fun fo =>
    ([], if c then Ok tt else Panic (PAssert msg), fo).

  (** [Forest::assert_invariants], tree.rs 300-310 *)
  Definition assert_invariants (b : Builder) : prog unit :=
    andthen (reads (fun fo => check_invariants fo b))
      (fun msgs => require (match msgs with [] => true | _ => false end) "assert_invariants failed").

  Section Run.
    (** cli.rs 232-247 and 259-264: the entry for an offset *)
    Variable ev : nat -> K * V.

    (** cli.rs 252-275: the loop over the batches, with [todo] batches to go *)
    Fixpoint build_batches (todo offset count : nat) (unbalanced : bool) (b : Builder) : prog Builder :=
      match todo with
      | O => done b
      | S todo =>
          let v := map ev (seq offset count) in
          andthen (writes (fun fo => if unbalanced then extend_unpacked fo b v else extend fo b v)) (fun b =>
          andthen (assert_invariants b) (fun _ =>
          build_batches todo (offset + count) count unbalanced b))
      end.

    (** cli.rs 222-277 *)
    Definition build_tree (base : option L) (batches count : nat) (unbalanced : bool) : prog Builder :=
      andthen (match base with
               | Some root => reads (fun fo => load_stream_builder fo default_secrets config_debug root)
               | None => done (builder_new config_debug default_secrets)
               end)
        (build_batches batches 0 count unbalanced).

    (** cli.rs 402-414 *)
    Definition cmd_build (base : option L) (batches count : nat) (unbalanced : bool) : prog Builder :=
      andthen (build_tree base batches count unbalanced) (fun b =>
      andthen (prints (snapshot b)) (fun _ => done b)).
  End Run.

  (** cli.rs 484-491 *)
  Definition cmd_forget (root : L) (before : nat) : prog Builder :=
    andthen (reads (fun fo => load_stream_builder fo default_secrets config_debug root)) (fun b =>
    andthen (writes (fun fo => retain fo b (offset_range_query (range_incl_opt before None)))) (fun b =>
    andthen (prints (snapshot b)) (fun _ => done b))).

  (** cli.rs 492-502 *)
  Definition cmd_pack (root : L) : prog Builder :=
    andthen (reads (fun fo => load_stream_builder fo default_secrets config_debug root)) (fun b =>
    andthen (prints (snapshot b)) (fun _ =>
    andthen (writes (fun fo => pack fo b)) (fun b =>
    andthen (assert_invariants b) (fun _ =>
    andthen (reads (fun fo => is_packed fo (snapshot b))) (fun p =>
    andthen (require p "forest.is_packed(&tree.snapshot())?") (fun _ =>
    andthen (prints (snapshot b)) (fun _ => done b))))))).

  (** cli.rs 523-528; the secrets and the configuration are those of main *)
  Definition cmd_repair (sec : Secrets) (root : L) : prog Builder :=
    andthen (reads (fun fo => load_stream_builder fo sec config_debug_fast root)) (fun b =>
    andthen (writes (fun fo => repair fo b)) (fun b =>
    andthen (prints (snapshot b)) (fun _ => done b))).

  (** * Using the program

      Commands are run one after another with the same storage. Trees are named
      by their number in the list of trees made so far. *)
  Inductive command :=
  | Build (base : option nat) (batches count : nat) (unbalanced : bool)
  | Pack (root : nat)
  | Forget (root : nat) (before : nat)
  | Repair (root : nat).

  Record desk := { d_fo : Forest; d_trees : list Tree }.

  (** The link that is given to the program as [--root] or [--base]. *)
  Definition link_of (d : desk) (n : nat) : option L := obind (nth_error (d_trees d) n) tree_link.

  (** No passphrases are given ([sec] of repair). *)
  Definition program (ev : nat -> K * V) (d : desk) (c : command) : option (prog Builder) :=
    match c with
    | Build None batches count unbalanced => Some (cmd_build ev None batches count unbalanced)
    | Build (Some n) batches count unbalanced =>
        option_map (fun l => cmd_build ev (Some l) batches count unbalanced) (link_of d n)
    | Pack n => option_map cmd_pack (link_of d n)
    | Forget n before => option_map (fun l => cmd_forget l before) (link_of d n)
    | Repair n => option_map (cmd_repair (cli_secrets None None)) (link_of d n)
    end.

  (** Every command is a process of its own: it starts with an empty cache [c]
      (cli.rs 356-362). *)
  Definition fresh (d : desk) (c : Cache) : Forest :=
    {| fo_store := fo_store (d_fo d); fo_cache := c; fo_log := fo_log (d_fo d) |}.
  Definition add_result (d : desk) (r : res Builder) (fo : Forest) : desk :=
    {| d_fo := fo; d_trees := d_trees d ++ match r with Ok b => [snapshot b] | _ => [] end |}.
End Commands.

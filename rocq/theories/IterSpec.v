(** Specification side: what iterators are expected to return. Nothing here
    models code. *)
From Coq Require Import List NArith ZArith Lia Bool String.
From Verif Require Import Base Cbor Types Seq Query World Read Write Api Iter History Spec.
Import ListNotations.

(** A query that keeps the length of the masks it is given, and otherwise does
    what it likes. In the code this is enforced by the type of the masks,
    [&mut [bool]]. *)
Record q_sized {T : Types} (q : Query) : Prop := {
  qs_leaf : forall off x mask, List.length mask = List.length (leaf_keys x) ->
    List.length (q_containing q off x mask) = List.length mask;
  qs_branch : forall off x mask, List.length mask = List.length (branch_sums x) ->
    List.length (q_intersecting q off x mask) = List.length mask
}.

Section IterSpec.
  Context {T : Types} {X : Ext} {B : Backend T}.

  (** The entries of [c] that match, with their offsets; [off] is the offset of
      the first entry of [c]. Purged entries are left out. *)
  Fixpoint matches (m : nat -> K -> bool) (off : nat) (c : list (option (K * V))) : list (nat * K * V) :=
    match c with
    | [] => []
    | Some (k, v) :: c' => if m off k then (off, k, v) :: matches m (S off) c' else matches m (S off) c'
    | None :: c' => matches m (S off) c'
    end.

  (** The ranges are adjacent and cover [lo..hi]. *)
  Fixpoint tiles (lo hi : nat) (rs : list (nat * nat)) : Prop :=
    match rs with
    | [] => lo = hi
    | (a, b) :: rs' => a = lo /\ a < b /\ tiles b hi rs'
    end.

  (** Offsets are in the range and ascend. *)
  Fixpoint offsets_in (lo hi : nat) (d : list (nat * K * V)) : Prop :=
    match d with
    | [] => True
    | (o, _, _) :: d' => lo <= o < hi /\ offsets_in (S o) hi d'
    end.

  Section Items.
    Context {A : Type}.

    (** The results [rs] of calls to [next] of an iterator that should produce
        [cs]: the items in order, then [None] for ever; or, after any number of
        items, one error and then [None] for ever. *)
    Inductive follows : list A -> list (option (res A)) -> Prop :=
    | follows_stop cs : follows cs []
    | follows_item c cs rs : follows cs rs -> follows (c :: cs) (Some (Ok c) :: rs)
    | follows_error cs e rs : Forall (eq None) rs -> follows cs (Some (Err e) :: rs)
    | follows_end rs : Forall (eq None) rs -> follows [] rs.

    (** The same without errors. *)
    Inductive follows_ok : list A -> list (option (res A)) -> Prop :=
    | follows_ok_stop cs : follows_ok cs []
    | follows_ok_item c cs rs : follows_ok cs rs -> follows_ok (c :: cs) (Some (Ok c) :: rs)
    | follows_ok_end rs : Forall (eq None) rs -> follows_ok [] rs.
  End Items.

  (** Calls to [next] of a chunk iterator, with any operations in between: [rs]
      are the results in order. *)
  Inductive pulls {E} (k : kind) : sys -> chunk_iter E -> list (option (res (chunk E))) -> sys -> chunk_iter E -> Prop :=
  | pulls_done s it : pulls k s it [] s it
  | pulls_next s it r fo it1 rs s' it' :
      next_chunk (sy_fo s) it = (r, fo, it1) -> pulls k (with_fo s fo) it1 rs s' it' ->
      pulls k s it (r :: rs) s' it'
  | pulls_op s it o r s1 rs s' it' :
      op_ok o s -> op_in k o -> exec o s = (r, s1) -> pulls k s1 it rs s' it' -> pulls k s it rs s' it'.

  (** The same for index iterators. *)
  Inductive ipulls (k : kind) : sys -> index_iter -> list (option (res Index)) -> sys -> index_iter -> Prop :=
  | ipulls_done s it : ipulls k s it [] s it
  | ipulls_next s it r fo it1 rs s' it' :
      next_index (sy_fo s) it = (r, fo, it1) -> ipulls k (with_fo s fo) it1 rs s' it' ->
      ipulls k s it (r :: rs) s' it'
  | ipulls_op s it o r s1 rs s' it' :
      op_ok o s -> op_in k o -> exec o s = (r, s1) -> ipulls k s1 it rs s' it' -> ipulls k s it rs s' it'.
End IterSpec.

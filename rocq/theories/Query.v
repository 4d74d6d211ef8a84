(** query.rs and the range helpers of util.rs. *)
From Coq Require Import List NArith ZArith Lia Bool.
From Verif Require Import Base Types.
Import ListNotations.

Section Query.
  Context {T : Types}.

  (** [trait Query], query.rs 17-22. A [&mut [bool]] argument is a list that is
      given and returned; that its length does not change is part of
      [query_ok] (QuerySpec.v). Event offsets are unbounded naturals: the sums
      [offset + count] of the code cannot overflow here. *)
  Record Query := {
    q_containing : nat -> LeafIndex -> list bool -> list bool;
    q_intersecting : nat -> BranchIndex -> list bool -> list bool
  }.

  (** util.rs 57-61 *)
  Definition mask_clear (m : list bool) : list bool := map (fun _ => false) m.

  (** util.rs 63-67 *)
  Fixpoint or_with (m rhs : list bool) : list bool :=
    match m, rhs with
    | b :: m', c :: rhs' => (b || c) :: or_with m' rhs'
    | m, _ => m
    end.

  (** util.rs 36-45 *)
  Definition any (m : list bool) : bool := existsb (fun b => b) m.

  (** [std::ops::Bound] *)
  Inductive bound := Unbounded | Included (n : nat) | Excluded (n : nat).

  (** util.rs 13-22 *)
  Definition bound_lt (end_ start : bound) : bool :=
    match end_, start with
    | Unbounded, _ => false
    | _, Unbounded => false
    | Included e, Included s => Nat.ltb e s
    | Excluded e, Included s => Nat.leb e s
    | Included e, Excluded s => Nat.leb e s
    | Excluded e, Excluded s => Nat.leb e s
    end.

  (** [RangeBounds<u64>]: start and end bound *)
  Record range := { r_start : bound; r_end : bound }.

  (** util.rs 24-28 *)
  Definition intersects (a b : range) : bool :=
    negb (bound_lt (r_end a) (r_start b)) && negb (bound_lt (r_end b) (r_start a)).

  (** [RangeBounds::contains] (std) *)
  Definition range_contains (r : range) (n : nat) : bool :=
    (match r_start r with Unbounded => true | Included s => Nat.leb s n | Excluded s => Nat.ltb s n end)
    && (match r_end r with Unbounded => true | Included e => Nat.leb n e | Excluded e => Nat.ltb n e end).

  (** The half open range [a..b]. *)
  Definition range_of (a b : nat) : range := {| r_start := Included a; r_end := Excluded b |}.
  (** The inclusive range [a..=b]. *)
  Definition range_incl (a b : nat) : range := {| r_start := Included a; r_end := Included b |}.
  (** [a..=u64::MAX]: offsets are below [u64::MAX]. *)
  Definition range_incl_opt (a : nat) (b : option nat) : range :=
    {| r_start := Included a; r_end := match b with None => Unbounded | Some b => Included b end |}.

  (** The loop of query.rs 62-67: [n] is the number of keys left. *)
  Fixpoint offset_mask (r : range) (offset n : nat) (m : list bool) : list bool :=
    match n, m with
    | S n', b :: m' => (if b then range_contains r offset else b) :: offset_mask r (S offset) n' m'
    | _, _ => m
    end.

  (** query.rs 53-81 *)
  Definition offset_range_query (r : range) : Query := {|
    q_containing := fun offset x m =>
      if negb (intersects r (range_of offset (offset + List.length (leaf_keys x)))) then mask_clear m
      else offset_mask r offset (List.length (leaf_keys x)) m;
    q_intersecting := fun offset x m =>
      if negb (intersects r (range_of offset (offset + bi_count x))) then mask_clear m else m
  |}.

  (** query.rs 85-95 *)
  Definition empty_query : Query := {|
    q_containing := fun _ _ m => mask_clear m;
    q_intersecting := fun _ _ m => mask_clear m
  |}.

  (** query.rs 99-109 *)
  Definition all_query : Query := {|
    q_containing := fun _ _ m => m;
    q_intersecting := fun _ _ m => m
  |}.

  (** query.rs 115-127 *)
  Definition and_query (a b : Query) : Query := {|
    q_containing := fun o x m => q_containing b o x (q_containing a o x m);
    q_intersecting := fun o x m => q_intersecting b o x (q_intersecting a o x m)
  |}.

  (** query.rs 133-149 *)
  Definition or_query (a b : Query) : Query := {|
    q_containing := fun o x m => or_with (q_containing a o x m) (q_containing b o x m);
    q_intersecting := fun o x m => or_with (q_intersecting a o x m) (q_intersecting b o x m)
  |}.
End Query.

(** Common definitions: bytes, outcomes of fallible functions, list helpers.

    Nothing in this file models a particular piece of banyan; it provides the
    vocabulary the model is written in. *)
From Coq Require Import List NArith ZArith Lia Bool String.
From Coq Require Import Strings.Byte.
Import ListNotations.
Open Scope list_scope.

Notation byte := Coq.Init.Byte.byte.
Definition bytes := list byte.

(** Byte with the given value modulo 256. *)
Definition byte_of_N (n : N) : byte :=
  match Byte.of_N (n mod 256) with Some b => b | None => Byte.x00 end.

Definition byte_to_N (b : byte) : N := Byte.to_N b.

(** Exclusive or of two bytes. *)
Definition bxor (a b : byte) : byte := byte_of_N (N.lxor (byte_to_N a) (byte_to_N b)).

Definition byte_eqb (a b : byte) : bool := N.eqb (byte_to_N a) (byte_to_N b).

Fixpoint bytes_eqb (a b : bytes) : bool :=
  match a, b with
  | [], [] => true
  | x :: a', y :: b' => byte_eqb x y && bytes_eqb a' b'
  | _, _ => false
  end.

(** Length of a list as a binary number (Rust [len() as u64]). *)
Definition Nlen {A} (l : list A) : N := N.of_nat (List.length l).

(** [u64::MAX + 1] and [u32::MAX + 1]. *)
Definition two64 : N := 18446744073709551616%N.
Definition two32 : N := 4294967296%N.

(** Reasons for a panic. [PAssert]: a failed [assert!], [unwrap] or index out of
    bounds in banyan; [POverflow]: an integer does not fit its Rust type. *)
Inductive panic :=
| PAssert (msg : string)
| POverflow.

(** Reasons for an [Err] result. *)
Inductive error :=
| EMissing      (* the store does not have the block *)
| EStoreFull    (* the writer refused the block *)
| ECbor         (* malformed or unexpected cbor *)
| EZstd         (* decompression failed *)
| ECipher       (* seek offset wraparound *)
| ETooLarge     (* "single item too large!" *)
| EEmpty        (* "must have more than 1 element when extending" *)
| EPurged       (* "found purged data" *)
| ELink         (* invalid link while scraping *)
| EIndex        (* "index out of bounds" *)
| ELeafRoot     (* "root must be a branch"-like failures *)
| EOther.

(** Outcome of a Rust function returning [anyhow::Result<A>]. [NoFuel] is the
    model's own recursion bound. *)
Inductive res (A : Type) :=
| Ok (a : A)
| Err (e : error)
| Panic (p : panic)
| NoFuel.
Arguments Ok {A} a.
Arguments Err {A} e.
Arguments Panic {A} p.
Arguments NoFuel {A}.

Definition rbind {A B} (m : res A) (f : A -> res B) : res B :=
  match m with
  | Ok a => f a
  | Err e => Err e
  | Panic p => Panic p
  | NoFuel => NoFuel
  end.

Definition rmap {A B} (f : A -> B) (m : res A) : res B := rbind m (fun a => Ok (f a)).

(** [Option::ok_or]. *)
Definition ok_or {A} (o : option A) (e : error) : res A :=
  match o with Some a => Ok a | None => Err e end.

(** Traverse with early exit ([collect::<Result<Vec<_>>>]). *)
Definition rmapM {A B} (f : A -> res B) : list A -> res (list B) :=
  fix go l :=
    match l with
    | [] => Ok []
    | x :: l' => rbind (f x) (fun y => rbind (go l') (fun ys => Ok (y :: ys)))
    end.

Declare Scope res_scope.
Delimit Scope res_scope with res.
Notation "x <- m ;; f" := (rbind m (fun x => f))
  (at level 61, m at next level, right associativity) : res_scope.
Notation "' p <- m ;; f" := (rbind m (fun p => f))
  (at level 61, p pattern, m at next level, right associativity) : res_scope.

(** Outcomes that are not failed assertions and not the recursion bound. *)
Definition no_assert {A} (r : res A) : Prop :=
  match r with
  | Panic (PAssert _) => False
  | NoFuel => False
  | _ => True
  end.

(** Traverse an option-valued function. *)
Definition omapM {A B} (f : A -> option B) : list A -> option (list B) :=
  fix go l :=
    match l with
    | [] => Some []
    | x :: l' =>
        match f x with
        | None => None
        | Some y => match go l' with None => None | Some ys => Some (y :: ys) end
        end
    end.

(** Elements of [l] whose mask bit is set. *)
Fixpoint mask_select {A} (m : list bool) (l : list A) : list A :=
  match m, l with
  | b :: m', x :: l' => if b then x :: mask_select m' l' else mask_select m' l'
  | _, _ => []
  end.

Definition sum_nat (l : list nat) : nat := fold_right Nat.add 0 l.
Definition max_nat (l : list nat) : nat := fold_right Nat.max 0 l.

(** [0 .. n) with a start offset. *)
Definition range_from (o n : nat) : list nat := seq o n.

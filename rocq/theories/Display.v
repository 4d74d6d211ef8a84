(** Printing of boolean expressions over tags: [Display for Expression],
    banyan-utils/src/tag_index.rs 184-211.

    Simplification: a text is its UTF-8 bytes; no other character contains the
    byte of the quotation mark. *)
From Coq Require Import List NArith Lia Bool String.
From Coq Require Import Strings.Byte.
From Verif Require Import Base Cbor Types Tags MemStore.
Import ListNotations.
Open Scope list_scope.

(** [str::replace('\'', "''")] and the quotation marks around it, 198 *)
Definition quote_mark : byte := x27.
Definition quoted (t : tag) : bytes :=
  [quote_mark] ++ flat_map (fun b => if byte_eqb b quote_mark then [quote_mark; quote_mark] else [b]) t ++ [quote_mark].

(** [join] of a vector of strings *)
Fixpoint join (sep : bytes) (l : list bytes) : bytes :=
  match l with
  | [] => []
  | [x] => x
  | x :: l' => x ++ sep ++ join sep l'
  end.

(** [child_to_string], 187-192, with the text of the child already made *)
Definition bracketed (e : expr) (text : bytes) : bytes :=
  match e with
  | EOr v => if Nat.ltb 1 (List.length v) then text_bytes "( " ++ text ++ text_bytes " )" else text
  | _ => text
  end.

(** [fmt], 186-211 *)
Fixpoint show (e : expr) : bytes :=
  match e with
  | ELit t => quoted t
  | EAnd es => join (text_bytes " & ") (map (fun e => bracketed e (show e)) es)
  | EOr es => join (text_bytes " | ") (map show es)
  end.

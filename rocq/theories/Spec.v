(** Specification side: the vocabulary the theorems are stated in. Only public
    operations of Api.v are used. *)
From Coq Require Import List NArith ZArith Lia Bool String.
From Verif Require Import Base Cbor Types Seq Query World Read Write Api History.
Import ListNotations.

Section Spec.
  Context {T : Types} {X : Ext} {B : Backend T}.

  (** [collect] returns [c]; [None] stands for a purged entry. *)
  Definition reads (fo : Forest) (t : Tree) (c : list (option (K * V))) : Prop :=
    exists fo', collect fo t = (Ok c, fo').
  (** [collect_from off] returns [c]. *)
  Definition reads_from (fo : Forest) (t : Tree) (off : nat) (c : list (option (K * V))) : Prop :=
    exists fo', collect_from fo t off = (Ok c, fo').
  (** [get i] returns [v]. *)
  Definition gets (fo : Forest) (t : Tree) (i : nat) (v : option (K * V)) : Prop :=
    exists fo', get fo t i = (Ok v, fo').
  (** [is_packed] returns [x]. *)
  Definition says_packed (fo : Forest) (t : Tree) (x : bool) : Prop :=
    exists fo', is_packed fo t = (Ok x, fo').

  (** Every branch block that was written is small enough for the 16 MiB
      decompression buffer (see C44). *)
  Definition small_branches (fo : Forest) : Prop :=
    Forall (fun e => ev_leaf e = true \/ (Nlen (ev_raw e) <= max_capacity)%N) (fo_log fo).

  (** Entry [i] of [c]; [None] when purged or out of range. *)
  Definition entry (c : list (option (K * V))) (i : nat) : option (K * V) := nth i c None.

  (** The operation returned a value or an error: it did not panic. *)
  Definition returned {A} (r : res A) : Prop := (exists a, r = Ok a) \/ exists e, r = Err e.
End Spec.

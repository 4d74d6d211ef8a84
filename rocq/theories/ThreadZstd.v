(** store/thread_local_zstd.rs: decompression into a buffer that each thread
    keeps for the next time.

    Simplifications: [Decompressor::upper_bound] and what a decompression leaves
    behind its result in a buffer are parameters; the reused decompressor has no
    other state. Panics are not caught inside a transform. *)
From Coq Require Import List NArith Lia Bool String.
From Coq Require Import Strings.Byte.
From Verif Require Import Base Cbor Types Seq.
Import ListNotations.
Open Scope list_scope.

Section ThreadZstd.
  Context {X : Ext}.
  (** [Decompressor::upper_bound] of compressed data *)
  Variable upper_bound : bytes -> option N.
  (** the content of a buffer after compressed data has been decompressed to it,
      where it is not the result *)
  Variable leftover : bytes -> bytes -> bytes.

  (** thread_local_zstd.rs 5-6; [MAX_CAPACITY] is [max_capacity] *)
  Definition min_capacity : N := (4 * 1024 * 1024)%N.

  (** thread_local_zstd.rs 12-16 and 56: the state of a thread, in its [RefCell] *)
  Record thread := { th_borrowed : bool; th_buffer : bytes }.
  (** thread_local_zstd.rs 19-24 *)
  Definition th_new : thread :=
    {| th_borrowed := false; th_buffer := repeat x00 (N.to_nat min_capacity) |}.

  (** [Decompressor::decompress_to_buffer]: the length of the result, and the buffer *)
  Definition decompress_to_buffer (d buffer : bytes) : res N * bytes :=
    match z_dec d with
    | Some raw =>
        if (Nlen raw <=? Nlen buffer)%N then (Ok (Nlen raw), raw ++ skipn (List.length raw) (leftover d buffer))
        else (Err EZstd, leftover d buffer)
    | None => (Err EZstd, leftover d buffer)
    end.

  (** thread_local_zstd.rs 37-39 *)
  Definition capacity (d : bytes) : N :=
    N.min (match upper_bound d with Some u => u | None => max_capacity end) max_capacity.

  (** What a thread does: it ends with a result, panics, or decompresses some
      data with the transform [f] and goes on with what that returns. A transform
      is such work, too. *)
  Inductive work :=
  | WDone (r : bytes)
  | WPanic
  | WUnpack (d : bytes) (f : bytes -> work) (k : res (N * bytes) -> work).

  Definition free (th : thread) : thread := {| th_borrowed := false; th_buffer := th_buffer th |}.

  (** thread_local_zstd.rs 29-54 and 61-66 for [WUnpack]: [borrow_mut] panics while a transform
      runs; the borrow ends with the call, also when the transform panics. *)
  Fixpoint run_work (w : work) (th : thread) : res bytes * thread :=
    match w with
    | WDone r => (Ok r, th)
    | WPanic => (Panic (PAssert "transform"), th)
    | WUnpack d f k =>
        if th_borrowed th then (Panic (PAssert "already borrowed"), th)
        else
          let own := (capacity d <=? min_capacity)%N in
          let buffer := if own then th_buffer th else repeat x00 (N.to_nat (capacity d)) in
          let '(r, buffer') := decompress_to_buffer d buffer in
          let th1 := {| th_borrowed := true; th_buffer := if own then buffer' else th_buffer th |} in
          match r with
          | Ok len =>
              if (len <=? Nlen buffer')%N then
                match run_work (f (firstn (N.to_nat len) buffer')) th1 with
                | (Ok x, th2) => run_work (k (Ok (len, x))) (free th2)
                | (e, th2) => (e, free th2)
                end
              else (Panic (PAssert "slice"), free th1)
          | Err e => run_work (k (Err e)) (free th1)
          | Panic p => (Panic p, free th1)
          | NoFuel => (NoFuel, free th1)
          end
    end.
End ThreadZstd.

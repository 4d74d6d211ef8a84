(** The store, the branch cache and the state threaded through forest and
    transaction operations. *)
From Coq Require Import List NArith ZArith Lia Bool String.
From Coq Require Import Strings.Byte.
From Verif Require Import Base Cbor Types Seq.
Import ListNotations.

(** A block store ([ReadOnlyStore], [BlockWriter], store/mod.rs 15-35) and a
    branch cache ([BranchCache], store/branch_cache.rs).

    Both are state machines: every access may change their state, so a store may
    fail at any access, in any pattern, and a cache may drop any entry at any
    time. Both are shared (store/mem_store.rs 7-15, store/branch_cache.rs 27-30):
    other users may write blocks to the store at any time, also between two
    accesses of one operation, so every access may add blocks of others to it.
    [sblocks] is what a store holds; [cin] is what a cache may return, by
    itself or because others put it there. *)
Class Backend (T : Types) := {
  Store : Type;
  sblocks : Store -> L -> option bytes;
  sget : Store -> L -> option bytes * Store;           (* ReadOnlyStore::get *)
  sput : Store -> bytes -> option L * Store;           (* BlockWriter::put *)
  digest : bytes -> L;                                 (* the link of a block *)
  Cache : Type;
  cin : Cache -> L -> Branch -> Prop;
  cget : Cache -> L -> option Branch * Cache;          (* BranchCache::get *)
  cput : Cache -> L -> Branch -> Cache                 (* BranchCache::put *)
}.

(** What is required of store and cache. *)
Class BackendLaws (T : Types) (B : Backend T) : Prop := {
  (* different blocks have different links *)
  digest_inj : forall a b, digest a = digest b -> a = b;
  (* blocks stay, and those of others are filed under their digests *)
  sget_keeps : forall s l r s' x b, sget s l = (r, s') -> sblocks s x = Some b -> sblocks s' x = Some b;
  sget_adds : forall s l r s' x b, sget s l = (r, s') -> sblocks s' x = Some b ->
                sblocks s x = Some b \/ x = digest b;
  sget_sound : forall s l d s', sget s l = (Some d, s') -> sblocks s' l = Some d;
  (* the same for a put, whether it succeeds or fails *)
  sput_keeps : forall s d r s' x b, sput s d = (r, s') -> sblocks s x = Some b -> sblocks s' x = Some b;
  sput_adds : forall s d r s' x b, sput s d = (r, s') -> sblocks s' x = Some b ->
                sblocks s x = Some b \/ x = digest b;
  sput_link : forall s d l s', sput s d = (Some l, s') -> l = digest d /\ sblocks s' l = Some d;
  cget_sound : forall c l b c', cget c l = (Some b, c') -> cin c l b;
  cget_keeps : forall c l r c' x b, cget c l = (r, c') -> cin c' x b -> cin c x b;
  cput_adds : forall c l b x b', cin (cput c l b) x b' -> cin c x b' \/ (x = l /\ b' = b)
}.

(** A store whose reads succeed for every block it holds. Only used by theorems
    that promise success. *)
Class ReliableReads (T : Types) (B : Backend T) : Prop := {
  sget_reliable : forall s l d, sblocks s l = Some d -> fst (sget s l) = Some d
}.

(** A store to which nobody else writes during an operation. Only used by
    theorems that say that nothing is added to the store. *)
Class Alone (T : Types) (B : Backend T) : Prop := {
  sget_alone : forall s l r s' x, sget s l = (r, s') -> sblocks s' x = sblocks s x;
  (* a put, whether it succeeds or fails, adds nothing but the given block *)
  sput_alone : forall s d r s' x b, sput s d = (r, s') -> sblocks s' x = Some b ->
                sblocks s x = Some b \/ (x = digest d /\ b = d)
}.

Section World.
  Context {T : Types} {B : Backend T}.

  (** A block handed to [BlockWriter::put] (write.rs 45-51). Ghost state. *)
  Record event := {
    ev_leaf : bool;          (* leaf or branch *)
    ev_key : bytes;          (* key the payload was encrypted with *)
    ev_off : N;              (* first keystream position *)
    ev_len : N;              (* number of keystream bytes *)
    ev_raw : bytes;          (* payload before compression *)
    ev_block : bytes         (* the block *)
  }.
  Definition ev_end (e : event) : N := (ev_off e + ev_len e)%N.

  (** Store and cache of the transaction's forest, the cipher offset of the
      stream builder (stream_builder.rs 16-39) and the log of blocks written. *)
  Record world := {
    w_store : Store;
    w_cache : Cache;
    w_off : N;
    w_log : list event
  }.

  Definition set_store (w : world) (s : Store) : world :=
    {| w_store := s; w_cache := w_cache w; w_off := w_off w; w_log := w_log w |}.
  Definition set_cache (w : world) (c : Cache) : world :=
    {| w_store := w_store w; w_cache := c; w_off := w_off w; w_log := w_log w |}.
  Definition set_off (w : world) (o : N) : world :=
    {| w_store := w_store w; w_cache := w_cache w; w_off := o; w_log := w_log w |}.
  Definition add_event (w : world) (e : event) : world :=
    {| w_store := w_store w; w_cache := w_cache w; w_off := w_off w; w_log := w_log w ++ [e] |}.

  (** Computations: the world persists when they fail or panic. *)
  Definition M (A : Type) := world -> res A * world.
  Definition ret {A} (a : A) : M A := fun w => (Ok a, w).
  Definition lift {A} (r : res A) : M A := fun w => (r, w).
  Definition fail {A} (e : error) : M A := fun w => (Err e, w).
  Definition mpanic {A} (p : panic) : M A := fun w => (Panic p, w).
  Definition nofuel {A} : M A := fun w => (NoFuel, w).
  Definition mbind {A C} (m : M A) (f : A -> M C) : M C :=
    fun w =>
      match m w with
      | (Ok a, w') => f a w'
      | (Err e, w') => (Err e, w')
      | (Panic p, w') => (Panic p, w')
      | (NoFuel, w') => (NoFuel, w')
      end.
  (** [assert!] *)
  Definition massert (b : bool) (msg : string) : M unit :=
    if b then ret tt else mpanic (PAssert msg).
End World.

Declare Scope m_scope.
Delimit Scope m_scope with M.
Notation "x <- m ;; f" := (mbind m (fun x => f))
  (at level 61, m at next level, right associativity) : m_scope.
Notation "' p <- m ;; f" := (mbind m (fun p => f))
  (at level 61, p pattern, m at next level, right associativity) : m_scope.
Notation "m ;;; f" := (mbind m (fun _ => f))
  (at level 61, right associativity) : m_scope.

Section MapM.
  Context {T : Types} {B : Backend T}.
  (** Left to right traversal with early exit. *)
  Definition mmapM {A C} (f : A -> M C) : list A -> M (list C) :=
    fix go l :=
      match l with
      | [] => ret []
      | x :: l' => mbind (f x) (fun y => mbind (go l') (fun ys => ret (y :: ys)))
      end.
End MapM.

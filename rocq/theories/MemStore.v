(** The in memory store and the caching wrapper of banyan:
    store/mem_store.rs and store/mem_cache.rs.

    Both are shared between threads through a mutex that is held for the whole of
    each access, so an execution is a sequence of accesses.

    Simplification: [usize] is [nat]; [current_size + data.len()] adds the sizes
    of things that are in memory at the same time, it cannot overflow. *)
From Coq Require Import List Arith Lia Bool.
From Verif Require Import Base.
Import ListNotations.

Section MemStore.
  Context {L : Type} (Ldec : forall a b : L, {a = b} + {a <> b}) (dig : bytes -> L).

  (** [HashMap::get] and [HashMap::insert] of [FnvHashMap<L, Box<[u8]>>]: an
      association list with at most one entry per link. *)
  Fixpoint hm_get (m : list (L * bytes)) (l : L) : option bytes :=
    match m with
    | [] => None
    | (k, d) :: m' => if Ldec l k then Some d else hm_get m' l
    end.
  Fixpoint hm_insert (m : list (L * bytes)) (l : L) (d : bytes) : list (L * bytes) :=
    match m with
    | [] => [(l, d)]
    | (k, x) :: m' => if Ldec l k then (l, d) :: m' else (k, x) :: hm_insert m' l d
    end.

  (** [MemStore], mem_store.rs 9-21; the digest function is [dig]. *)
  Record mem_store := {
    ms_map : list (L * bytes);     (* blocks.map *)
    ms_size : nat;                 (* blocks.current_size *)
    ms_max : nat                   (* max_size *)
  }.

  (** [MemStore::new], mem_store.rs 24-33. *)
  Definition ms_new (max : nat) : mem_store :=
    {| ms_map := []; ms_size := 0; ms_max := max |}.

  (** [get0] and [ReadOnlyStore::get], mem_store.rs 41-44 and 63-69. *)
  Definition ms_get (s : mem_store) (l : L) : res bytes :=
    match hm_get (ms_map s) l with
    | Some d => Ok d
    | None => Err EMissing
    end.

  (** [put0] and [BlockWriter::put], mem_store.rs 46-59 and 73-75. *)
  Definition ms_put (s : mem_store) (d : bytes) : res L * mem_store :=
    let l := dig d in
    if ms_max s <? ms_size s + List.length d then (Err EStoreFull, s)
    else
      let new := match hm_get (ms_map s) l with None => true | Some _ => false end in
      (Ok l, {| ms_map := hm_insert (ms_map s) l d;
                ms_size := if new then ms_size s + List.length d else ms_size s;
                ms_max := ms_max s |}).
End MemStore.

(** A store wrapped by [MemCache]: anything with [ReadOnlyStore::get] and
    [BlockWriter::put] (store/mod.rs 22-31). Reads may fail and may change the
    state, so that any pattern of failures is covered. *)
Record inner (L : Type) := {
  i_st : Type;
  i_get : i_st -> L -> res bytes * i_st;
  i_put : i_st -> bytes -> res L * i_st
}.
Arguments i_st {L}.
Arguments i_get {L}.
Arguments i_put {L}.

Section MemCache.
  Context {L : Type} (Ldec : forall a b : L, {a = b} + {a <> b}) (I : inner L).

  (** The [WeightCache] of another crate, mem_cache.rs 18-24. Which entries it
      evicts is not modelled: at its [n]th access it keeps the entries [wc_keep n]
      selects, whatever their weight and age. *)
  Record wcache := {
    wc_map : list (L * bytes);
    wc_time : nat;
    wc_keep : nat -> L -> bool
  }.
  (** Entries that survive the eviction at the current access. *)
  Definition wc_evict (c : wcache) (m : list (L * bytes)) : wcache :=
    {| wc_map := filter (fun e => wc_keep c (wc_time c) (fst e)) m;
       wc_time := S (wc_time c); wc_keep := wc_keep c |}.
  Definition wc_get (c : wcache) (l : L) : option bytes * wcache :=
    (hm_get Ldec (wc_map c) l, wc_evict c (wc_map c)).
  Definition wc_put (c : wcache) (l : L) (d : bytes) : wcache :=
    wc_evict c (hm_insert Ldec (wc_map c) l d).

  (** [Cache], mem_cache.rs 17-24. *)
  Record cache := { c_cache : wcache; c_max : nat }.

  (** [MemCache] and [MemWriter], mem_cache.rs 44-48 and 94-97. The writer shares
      the cache (an [Arc]); as in banyan's own use, it writes to the store the
      cache reads from. *)
  Record mem_cache := { mc_inner : i_st I; mc_cache : option cache }.

  (** [Cache::new] and [MemCache::new], mem_cache.rs 25-34 and 54-59. *)
  Definition mc_new (keep : nat -> L -> bool) (s : i_st I) (max_size capacity : nat) : mem_cache :=
    {| mc_inner := s;
       mc_cache :=
         match capacity, max_size with
         | 0, _ => None
         | _, 0 => None
         | _, _ => Some {| c_cache := {| wc_map := []; wc_time := 0; wc_keep := keep |};
                           c_max := max_size |}
         end |}.

  (** [offer], mem_cache.rs 62-69. *)
  Definition mc_offer (c : mem_cache) (l : L) (d : bytes) : mem_cache :=
    match mc_cache c with
    | Some k =>
        if List.length d <=? c_max k
        then {| mc_inner := mc_inner c;
                mc_cache := Some {| c_cache := wc_put (c_cache k) l d; c_max := c_max k |} |}
        else c
    | None => c
    end.

  (** [get0] and [ReadOnlyStore::get], mem_cache.rs 76-80 and 86-91. *)
  Definition mc_get (c : mem_cache) (l : L) : res bytes * mem_cache :=
    match mc_cache c with
    | Some k =>
        let '(r, k') := wc_get (c_cache k) l in
        let c' := Some {| c_cache := k'; c_max := c_max k |} in
        match r with
        | Some d => (Ok d, {| mc_inner := mc_inner c; mc_cache := c' |})
        | None =>
            let '(r', s) := i_get I (mc_inner c) l in
            (r', {| mc_inner := s; mc_cache := c' |})
        end
    | None =>
        let '(r', s) := i_get I (mc_inner c) l in
        (r', {| mc_inner := s; mc_cache := None |})
    end.

  (** [MemWriter::put], mem_cache.rs 112-122. *)
  Definition mc_put (c : mem_cache) (d : bytes) : res L * mem_cache :=
    match mc_cache c with
    | Some k =>
        if List.length d <=? c_max k then
          match i_put I (mc_inner c) d with
          | (Ok l, s) =>
              (Ok l, {| mc_inner := s;
                        mc_cache := Some {| c_cache := wc_put (c_cache k) l d; c_max := c_max k |} |})
          | (r, s) => (r, {| mc_inner := s; mc_cache := mc_cache c |})
          end
        else
          let '(r, s) := i_put I (mc_inner c) d in
          (r, {| mc_inner := s; mc_cache := mc_cache c |})
    | None =>
        let '(r, s) := i_put I (mc_inner c) d in
        (r, {| mc_inner := s; mc_cache := mc_cache c |})
    end.
End MemCache.

(** The iterators: [TreeIter] (forest/read.rs), [IndexIter] (forest/index_iter.rs)
    and the public functions that create them (tree.rs). *)
From Coq Require Import List NArith ZArith Lia Bool String.
From Verif Require Import Base Cbor Types Seq Query World Read Write Api.
Import ListNotations.
Open Scope m_scope.

Section Iter.
  Context {T : Types} {X : Ext} {B : Backend T}.

  (** read.rs 105-109, index_iter.rs 10-14 *)
  Inductive mode := Forward | Backward.

  (** read.rs 120-130, index_iter.rs 25-35; [isize] is [Z]. *)
  Record tstate := { ts_index : Index; ts_pos : Z; ts_filter : list bool }.

  (** read.rs 133-139, index_iter.rs 38-44 *)
  Definition ts_new (i : Index) : tstate := {| ts_index := i; ts_pos := 0; ts_filter := [] |}.

  Definition is_nil {A} (l : list A) : bool := match l with [] => true | _ => false end.

  (** read.rs 140-145, index_iter.rs 45-50 *)
  Definition exhausted (m : mode) (s : tstate) : bool :=
    match m with
    | Forward => negb (is_nil (ts_filter s)) && (Z.of_nat (List.length (ts_filter s)) <=? ts_pos s)%Z
    | Backward => (ts_pos s <? 0)%Z
    end.

  (** read.rs 146-151, index_iter.rs 51-56 *)
  Definition next_pos (m : mode) (s : tstate) : tstate :=
    {| ts_index := ts_index s;
       ts_pos := match m with Forward => ts_pos s + 1 | Backward => ts_pos s - 1 end;
       ts_filter := ts_filter s |}.

  (** Pop the top of the stack and advance its parent, e.g. read.rs 233-242. *)
  Definition ascend (m : mode) (st : list tstate) : list tstate :=
    match st with
    | _ :: p :: st' => next_pos m p :: st'
    | _ => []
    end.

  (** [self.offset += count] or [-= count], e.g. read.rs 213-216. The
      subtraction panics on underflow (in release builds it would wrap). *)
  Definition move_off (m : mode) (off n : nat) : M nat :=
    match m with
    | Forward => ret (off + n)
    | Backward =>
        if Nat.ltb off n then mpanic (PAssert "attempt to subtract with overflow") else ret (off - n)
    end.

  (** read.rs 244-247 *)
  Definition range_at (m : mode) (off n : nat) : nat * nat :=
    match m with
    | Forward => (off, off + n)
    | Backward => (off - n, off)
    end.

  (** [slice[i as usize]] for an [isize] *)
  Definition at_pos {A} (l : list A) (i : Z) : M A :=
    match (if (i <? 0)%Z then None else nth_error l (Z.to_nat i)) with
    | Some a => ret a
    | None => mpanic (PAssert "index out of bounds")
    end.

  (** Position of the first child to visit, read.rs 258-261. *)
  Definition first_pos (m : mode) (n : nat) : Z :=
    match m with Forward => 0 | Backward => Z.of_nat n - 1 end.

  (** ** [TreeIter] with [ChunkVisitor] *)
  Section Chunks.
    (** The type of the extra data. [mk_extra] is a function of the index record:
        the block loaders it could also use are not modelled. *)
    Context {E : Type}.

    (** [FilteredChunk], mod.rs 275-293 *)
    Record chunk := { c_range : nat * nat; c_data : list (nat * K * V); c_extra : E }.

    (** read.rs 110-118; the visitor is a [ChunkVisitor] with [mk_extra]. *)
    Record titer := {
      ti_sec : Secrets;
      ti_off : nat;
      ti_stack : list tstate;
      ti_mode : mode;
      ti_query : Query;
      ti_extra : node_info -> E
    }.

    Definition ti_set (it : titer) (off : nat) (st : list tstate) : titer :=
      {| ti_sec := ti_sec it; ti_off := off; ti_stack := st; ti_mode := ti_mode it;
         ti_query := ti_query it; ti_extra := ti_extra it |}.

    (** read.rs 161-180 *)
    Definition ti_new (sec : Secrets) (q : Query) (mk : node_info -> E) (i : Index) : titer :=
      {| ti_sec := sec; ti_off := 0; ti_stack := [ts_new i]; ti_mode := Forward;
         ti_query := q; ti_extra := mk |}.
    (** read.rs 181-201 *)
    Definition ti_new_rev (sec : Secrets) (q : Query) (mk : node_info -> E) (i : Index) : titer :=
      {| ti_sec := sec; ti_off := icount i; ti_stack := [ts_new i]; ti_mode := Backward;
         ti_query := q; ti_extra := mk |}.

    (** [ChunkVisitor::skip], read.rs 65-72 *)
    Definition visit_skip (it : titer) (range : nat * nat) (n : node_info) : chunk :=
      {| c_range := range; c_data := []; c_extra := ti_extra it n |}.

    (** [ChunkVisitor::leaf], read.rs 74-102 *)
    Definition visit_leaf (it : titer) (range : nat * nat) (x : LeafIndex) (l : L) (m : list bool) : M chunk :=
      data <-
        (if any m then
           z <- load_leaf_from_link (ti_sec it) l ;;
           let offsets := mask_select m (seq (fst range) (List.length m)) in
           let keys := mask_select m (leaf_keys x) in
           elems <- lift (zs_select z m) ;;
           ret (combine (combine offsets keys) elems)
         else ret []) ;;
      ret {| c_range := range; c_data := data; c_extra := ti_extra it (NLeaf x l) |}.

    (** One turn of the loop in [next_fallible], read.rs 223-322: [None] to go
        on, [Some r] to return [r]. [skip] (203-219) is inlined. *)
    Definition tstep (it : titer) : M (titer * option (option chunk)) :=
      let m := ti_mode it in
      match ti_stack it with
      | [] => ret (it, Some None)
      | head :: below =>
          if exhausted m head then
            ret (ti_set it (ti_off it) (ascend m (head :: below)), None)
          else
            let i := ts_index head in
            let range := range_at m (ti_off it) (icount i) in
            let skip :=
              off <- move_off m (ti_off it) (icount i) ;;
              ret (ti_set it off (ascend m (head :: below)), Some (Some (visit_skip it range (node_info_of i)))) in
            match node_info_of i with
            | NBranch x l =>
                let n := List.length (branch_sums x) in
                let fresh := is_nil (ts_filter head) in
                let filter :=
                  if fresh then q_intersecting (ti_query it) (fst range) x (repeat true n)
                  else ts_filter head in
                let pos := if fresh then first_pos m n else ts_pos head in
                if fresh && negb (any filter) then skip
                else
                  b <- load_branch_cached (ti_sec it) l ;;
                  bit <- at_pos filter pos ;;
                  c <- at_pos (br_children b) pos ;;
                  let head' := {| ts_index := i; ts_pos := pos; ts_filter := filter |} in
                  if bit then
                    ret (ti_set it (ti_off it) (ts_new c :: head' :: below), None)
                  else
                    off <- move_off m (ti_off it) (icount c) ;;
                    ret (ti_set it off (next_pos m head' :: below),
                         Some (Some (visit_skip it (range_at m (ti_off it) (icount c)) (node_info_of c))))
            | NLeaf x l =>
                let matching := q_containing (ti_query it) (fst range) x (repeat true (List.length (leaf_keys x))) in
                c <- visit_leaf it range x l matching ;;
                off <- move_off m (ti_off it) (List.length (leaf_keys x)) ;;
                ret (ti_set it off (ascend m (head :: below)), Some (Some c))
            | _ => skip
            end
      end.

    (** [next_fallible], read.rs 222-324. [fuel] bounds the turns of the loop. *)
    Fixpoint tloop (fuel : nat) (it : titer) (w : world) : res (option chunk) * titer * world :=
      match fuel with
      | O => (NoFuel, it, w)
      | S fuel' =>
          match tstep it w with
          | (Ok (it', None), w') => tloop fuel' it' w'
          | (Ok (it', Some r), w') => (Ok r, it', w')
          | (r, w') => (failed r, it, w')
          end
      end.

    (** Enough turns: leave all exhausted branches, then go down to a leaf. *)
    Definition turns (st : list tstate) : nat :=
      S (S (List.length st + max_nat (map (fun s => ilevel (ts_index s)) st))).

    (** read.rs 337-346 *)
    Definition tnext (it : titer) (w : world) : option (res chunk) * titer * world :=
      match tloop (turns (ti_stack it)) it w with
      | (Ok (Some c), it', w') => (Some (Ok c), it', w')
      | (Ok None, it', w') => (None, it', w')
      | (r, it', w') => (Some (failed r), ti_set it' (ti_off it') [], w')
      end.

    (** The iterator a caller holds; [None] is [iter::empty()]. *)
    Definition chunk_iter := option titer.

    (** tree.rs 393-411, 150-169 ([traverse0]); [stream_filtered_chunked]
        (433-451, read.rs 573-590) is a stream of the same items. *)
    Definition iter_filtered_chunked (t : Tree) (q : Query) (mk : node_info -> E) : chunk_iter :=
      match t with
      | Some (i, sec, _) => Some (ti_new sec q mk i)
      | None => None
      end.
    (** tree.rs 413-431, 171-190; [stream_filtered_chunked_reverse] (453-471,
        read.rs 619-636) likewise. *)
    Definition iter_filtered_chunked_reverse (t : Tree) (q : Query) (mk : node_info -> E) : chunk_iter :=
      match t with
      | Some (i, sec, _) => Some (ti_new_rev sec q mk i)
      | None => None
      end.

    (** [Iterator::next] on a forest. *)
    Definition next_chunk (fo : Forest) (it : chunk_iter) : option (res chunk) * Forest * chunk_iter :=
      match it with
      | None => (None, fo, None)
      | Some it =>
          let '(r, it', w) := tnext it {| w_store := fo_store fo; w_cache := fo_cache fo; w_off := 0; w_log := fo_log fo |} in
          (r, {| fo_store := w_store w; fo_cache := w_cache w; fo_log := w_log w |}, Some it')
      end.

    (** [n] calls of [next]. *)
    Fixpoint take_chunks (n : nat) (fo : Forest) (it : chunk_iter) : list (res chunk) * Forest * chunk_iter :=
      match n with
      | O => ([], fo, it)
      | S n' =>
          match next_chunk fo it with
          | (Some r, fo, it) =>
              let '(rs, fo, it) := take_chunks n' fo it in (r :: rs, fo, it)
          | (None, fo, it) => ([], fo, it)
          end
      end.
  End Chunks.
  Arguments chunk : clear implicits.
  Arguments titer : clear implicits.
  Arguments chunk_iter : clear implicits.

  (** [flat_map] of read.rs 593-617 (and [try_flatten], 560-570, for
      streams): the items of [iter_filtered], [iter_filtered_reverse], [iter_from]
      and [stream_filtered], from the items of the chunk iterator with no extra
      data. *)
  Definition flatten_chunk {E} (r : res (chunk E)) : list (res (nat * K * V)) :=
    match r with
    | Ok c => map Ok (c_data c)
    | r => [failed r]
    end.
  Definition flatten_chunks {E} (rs : list (res (chunk E))) : list (res (nat * K * V)) :=
    flat_map flatten_chunk rs.

  (** ** [IndexIter] *)

  (** index_iter.rs 16-23 *)
  Record iiter := {
    ii_sec : Secrets;
    ii_off : nat;
    ii_query : Query;
    ii_stack : list tstate;
    ii_mode : mode
  }.
  Definition ii_set (it : iiter) (off : nat) (st : list tstate) : iiter :=
    {| ii_sec := ii_sec it; ii_off := off; ii_query := ii_query it; ii_stack := st; ii_mode := ii_mode it |}.

  (** index_iter.rs 65-77 *)
  Definition ii_new (sec : Secrets) (q : Query) (i : Index) : iiter :=
    {| ii_sec := sec; ii_off := 0; ii_query := q; ii_stack := [ts_new i]; ii_mode := Forward |}.
  (** index_iter.rs 78-96 *)
  Definition ii_new_rev (sec : Secrets) (q : Query) (i : Index) : iiter :=
    {| ii_sec := sec; ii_off := icount i; ii_query := q; ii_stack := [ts_new i]; ii_mode := Backward |}.

  (** One turn of the loop, index_iter.rs 108-210. *)
  Definition istep (it : iiter) : M (iiter * option (option Index)) :=
    let m := ii_mode it in
    match ii_stack it with
    | [] => ret (it, Some None)
    | head :: below =>
        if exhausted m head then
          ret (ii_set it (ii_off it) (ascend m (head :: below)), None)
        else
          let i := ts_index head in
          match node_info_of i with
          | NBranch x l =>
              b <- load_branch_cached (ii_sec it) l ;;
              if is_nil (ts_filter head) then
                let n := List.length (branch_sums x) in
                start <- match m with
                         | Forward => ret (ii_off it)
                         | Backward => move_off Backward (ii_off it) (bi_count x)
                         end ;;
                let filter := q_intersecting (ii_query it) start x (repeat true n) in
                if negb (Nat.eqb (List.length (br_children b)) (List.length filter)) then
                  mpanic (PAssert "branch.children.len() == head.filter.len()")
                else
                  let head' := {| ts_index := i; ts_pos := first_pos m (List.length (br_children b)); ts_filter := filter |} in
                  ret (ii_set it (ii_off it) (head' :: below), Some (Some i))
              else
                bit <- at_pos (ts_filter head) (ts_pos head) ;;
                c <- at_pos (br_children b) (ts_pos head) ;;
                if bit then ret (ii_set it (ii_off it) (ts_new c :: head :: below), None)
                else
                  off <- move_off m (ii_off it) (icount c) ;;
                  ret (ii_set it off (next_pos m head :: below), None)
          | NLeaf x _ =>
              off <- move_off m (ii_off it) (List.length (leaf_keys x)) ;;
              ret (ii_set it off (ascend m (head :: below)), Some (Some i))
          | _ =>
              off <- move_off m (ii_off it) (icount i) ;;
              ret (ii_set it off (ascend m (head :: below)), Some (Some i))
          end
    end.

  (** index_iter.rs 107-212; an error leaves the state as it is (132). [fuel]
      bounds the turns of the loop. *)
  Fixpoint iloop (fuel : nat) (it : iiter) (w : world) : option (res Index) * iiter * world :=
    match fuel with
    | O => (Some NoFuel, it, w)
    | S fuel' =>
        match istep it w with
        | (Ok (it', None), w') => iloop fuel' it' w'
        | (Ok (it', Some (Some i)), w') => (Some (Ok i), it', w')
        | (Ok (it', Some None), w') => (None, it', w')
        | (r, w') => (Some (failed r), it, w')
        end
    end.

  (** Enough turns: every child passed over, and one for each branch left. *)
  Definition iturns (st : list tstate) : nat :=
    S (S (List.length st + sum_nat (map (fun s => List.length (ts_filter s)) st))).

  Definition index_iter := option iiter.

  (** tree.rs 327-338, 342-353, 192-208 *)
  Definition iter_index (t : Tree) (q : Query) : index_iter :=
    match t with Some (i, sec, _) => Some (ii_new sec q i) | None => None end.
  Definition iter_index_reverse (t : Tree) (q : Query) : index_iter :=
    match t with Some (i, sec, _) => Some (ii_new_rev sec q i) | None => None end.

  Definition next_index (fo : Forest) (it : index_iter) : option (res Index) * Forest * index_iter :=
    match it with
    | None => (None, fo, None)
    | Some it =>
        let '(r, it', w) := iloop (iturns (ii_stack it)) it {| w_store := fo_store fo; w_cache := fo_cache fo; w_off := 0; w_log := fo_log fo |} in
        (r, {| fo_store := w_store w; fo_cache := w_cache w; fo_log := w_log w |}, Some it')
    end.

  Fixpoint take_indexes (n : nat) (fo : Forest) (it : index_iter) : list (res Index) * Forest * index_iter :=
    match n with
    | O => ([], fo, it)
    | S n' =>
        match next_index fo it with
        | (Some r, fo, it) =>
            let '(rs, fo, it) := take_indexes n' fo it in (r :: rs, fo, it)
        | (None, fo, it) => ([], fo, it)
        end
    end.
End Iter.
Arguments chunk {_} _.
Arguments titer {_} _.
Arguments chunk_iter {_} _.

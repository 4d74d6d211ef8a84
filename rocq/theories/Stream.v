(** Streams over sequences of trees, forest/stream.rs, and the helpers
    [take_until_condition] and [into_stream] of util.rs. *)
From Coq Require Import List NArith ZArith Lia Bool String.
From Verif Require Import Base Cbor Types Seq Query World Read Write Api Iter.
Import ListNotations.

Section Stream.
  Context {T : Types} {X : Ext} {B : Backend T} {E : Type}.

  (** What the three functions of stream.rs share: the captured arguments, the
      atomic offset, the stream of the current tree ([flat_map]) and whether
      the stream has ended.
      - [sm_mode]: [Forward] for [stream_trees_chunked] and the threaded variant,
        [Backward] for [stream_trees_chunked_reverse];
      - [sm_stops]: wrapped in [take_until_condition];
      - [sm_end]: [None] stands for [u64::MAX], which no offset reaches;
      - [sm_lo], [sm_hi]: the range of the query for the next tree. Forward streams
        move [sm_lo] ([start_offset_ref], stream.rs 59), backward streams [sm_hi]
        ([end_offset_ref], 159). *)
  Record tstream := {
    sm_mode : mode;
    sm_stops : bool;
    sm_query : Query;
    sm_mk : node_info -> E;
    sm_start : nat;
    sm_end : option nat;
    sm_lo : nat;
    sm_hi : option nat;
    sm_cur : option (titer E);
    sm_done : bool
  }.

  Definition sm_new (m : mode) (stops : bool) (q : Query) (mk : node_info -> E) (start : nat) (end_ : option nat) : tstream :=
    {| sm_mode := m; sm_stops := stops; sm_query := q; sm_mk := mk; sm_start := start; sm_end := end_;
       sm_lo := start; sm_hi := end_; sm_cur := None; sm_done := false |}.

  (** stream.rs 42-90 *)
  Definition stream_trees_chunked (q : Query) (mk : node_info -> E) (start : nat) (end_ : option nat) : tstream :=
    sm_new Forward true q mk start end_.
  (** stream.rs 142-188 *)
  Definition stream_trees_chunked_reverse (q : Query) (mk : node_info -> E) (start : nat) (end_ : option nat) : tstream :=
    sm_new Backward true q mk start end_.

  Definition sm_with (st : tstream) (lo : nat) (hi : option nat) (cur : option (titer E)) (done : bool) : tstream :=
    {| sm_mode := sm_mode st; sm_stops := sm_stops st; sm_query := sm_query st; sm_mk := sm_mk st;
       sm_start := sm_start st; sm_end := sm_end st; sm_lo := lo; sm_hi := hi; sm_cur := cur; sm_done := done |}.

  (** The query for the next tree, stream.rs 67-68, 114-115 and 165-172 *)
  Definition sm_next_query (st : tstream) : Query :=
    and_query (offset_range_query (range_incl_opt (sm_lo st) (sm_hi st))) (sm_query st).

  (** The stream of trees has another tree: [filter_map] and the function given
      to [flat_map], stream.rs 63-71, 110-120, 161-175. [flat_map] asks for it
      only when the stream of the tree before has ended. *)
  Definition sm_feed (st : tstream) (t : Tree) : tstream :=
    match t with
    | None => st
    | Some (i, sec, _) =>
        let it :=
          match sm_mode st with
          | Forward => ti_new sec (sm_next_query st) (sm_mk st) i
          | Backward => ti_new_rev sec (sm_next_query st) (sm_mk st) i
          end in
        sm_with st (sm_lo st) (sm_hi st) (Some it) (sm_done st)
    end.

  (** [fetch_max] and [fetch_min], stream.rs 73-76, 122-125, 177-180 *)
  Definition sm_advance (st : tstream) (c : chunk E) : nat * option nat :=
    match sm_mode st with
    | Forward => (Nat.max (sm_lo st) (snd (c_range c)), sm_hi st)
    | Backward =>
        (sm_lo st, Some (match sm_hi st with Some h => Nat.min h (fst (c_range c)) | None => fst (c_range c) end))
    end.

  (** The conditions of stream.rs 84-88 and 184-187 *)
  Definition sm_reached (st : tstream) (c : chunk E) : bool :=
    match sm_mode st with
    | Forward => match sm_end st with Some e => Nat.ltb e (snd (c_range c)) | None => false end
    | Backward => Nat.leb (fst (c_range c)) (sm_start st)
    end.

  (** The stream of the current tree is asked for an item: stream.rs 71-80,
      117-128, 173-182 and [take_until_condition], util.rs 144-159. [take_while] ends
      the stream of the tree at an error, and does not pass the error on. *)
  Definition sm_next (fo : Forest) (st : tstream) : option (res (chunk E)) * Forest * tstream :=
    match sm_cur st with
    | None => (None, fo, st)
    | Some it =>
        match next_chunk fo (Some it) with
        | (Some (Ok c), fo, it') =>
            let '(lo, hi) := sm_advance st c in
            if sm_stops st && sm_reached st c then (Some (Ok c), fo, sm_with st lo hi None true)
            else (Some (Ok c), fo, sm_with st lo hi it' false)
        | (Some (Err _), fo, _) | (None, fo, _) => (None, fo, sm_with st (sm_lo st) (sm_hi st) None false)
        | (Some r, fo, _) => (Some (failed r), fo, sm_with st (sm_lo st) (sm_hi st) None true)
        end
    end.

  (** [stream_trees_chunked_threaded], stream.rs 100-132, with [into_stream],
      util.rs 97-112: the iterator of the current tree runs in a task of the
      thread pool, and sends its items to a bounded channel. [th_st] is the
      sequential stream, without end condition; [th_held] is the item the task is
      sending, [th_queue] the channel, and [th_open] says whether the consumer still
      has the receiver. *)
  Record threaded := {
    th_st : tstream;
    th_held : option (res (chunk E));
    th_queue : list (res (chunk E));
    th_open : bool
  }.

  (** stream.rs 100-115 *)
  Definition th_new (q : Query) (mk : node_info -> E) (start : nat) (end_ : option nat) : threaded :=
    {| th_st := sm_new Forward false q mk start end_; th_held := None; th_queue := []; th_open := true |}.

  (** [for value in self], util.rs 105: the task asks the iterator for an item. *)
  Definition th_produce (fo : Forest) (th : threaded) : Forest * threaded :=
    match th_held th with
    | Some _ => (fo, th)
    | None =>
        let '(r, fo, st) := sm_next fo (th_st th) in
        (fo, {| th_st := st; th_held := r; th_queue := th_queue th; th_open := th_open th |})
    end.

  (** [sender.send(value).await], util.rs 106-108: waits for room in the channel,
      and ends the task if the receiver is gone. *)
  Definition th_send (cap : nat) (th : threaded) : threaded :=
    match th_held th with
    | None => th
    | Some r =>
        if negb (th_open th) then
          {| th_st := sm_with (th_st th) (sm_lo (th_st th)) (sm_hi (th_st th)) None true;
             th_held := None; th_queue := []; th_open := false |}
        else if Nat.leb cap (List.length (th_queue th)) then th
        else {| th_st := th_st th; th_held := None; th_queue := th_queue th ++ [r]; th_open := true |}
    end.

  (** The consumer takes an item from the channel. *)
  Definition th_take (th : threaded) : option (res (chunk E)) * threaded :=
    match th_queue th with
    | c :: rest => (Some c, {| th_st := th_st th; th_held := th_held th; th_queue := rest; th_open := th_open th |})
    | [] => (None, th)
    end.

  (** The channel of the current tree is closed and empty: the task has ended,
      and everything it sent was taken. Only then [flat_map] asks for the next tree. *)
  Definition th_idle (th : threaded) : bool :=
    match sm_cur (th_st th), th_held th, th_queue th with
    | None, None, [] => th_open th && negb (sm_done (th_st th))
    | _, _, _ => false
    end.
  Definition th_feed (th : threaded) (t : Tree) : threaded :=
    {| th_st := sm_feed (th_st th) t; th_held := th_held th; th_queue := th_queue th; th_open := th_open th |}.

  (** The consumer drops the stream, and with it the receiver. *)
  Definition th_drop (th : threaded) : threaded :=
    {| th_st := th_st th; th_held := th_held th; th_queue := []; th_open := false |}.
End Stream.
Arguments tstream {_} _.
Arguments threaded {_} _.

(** The command line program of banyan-utils, bin/cli.rs: the keys it uses, and
    the two commands that work together, send-stream and recv-stream. Parsing of
    arguments and printing are not modelled; the transport of the messages is
    the relation below. *)
From Coq Require Import List NArith ZArith Lia Bool String.
From Verif Require Import Base Cbor Types Seq Query World Read Write Api Iter History Stream.
Import ListNotations.

(** * Keys *)

(** banyan-utils/src/lib.rs 8-14: the first bytes of the text, in an array of
    32 zeros. *)
Definition create_chacha_key (text : bytes) : bytes :=
  let v := firstn 32 text in v ++ repeat Byte.x00 (32 - List.length v).

(** [chacha20::Key::default()] and [Secrets::default()], forest/mod.rs 166-173 *)
Definition default_key : bytes := repeat Byte.x00 32.
Definition default_secrets : Secrets := {| index_key := default_key; value_key := default_key |}.

(** cli.rs 352-355: the secrets of graph, dump, dump-values, stream, bench,
    repair and send-stream. The others, build, filter, forget, pack and
    recv-stream, use [default_secrets] (cli.rs 230, 473, 485, 493, 504). *)
Definition cli_key (pass : option bytes) : bytes :=
  match pass with Some p => create_chacha_key p | None => default_key end.
Definition cli_secrets (index_pass value_pass : option bytes) : Secrets :=
  {| index_key := cli_key index_pass; value_key := cli_key value_pass |}.

(** * send-stream and recv-stream *)
Section Net.
  Context {T : Types} {X : Ext} {B : Backend T}.

  (** [StreamBuilder::level], stream_builder.rs 156-158; -1 for an empty tree is
      0 here, which is the same for the comparison below. *)
  Definition builder_level (b : Builder) : nat :=
    match b_root b with Some i => ilevel i | None => 0 end.

  (** cli.rs 536-540: one round of the loop of send-stream, without publishing. *)
  Definition tick (fo : Forest) (b : Builder) (e : K * V) : res unit * Forest * Builder :=
    match extend_unpacked fo b [e] with
    | (Ok _, fo, b) => if Nat.ltb 100 (builder_level b) then pack fo b else (Ok tt, fo, b)
    | r => r
    end.

  (** A sender and a receiver. They use the same store. The model also lets
      them share the cache; it may lose entries at any time.
      - [n_offset]: the variable [offset] of the sender;
      - [n_alive]: the sender has not ended with an error;
      - [n_sent]: the published links;
      - [n_got]: which of the published links the receiver has taken, for stating
        what it must deliver;
      - [n_st]: the stream of the receiver, and [n_out] what it delivered. *)
  Record net := {
    n_fo : Forest;
    n_b : Builder;
    n_offset : nat;
    n_alive : bool;
    n_sent : list L;
    n_got : list nat;
    n_st : tstream unit;
    n_out : list (res (chunk unit))
  }.

  Inductive net_op :=
  | NTick                  (* one round of the sender *)
  | NRecv (j : nat)        (* the j-th published link reaches the receiver: in any order, any number of times *)
  | NNext                  (* the receiver asks its stream for the next chunk *)
  | NStore (o : op).       (* something happens to the store or the cache *)

  Definition net_sys (n : net) : sys :=
    {| sy_fo := n_fo n; sy_se := {| se_b := n_b n; se_saved := [] |}; sy_snaps := [] |}.

  Definition with_st (n : net) (fo : Forest) (st : tstream unit) (got : list nat) (out : list (res (chunk unit))) : net :=
    {| n_fo := fo; n_b := n_b n; n_offset := n_offset n; n_alive := n_alive n; n_sent := n_sent n;
       n_got := got; n_st := st; n_out := out |}.

  (** cli.rs 529-547: the sender ends with the first error. *)
  Definition net_tick (ev : nat -> K * V) (n : net) : net :=
    if n_alive n then
      let '(r, fo, b) := tick (n_fo n) (n_b n) (ev (n_offset n)) in
      match r with
      | Ok _ =>
          {| n_fo := fo; n_b := b; n_offset := S (n_offset n); n_alive := true;
             n_sent := n_sent n ++ match builder_link b with Some l => [l] | None => [] end;
             n_got := n_got n; n_st := n_st n; n_out := n_out n |}
      | _ =>
          {| n_fo := fo; n_b := b; n_offset := n_offset n; n_alive := false; n_sent := n_sent n;
             n_got := n_got n; n_st := n_st n; n_out := n_out n |}
      end
    else n.

  (** cli.rs 505-517: the receiver loads the tree with the secrets [sec], and
      drops links for which that fails. The stream takes the next tree only when
      it has finished the one before. *)
  Definition net_recv (sec : Secrets) (j : nat) (n : net) : net :=
    match nth_error (n_sent n) j, sm_cur (n_st n), sm_done (n_st n) with
    | Some l, None, false =>
        match load_tree (n_fo n) sec l with
        | (Ok t, fo) => with_st n fo (sm_feed (n_st n) t) (n_got n ++ [j]) (n_out n)
        | (_, fo) => with_st n fo (n_st n) (n_got n ++ [j]) (n_out n)
        end
    | _, _, _ => n
    end.

  (** cli.rs 518-521 *)
  Definition net_next (n : net) : net :=
    let '(r, fo, st) := sm_next (n_fo n) (n_st n) in
    with_st n fo st (n_got n) (n_out n ++ match r with Some c => [c] | None => [] end).

  Definition net_exec (sec : Secrets) (ev : nat -> K * V) (o : net_op) (n : net) : net :=
    match o with
    | NTick => net_tick ev n
    | NRecv j => net_recv sec j n
    | NNext => net_next n
    | NStore o => with_st n (sy_fo (snd (exec o (net_sys n)))) (n_st n) (n_got n) (n_out n)
    end.

  (** The store and the cache may do what they may do in histories. *)
  Definition net_ok (k : kind) (o : net_op) (n : net) : Prop :=
    match o with
    | NStore o =>
        match o with OLose _ | OEvict _ | OOthers _ _ => op_ok o (net_sys n) /\ op_in k o | _ => False end
    | _ => True
    end.

  (** cli.rs 356-362, 531 and 518: the sender with a new builder, the receiver
      with [stream_trees(AllQuery, ..)]. *)
  Definition net_new (fo : Forest) (cfg : Config) (sec : Secrets) : net :=
    {| n_fo := fo; n_b := builder_new cfg sec; n_offset := 0; n_alive := true; n_sent := []; n_got := [];
       n_st := stream_trees_chunked all_query (fun _ => tt) 0 None; n_out := [] |}.

  (** What may happen when the receiver has the secrets [sec]. *)
  Inductive nets (k : kind) (sec : Secrets) (ev : nat -> K * V) (n0 : net) : net -> Prop :=
  | nets_start : nets k sec ev n0 n0
  | nets_step n o : nets k sec ev n0 n -> net_ok k o n -> nets k sec ev n0 (net_exec sec ev o n).
End Net.

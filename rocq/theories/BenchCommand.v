(** The command bench (banyan-utils/src/bin/cli.rs): it builds a tree of tagged
    events, reads all of it and counts the entries that two queries find.

    Simplifications: times are not modelled, only the two numbers that are printed.
    The base is none and there is one batch, as bench calls [bench_build]. For the
    entries see TagCommands.v. *)
From Coq Require Import List NArith Bool String Arith.
From Coq Require Import Strings.Byte.
From Verif Require Import Base Cbor Types Query Seq World Read Write Api Iter Tags Compact TagTypes DumpTree Cli Commands ReadCommands TagCommands.
Import ListNotations.
Open Scope list_scope.

Section Bench.
  Context {T : Types} {X : Ext} {B : Backend T}.

  (** [iter_filtered(..).count()], forest/read.rs 593-604: the entries, and the
      errors. [fuel] bounds the number of chunks. *)
  Fixpoint count_items {E} (fuel : nat) (fo : Forest) (it : chunk_iter E) : res nat * Forest :=
    match fuel with
    | O => (NoFuel, fo)
    | S fuel' =>
        match next_chunk fo it with
        | (None, fo, _) => (Ok 0, fo)
        | (Some r, fo, it) =>
            let '(n, fo) := count_items fuel' fo it in (rmap (fun n => List.length (flatten_chunk r) + n) n, fo)
        end
    end.
  Definition count_filtered (fo : Forest) (t : Tree) (q : Query) : res nat * Forest :=
    count_items (S (tree_count t)) fo (iter_filtered_chunked t q (fun _ => tt)).

  (** The entry for an offset, and the queries. *)
  Variable ev : nat -> K * V.
  Variables common rare : Query.

  (** cli.rs 276-330, with no base, one batch and not unbalanced *)
  Definition bench_build (secrets : Secrets) (config : Config) (count : nat) : prog Tree :=
    andthen (writes (fun fo => extend fo (builder_new config secrets) (map ev (seq 0 count)))) (fun b =>
    andthen (assert_invariants b) (fun _ => done (snapshot b))).

  (** cli.rs 411-465: the numbers that are printed *)
  Definition bench (secrets : Secrets) (count : nat) (fo : Forest) : list nat * res unit * Forest :=
    match bench_build secrets config_debug_fast count fo with
    | (_, Ok t, fo) =>
        match collect fo t with
        | (Ok _, fo) =>
            match count_filtered fo t common with
            | (Ok n, fo) =>
                match count_filtered fo t rare with
                | (Ok m, fo) => ([n; m], Ok tt, fo)
                | (r, fo) => ([n], failed r, fo)
                end
            | (r, fo) => ([], failed r, fo)
            end
        | (r, fo) => ([], failed r, fo)
        end
    | (_, r, fo) => ([], failed r, fo)
    end.
End Bench.

(** cli.rs 436-441 and 447-452: the queries *)
Definition query_common : list key := [k_range 0 (two64 - 1) (vs_of [fizz])].
Definition query_rare (count : nat) : list key := [k_range 0 (N.of_nat (count / 10)) (vs_of [fizzbuzz])].

Section Tagged.
  Variable utf8 : bytes -> bool.
  Context {V L : Type} (v_enc : V -> cbor) (v_dec : cbor -> option V)
    (l_eqb : L -> L -> bool) (l_cid : L -> bytes) (l_of : bytes -> option L) (nonce : bytes).
  Notation TT := (tag_types utf8 cli_tags v_enc v_dec l_eqb l_cid l_of nonce).
  Notation dnf := (dnf_query utf8 cli_tags v_enc v_dec l_eqb l_cid l_of nonce).
  Variable value : nat -> V.

  (** cli.rs 411-465; the secrets are made from the passphrases (cli.rs 335-346) *)
  Definition cmd_bench {X : Ext} {B : Backend TT} (index_pass value_pass : option bytes) (count : nat) (fo : @Forest TT B)
    : list nat * res unit * @Forest TT B :=
    @bench TT X B (built utf8 v_enc v_dec l_eqb l_cid l_of nonce value) (dnf query_common) (dnf (query_rare count))
      (cli_secrets index_pass value_pass) count fo.
End Tagged.

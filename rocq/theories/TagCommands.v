(** The entries of the command build and the query of the command filter, for trees
    of tagged events (banyan-utils/src/bin/cli.rs).

    Simplifications: the value of an entry ([offset.to_string()]) is any function of
    its number; the offsets, u64 in the code, are natural numbers (the theorems ask
    that they fit). *)
From Coq Require Import List NArith Bool String Arith.
From Coq Require Import Strings.Byte.
From Verif Require Import Base Cbor Types Query Seq World Read Write Api Iter Tags Compact TagTypes DumpTree Cli Commands ReadCommands.
Import ListNotations.
Open Scope list_scope.

(** cli.rs 240-246: the names *)
Definition fizzbuzz : tag := list_byte_of_string "fizzbuzz".
Definition fizz : tag := list_byte_of_string "fizz".
Definition buzz : tag := list_byte_of_string "buzz".
Definition other : tag := list_byte_of_string "we.like.long.identifiers.because.they.seem.professional".
Definition cli_tags : list tag := [fizzbuzz; fizz; buzz; other].

(** [Tagger::tags] (cli.rs 217-219) for one name; the table of cli.rs 207-215 only
    shares memory between equal tags. *)
Definition tagger_tags (name : tag) : tagset := vs_of [name].

(** cli.rs 236-247 *)
Definition tags_from_offset (i : nat) : tagset :=
  let fizz_ := Nat.eqb (i mod 3) 0 in
  let buzz_ := Nat.eqb (i mod 5) 0 in
  if fizz_ && buzz_ then tagger_tags fizzbuzz
  else if fizz_ then tagger_tags fizz
  else if buzz_ then tagger_tags buzz
  else tagger_tags other.

(** cli.rs 260: the key of the entry *)
Definition built_key (i : nat) : key := k_single (N.of_nat i) (N.of_nat i) (tags_from_offset i).

(** cli.rs 467-471: the query for the tags that are given *)
Definition tag_query (tags : list tag) : list key := map (fun t => k_filter (vs_of [t])) tags.

Section Tagged.
  Variable utf8 : bytes -> bool.
  Context {V L : Type} (v_enc : V -> cbor) (v_dec : cbor -> option V)
    (l_eqb : L -> L -> bool) (l_cid : L -> bytes) (l_of : bytes -> option L) (nonce : bytes).
  Notation TT := (tag_types utf8 cli_tags v_enc v_dec l_eqb l_cid l_of nonce).
  Variable value : nat -> V.

  (** cli.rs 259-262: the entry for an offset *)
  Definition built (i : nat) : @Types.K TT * @Types.V TT :=
    (match tkey_of utf8 cli_tags (built_key i) with Some k => k | None => tkey0 utf8 cli_tags end, value i).

  (** cli.rs 466-483 *)
  Definition cmd_filter_tags {X : Ext} {B : Backend TT} (tags : list tag) (root : @Types.L TT) (fo : @Forest TT B)
    : list line * list (nat * @Types.K TT * @Types.V TT) * res unit * @Forest TT B :=
    @cmd_filter TT X B (dnf_query utf8 cli_tags v_enc v_dec l_eqb l_cid l_of nonce (tag_query tags)) root fo.
End Tagged.

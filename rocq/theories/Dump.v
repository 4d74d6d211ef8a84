(** banyan-utils/src/dump.rs 131-188: printing one block. ([graph] is
    [dump_graph] of Read.v with labels.)

    Simplifications: the output is the list of the lines written; what was
    written before an error is not modelled. *)
From Coq Require Import List NArith Lia Bool String Ascii.
From Coq Require Import Strings.Byte.
From Verif Require Import Base Cbor Types Seq World.
Import ListNotations.
Open Scope res_scope.

Section Dump.
  Context {T : Types} {X : Ext} {B : Backend T}.
  (** [DagJsonCodec.encode] of an item, and [Display] of an item. *)
  Variable json : cbor -> option bytes.
  Variable show : cbor -> bytes.

  (** "ZstdDagCborSeq" *)
  Definition headline : bytes := list_byte_of_string "ZstdDagCborSeq".

  (** [items::<CborOwned>] and [items_ipld::<Ipld>],
      store/zstd_dag_cbor_seq.rs 322-347: every item is kept as it is. *)
  Definition raw_items (z : zseq) : res (list cbor) :=
    raw <- decompress (zs_data z) ;; ok_or (parse_seq raw) ECbor.

  (** dump.rs 133-160 *)
  Definition dump_json (s : Store) (l : L) (value_key nce : bytes) : res (list bytes) :=
    data <- ok_or (fst (sget s l)) EMissing ;;
    match decrypt data value_key nce with
    | Ok (z, _) =>
        items <- raw_items z ;;
        lines <- rmapM (fun c => ok_or (json c) EOther) items ;;
        Ok (headline :: lines)
    | _ =>
        '(c, _) <- ok_or (checked_prefix data) ECbor ;;
        line <- ok_or (json c) EOther ;;
        Ok [line]
    end.

  (** dump.rs 162-188: [Cbor::checked] takes the whole block. *)
  Definition dump_cbor (s : Store) (l : L) (value_key nce : bytes) : res (list bytes) :=
    data <- ok_or (fst (sget s l)) EMissing ;;
    match decrypt data value_key nce with
    | Ok (z, _) =>
        items <- raw_items z ;;
        Ok (headline :: map show items)
    | _ =>
        '(c, rest) <- ok_or (checked_prefix data) ECbor ;;
        match rest with [] => Ok [show c] | _ => Err ECbor end
    end.
End Dump.

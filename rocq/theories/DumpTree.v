(** [Forest::dump]: tree.rs 130-136 and [dump0], forest/read.rs 638-664, with
    [Display for NodeInfo], index.rs 379-426.

    Simplification: a line of the output is the record of what is printed in it;
    its text is not modelled. The lines printed before an error are modelled. *)
From Coq Require Import List NArith Lia Bool String.
From Verif Require Import Base Cbor Types Seq World Read Api.
Import ListNotations.
Open Scope list_scope.

Section DumpTree.
  Context {T : Types} {X : Ext} {B : Backend T}.

  (** What is printed for a node; [indent] is half the number of spaces before
      it. A purged leaf prints its [value_bytes] under the name [key_bytes]. *)
  Inductive node_line :=
  | LineBranch (count : nat) (key_bytes value_bytes : N) (sealed : bool) (link : option L) (children : nat)
  | LineLeaf (count : nat) (value_bytes : N) (sealed : bool) (link : option L)
  | LinePurgedBranch (count : nat) (key_bytes value_bytes : N) (sealed : bool)
  | LinePurgedLeaf (count : nat) (key_bytes : N) (sealed : bool).
  Record line := { indent : nat; node : node_line }.

  Section Dump0.
    Variable sec : Secrets.

    (** read.rs 638-664 *)
    Fixpoint dump0 (d : nat) (prefix : nat) (i : Index) (w : world) : list line * res unit * world :=
      match node_info_of i with
      | NBranch x l =>
          match d with
          | O => ([], NoFuel, w)
          | S d' =>
              match load_branch_cached sec l w with
              | (Ok b, w) =>
                  let '(ls, r, w) :=
                    (fix go (cs : list Index) (w : world) : list line * res unit * world :=
                       match cs with
                       | [] => ([], Ok tt, w)
                       | c :: cs' =>
                           match dump0 d' (prefix + 1) c w with
                           | (ls, Ok _, w) => let '(ls', r, w) := go cs' w in (ls ++ ls', r, w)
                           | r => r
                           end
                       end) (br_children b) w in
                  ({| indent := prefix; node := LineBranch (bi_count x) (bi_kbytes x) (bi_vbytes x) (bi_sealed x) (bi_link x)
                                          (List.length (br_children b)) |} :: ls, r, w)
              | (r, w) => ([], rmap (fun _ => tt) r, w)
              end
          end
      | NLeaf x _ =>
          ([{| indent := prefix; node := LineLeaf (List.length (leaf_keys x)) (li_vbytes x) (li_sealed x) (li_link x) |}], Ok tt, w)
      | NPurgedBranch x =>
          ([{| indent := prefix; node := LinePurgedBranch (bi_count x) (bi_kbytes x) (bi_vbytes x) (bi_sealed x) |}], Ok tt, w)
      | NPurgedLeaf x =>
          ([{| indent := prefix; node := LinePurgedLeaf (List.length (leaf_keys x)) (li_vbytes x) (li_sealed x) |}], Ok tt, w)
      end.
  End Dump0.

  (** tree.rs 130-136: the printed lines and the result *)
  Definition dump (fo : Forest) (t : Tree) : list line * res unit * Forest :=
    match t with
    | Some (i, sec, _) =>
        let '(ls, r, w) := dump0 sec (depth i) 0 i {| w_store := fo_store fo; w_cache := fo_cache fo; w_off := 0; w_log := fo_log fo |} in
        (ls, r, {| fo_store := w_store w; fo_cache := w_cache w; fo_log := w_log w |})
    | None => ([], Ok tt, fo)
    end.
End DumpTree.

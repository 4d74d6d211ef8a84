(** [CompactSeq] (index.rs 62-110), its default methods, and the sequences that
    come with the code: [VecSeq] and [UnitSeq] (index.rs 466-539), and the
    columns of [KeySeq] (banyan-utils/src/tags.rs 282-376).

    Simplifications: [estimated_size] is left out; the list or map that the
    derived codecs of [VecSeq] and [KeySeq] put around their fields is the one of
    libipld for a struct and is left out for [KeySeq]. *)
From Coq Require Import List NArith Lia Bool String.
From Coq Require Import Strings.Byte.
From Verif Require Import Base Cbor Types Tags.
Import ListNotations.
Open Scope list_scope.

(** The required methods of [CompactSeq], index.rs 72-77. [get] may panic. *)
Record compact (S I : Type) := {
  c_len : S -> nat;
  c_get : S -> nat -> res (option I)
}.
Arguments c_len {S I}.
Arguments c_get {S I}.

Section Defaults.
  Context {S I : Type} (C : compact S I).

  (** [Option::unwrap] *)
  Definition unwrap (r : res (option I)) : res I :=
    rbind r (fun o => match o with Some x => Ok x | None => Panic (PAssert "unwrap") end).

  (** index.rs 79-81 *)
  Definition c_first (s : S) : res I := unwrap (c_get C s 0).
  (** index.rs 83-85: [self.len() - 1] underflows for an empty sequence. *)
  Definition c_last (s : S) : res I :=
    match c_len C s with
    | O => Panic POverflow
    | Datatypes.S n => unwrap (c_get C s n)
    end.
  (** index.rs 87-89 *)
  Definition c_to_vec (s : S) : res (list I) :=
    rmapM (fun i => unwrap (c_get C s i)) (seq 0 (c_len C s)).
  (** index.rs 91-95: [bits[i]] panics if there are fewer bits than items; an item
      that [get] does not return is left out. *)
  Definition c_select (s : S) (bits : list bool) : res (list I) :=
    rmap (@List.concat I)
      (rmapM (fun i =>
         match nth_error bits i with
         | None => Panic (PAssert "index out of bounds")
         | Some false => Ok []
         | Some true => rmap (fun o => match o with Some x => [x] | None => [] end) (c_get C s i)
         end) (seq 0 (c_len C s))).
  (** index.rs 97-102 *)
  Definition c_count (s : S) : N := N.of_nat (c_len C s).
  Definition c_is_empty (s : S) : bool := Nat.eqb (c_len C s) 0.
End Defaults.

(** [VecSeq], index.rs 509-539 *)
Section VecSeq.
  Context {A : Type}.
  Record vecseq := { vq_items : list A }.
  Definition vecseq_compact : compact vecseq A := {|
    c_len := fun s => List.length (vq_items s);
    c_get := fun s i => Ok (nth_error (vq_items s) i)
  |}.
  (** index.rs 535-539 *)
  Definition vecseq_of (l : list A) : vecseq := {| vq_items := l |}.
  (** [#[derive(DagCbor)]] of a struct with one unnamed field: a list of one item. *)
  Definition vecseq_enc (enc : A -> cbor) (s : vecseq) : cbor := CArr [CArr (map enc (vq_items s))].
  Definition vecseq_dec (dec : cbor -> option A) (c : cbor) : option vecseq :=
    match c with
    | CArr [CArr l] => option_map vecseq_of (omapM dec l)
    | _ => None
    end.
End VecSeq.
Arguments vecseq : clear implicits.

(** [UnitSeq], index.rs 471-507. [usize_max] is the largest [usize]. *)
Record unitseq := { uq_count : N }.
Definition unitseq_compact : compact unitseq unit := {|
  c_len := fun s => N.to_nat (uq_count s);
  c_get := fun s i => Ok (if (N.of_nat i <? uq_count s)%N then Some tt else None)
|}.
Definition unitseq_of (l : list unit) : unitseq := {| uq_count := Nlen l |}.
(** index.rs 475-479 *)
Definition unitseq_enc (s : unitseq) : cbor := CUint (uq_count s).
(** index.rs 481-486 *)
Definition unitseq_dec (usize_max : N) (c : cbor) : option unitseq :=
  match c with
  | CUint t => if (t <? two64)%N && (t <=? usize_max)%N then Some {| uq_count := t |} else None
  | _ => None
  end.
(** [impl Summarizable<()> for T], index.rs 467-469 *)
Definition unit_sum {A} (_ : A) : unit := tt.

(** [KeySeq] as a [CompactSeq], tags.rs 302-333 *)
Definition keyseq_compact : compact keyseq key := {| c_len := kseq_len; c_get := kseq_get |}.

(** The derived codec of [KeySeq], tags.rs 281-287: the four fields. *)
Definition kseq_encode (s : keyseq) : list bytes :=
  [enc (CArr (map CUint (ks_lamport s))); enc (CArr (map CUint (ks_min s)));
   enc (CArr (map CUint (ks_max s))); ti_encode (ks_tags s)].
Definition dec_u64 (c : cbor) : option N := match c with CUint n => Some n | _ => None end.
Definition dec_column (bs : bytes) : res (list N) :=
  match checked_prefix bs with
  | Some (c, []) => match dec_vec dec_u64 c with Some l => Ok l | None => Err ECbor end
  | _ => Err ECbor
  end.
Definition kseq_decode (utf8 : bytes -> bool) (fields : list bytes) : res keyseq :=
  match fields with
  | [a; b; c; d] =>
      rbind (dec_column a) (fun lm => rbind (dec_column b) (fun mn => rbind (dec_column c) (fun mx =>
      rbind (ti_decode utf8 d) (fun tr =>
        match snd tr with
        | [] => Ok {| ks_lamport := lm; ks_min := mn; ks_max := mx; ks_tags := fst tr |}
        | _ => Err ECbor
        end))))
  | _ => Err ECbor
  end.

(** A tree with keys of any type in a [VecSeq] and without summary. *)
Section Plain.
  Context {K V L : Type}
    (k_enc : K -> cbor) (k_dec : cbor -> option K) (v_enc : V -> cbor) (v_dec : cbor -> option V)
    (l_eqb : L -> L -> bool) (l_cid : L -> bytes) (l_of : bytes -> option L) (nonce : bytes).

  (** [T::KeySeq = VecSeq<K>], [T::Summary = ()], [T::SummarySeq = UnitSeq]. *)
  Definition plain_types : Types := {|
    Types.K := K; Types.V := V; Types.Sm := unit; Types.L := L;
    Types.KS := vecseq K; Types.SS := unitseq;
    ks_of := vecseq_of;
    ks_to := fun s => match c_to_vec vecseq_compact s with Ok l => l | _ => [] end;
    ks_sum := unit_sum;
    ss_of := unitseq_of;
    ss_to := fun s => match c_to_vec unitseq_compact s with Ok l => l | _ => [] end;
    ss_sum := unit_sum;
    s_eqb := fun _ _ => true;
    Types.l_eqb := l_eqb;
    ks_enc := vecseq_enc k_enc;
    ks_dec := vecseq_dec k_dec;
    ss_enc := unitseq_enc;
    (* a count that is no [u64] is caught when it is encoded *)
    ss_dec := fun c => match c with CUint n => Some {| uq_count := n |} | _ => None end;
    Types.v_enc := v_enc;
    Types.v_dec := v_dec;
    Types.l_cid := l_cid;
    l_of_cid := l_of;
    Types.nonce := nonce
  |}.
End Plain.

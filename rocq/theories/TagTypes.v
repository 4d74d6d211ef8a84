(** [TT] (banyan-utils/src/tags.rs 20-21, 89-95): trees whose keys are a time range
    with a set of tags, as an instance of the types of Types.v, and [DnfQuery] as a
    query for such trees.

    Simplifications: the tags are drawn from a set [known] of at most 2^32 strings
    that is fixed for the stream (a larger table of tags would be numbered wrongly,
    see C46); a key of the tree is a key with a sorted set of such tags ([VecSet]),
    and a key sequence is one that [from_iter] returns for such keys: nothing else
    is ever put into a tree, and decoding rejects anything else here. The link
    type is left open; the panic of [summarize] on an empty sequence is not
    modelled (as in Types.v). *)
From Coq Require Import List NArith Lia Bool String Eqdep_dec.
From Coq Require Import Strings.Byte.
From Verif Require Import Base Cbor Types Query Tags Compact.
Import ListNotations.
Open Scope list_scope.

(** Strictly sorted. *)
Fixpoint sortedb {A} `{Ord A} (l : list A) : bool :=
  match l with
  | a :: ((b :: _) as l') => match cmp a b with Lt => sortedb l' | _ => false end
  | _ => true
  end.

(** Equality of key sequences, a derived [PartialEq]. *)
Definition keyseq_eq_dec : forall a b : keyseq, {a = b} + {a <> b}.
Proof.
  assert (N_dec : forall a b : N, {a = b} + {a <> b}) by apply N.eq_dec.
  assert (Ns_dec : forall a b : list N, {a = b} + {a <> b}) by apply (list_eq_dec N_dec).
  assert (Nss_dec : forall a b : list (list N), {a = b} + {a <> b}) by apply (list_eq_dec Ns_dec).
  assert (T_dec : forall a b : list bytes, {a = b} + {a <> b}) by apply (list_eq_dec (list_eq_dec Byte.byte_eq_dec)).
  assert (I_dec : forall a b : tag_index, {a = b} + {a <> b}) by (decide equality).
  decide equality.
Defined.

Section TagTypes.
  (** Which byte strings are UTF-8, and the tags of the stream. *)
  Variable utf8 : bytes -> bool.
  Variable known : list tag.

  (** A [Key] (tags.rs 97-107) over those tags. *)
  Definition keyb (k : key) : bool :=
    sortedb (k_tags k) && forallb (fun t => utf8 t && mem t known) (k_tags k).
  Record tkey := { tk : key; tk_ok : keyb tk = true }.
  Definition tkey_of (k : key) : option tkey :=
    match bool_dec (keyb k) true with left p => Some {| tk := k; tk_ok := p |} | right _ => None end.
  Definition tkey0 : tkey := {| tk := k_single 0 0 []; tk_ok := eq_refl |}.

  (** A [KeySeq] (tags.rs 282-287) that holds such keys, as [from_iter] builds it. *)
  Definition seqb (s : keyseq) : bool :=
    match c_to_vec keyseq_compact s with
    | Ok l => forallb keyb l
              && match kseq_from l with Ok s' => if keyseq_eq_dec s' s then true else false | _ => false end
    | _ => false
    end.
  Record tseq := { ts : keyseq; ts_ok : seqb ts = true }.
  Definition tseq_of (s : keyseq) : option tseq :=
    match bool_dec (seqb s) true with left p => Some {| ts := s; ts_ok := p |} | right _ => None end.
  Definition tseq0 : tseq :=
    {| ts := {| ks_lamport := []; ks_min := []; ks_max := []; ks_tags := {| ti_tags := []; ti_elements := [] |} |};
       ts_ok := eq_refl |}.

  (** [FromIterator<Key> for KeySeq], tags.rs 357-376 *)
  Definition tseq_from (l : list tkey) : tseq :=
    match kseq_from (map tk l) with
    | Ok s => match tseq_of s with Some x => x | None => tseq0 end
    | _ => tseq0
    end.
  (** [CompactSeq::to_vec], index.rs 87-89 *)
  Definition tseq_to (s : tseq) : list tkey :=
    match c_to_vec keyseq_compact (ts s) with
    | Ok l => match omapM tkey_of l with Some l' => l' | None => [] end
    | _ => []
    end.
  (** [Summarizable<Key> for KeySeq], tags.rs 335-354 *)
  Definition tseq_sum (s : tseq) : tkey :=
    match kseq_summarize (ts s) with
    | Ok k => match tkey_of k with Some x => x | None => tkey0 end
    | _ => tkey0
    end.

  (** The derived codec of [KeySeq] (tags.rs 281): a map with the names of the
      fields in canonical order; [TagIndex] is a list of two (tag_index.rs 30-45). *)
  Definition ti_cbor (ti : tag_index) : cbor :=
    CArr [cstrings (ti_tags ti); CArr (map cu32s (ti_elements ti))].
  Definition keyseq_cbor (s : keyseq) : cbor :=
    cmap [("tags"%string, ti_cbor (ks_tags s));
          ("max_time"%string, CArr (map CUint (ks_max s)));
          ("min_time"%string, CArr (map CUint (ks_min s)));
          ("min_lamport"%string, CArr (map CUint (ks_lamport s)))].
  (** tag_index.rs 47-69 on an item *)
  Definition ti_of_cbor (c : cbor) : option tag_index :=
    match c with
    | CArr [c1; c2] =>
        obind (dec_vec (dec_string utf8) c1) (fun tags =>
        obind (dec_vec (dec_vec dec_u32) c2) (fun elements =>
        let tags := vs_of tags in
        let elements := map vs_of elements in
        if forallb (forallb (fun x => (x <? Nlen tags)%N)) elements
        then Some {| ti_tags := tags; ti_elements := elements |} else None))
    | _ => None
    end.
  Definition keyseq_of_cbor (c : cbor) : option keyseq :=
    match c with
    | CMap m =>
        obind (obind (field "tags" m) ti_of_cbor) (fun ti =>
        obind (obind (field "max_time" m) (dec_vec dec_u64)) (fun mx =>
        obind (obind (field "min_time" m) (dec_vec dec_u64)) (fun mn =>
        obind (obind (field "min_lamport" m) (dec_vec dec_u64)) (fun lm =>
        Some {| ks_lamport := lm; ks_min := mn; ks_max := mx; ks_tags := ti |}))))
    | _ => None
    end.

  (** [PartialEq] of [Key] *)
  Definition key_eqb (a b : key) : bool :=
    (t_lamport (k_time a) =? t_lamport (k_time b))%N && (t_min (k_time a) =? t_min (k_time b))%N
    && (t_max (k_time a) =? t_max (k_time b))%N && eqb (k_tags a) (k_tags b).

  (** [impl TreeTypes for TT], tags.rs 89-95, with values and links of any type. *)
  Section Types.
    Context {V L : Type} (v_enc : V -> cbor) (v_dec : cbor -> option V)
      (l_eqb : L -> L -> bool) (l_cid : L -> bytes) (l_of : bytes -> option L) (nonce : bytes).
    Definition tag_types : Types := {|
      Types.K := tkey; Types.V := V; Types.Sm := tkey; Types.L := L;
      Types.KS := tseq; Types.SS := tseq;
      ks_of := tseq_from; ks_to := tseq_to; ks_sum := tseq_sum;
      ss_of := tseq_from; ss_to := tseq_to; ss_sum := tseq_sum;
      s_eqb := fun a b => key_eqb (tk a) (tk b);
      Types.l_eqb := l_eqb;
      ks_enc := fun s => keyseq_cbor (ts s); ks_dec := fun c => obind (keyseq_of_cbor c) tseq_of;
      ss_enc := fun s => keyseq_cbor (ts s); ss_dec := fun c => obind (keyseq_of_cbor c) tseq_of;
      Types.v_enc := v_enc; Types.v_dec := v_dec;
      Types.l_cid := l_cid; l_of_cid := l_of;
      Types.nonce := nonce
    |}.

    (** [impl Query<TT> for DnfQuery], tags.rs 262-279. It does not panic on
        sequences of such keys (C50). *)
    Definition dnf_query (q : list key) : @Query tag_types := {|
      q_containing := fun _ x m =>
        match dq_containing q (ts (@li_keys tag_types x)) m with Ok r => r | _ => m end;
      q_intersecting := fun _ x m =>
        match dq_intersecting q (ts (@bi_sums tag_types x)) m with Ok r => r | _ => m end
    |}.
  End Types.
End TagTypes.

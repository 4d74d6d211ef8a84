(** User supplied types of a banyan tree, and the index records. *)
From Coq Require Import List NArith Lia Bool String Ascii.
From Coq Require Import Strings.Byte.
From Verif Require Import Base Cbor.
Import ListNotations.
Open Scope list_scope.

(** The types and functions a user of banyan supplies: [TreeTypes]
    (banyan/src/forest/mod.rs 112-139) with its key and summary sequences
    ([CompactSeq], [Summarizable], index.rs 62-110) and the value type
    ([BanyanValue], store/mod.rs).

    Simplifications: one value type per tree; [CompactSeq::len/get/count/select]
    are expressed through [to_vec] (their default definition, index.rs 82-96);
    [T::Link] is encoded as a CID (as all implementations in the repository do);
    the panic of a user's [summarize] on an empty sequence is not modelled. *)
Class Types := {
  K : Type;                                    (* T::Key *)
  V : Type;                                    (* value type *)
  Sm : Type;                                   (* T::Summary *)
  KS : Type;                                   (* T::KeySeq *)
  SS : Type;                                   (* T::SummarySeq *)
  L : Type;                                    (* T::Link *)
  ks_of : list K -> KS;                        (* FromIterator<Key> *)
  ks_to : KS -> list K;                        (* CompactSeq::to_vec *)
  ks_sum : KS -> Sm;                           (* Summarizable<Summary> *)
  ss_of : list Sm -> SS;
  ss_to : SS -> list Sm;
  ss_sum : SS -> Sm;
  s_eqb : Sm -> Sm -> bool;                    (* PartialEq *)
  l_eqb : L -> L -> bool;                      (* PartialEq *)
  ks_enc : KS -> cbor;                         (* Encode<DagCborCodec> *)
  ks_dec : cbor -> option KS;                  (* Decode<DagCborCodec> *)
  ss_enc : SS -> cbor;
  ss_dec : cbor -> option SS;
  v_enc : V -> cbor;                           (* WriteCbor *)
  v_dec : cbor -> option V;                    (* ReadCbor *)
  l_cid : L -> bytes;                          (* binary form of the link's CID *)
  l_of_cid : bytes -> option L;
  nonce : bytes                                (* T::NONCE *)
}.

(** What banyan requires of those. *)
Class TypesLaws (T : Types) : Prop := {
  ks_to_of : forall l, ks_to (ks_of l) = l;
  ss_to_of : forall l, ss_to (ss_of l) = l;
  s_eqb_refl : forall s, s_eqb s s = true;
  l_eqb_eq : forall a b, l_eqb a b = true <-> a = b;
  ks_codec : forall k, ks_dec (ks_enc k) = Some k;
  ss_codec : forall s, ss_dec (ss_enc s) = Some s;
  v_codec : forall v, v_dec (v_enc v) = Some v;
  l_codec : forall l, l_of_cid (l_cid l) = Some l
}.

Section Index.
  Context {T : Types}.

  (** index.rs 112-124 *)
  Record LeafIndex := {
    li_sealed : bool;
    li_link : option L;
    li_keys : KS;
    li_vbytes : N
  }.

  (** index.rs 145-163. [count] and [level] are unbounded here; values that do
      not fit u64/u32 are caught when the record is encoded. *)
  Record BranchIndex := {
    bi_count : nat;
    bi_level : nat;
    bi_sealed : bool;
    bi_link : option L;
    bi_sums : SS;
    bi_vbytes : N;
    bi_kbytes : N
  }.

  (** index.rs 185-194 *)
  Inductive Index :=
  | ILeaf (li : LeafIndex)
  | IBranch (bi : BranchIndex).

  Definition leaf_keys (li : LeafIndex) : list K := ks_to (li_keys li).
  Definition branch_sums (bi : BranchIndex) : list Sm := ss_to (bi_sums bi).

  (** index.rs 217-259 *)
  Definition summarize (i : Index) : Sm :=
    match i with ILeaf x => ks_sum (li_keys x) | IBranch x => ss_sum (bi_sums x) end.
  Definition ilink (i : Index) : option L :=
    match i with ILeaf x => li_link x | IBranch x => bi_link x end.
  Definition icount (i : Index) : nat :=
    match i with ILeaf x => List.length (leaf_keys x) | IBranch x => bi_count x end.
  Definition isealed (i : Index) : bool :=
    match i with ILeaf x => li_sealed x | IBranch x => bi_sealed x end.
  Definition ilevel (i : Index) : nat :=
    match i with ILeaf _ => 0 | IBranch x => bi_level x end.
  Definition ivbytes (i : Index) : N :=
    match i with ILeaf x => li_vbytes x | IBranch x => bi_vbytes x end.
  Definition ikbytes (i : Index) : N :=
    match i with ILeaf _ => 0%N | IBranch x => bi_kbytes x end.

  (** Replace the link ([index.link = ...] in write.rs 393, 412, 424, 475, 491). *)
  Definition leaf_set_link (x : LeafIndex) (l : option L) : LeafIndex :=
    {| li_sealed := li_sealed x; li_link := l; li_keys := li_keys x; li_vbytes := li_vbytes x |}.
  Definition branch_set_link (x : BranchIndex) (l : option L) : BranchIndex :=
    {| bi_count := bi_count x; bi_level := bi_level x; bi_sealed := bi_sealed x; bi_link := l;
       bi_sums := bi_sums x; bi_vbytes := bi_vbytes x; bi_kbytes := bi_kbytes x |}.

  (** ** Wire format

      [#[derive(DagCbor)]] of [LeafIndex] and [BranchIndex] (index.rs 112, 145)
      writes a map with the field names as keys in canonical (length first)
      order; [Index] is written as the record itself (index.rs 186-194). The
      expected bytes are fixed by banyan/tests/build_check.rs 545-682. *)
  Fixpoint text_bytes (s : string) : bytes :=
    match s with
    | EmptyString => []
    | String a s' => byte_of_ascii a :: text_bytes s'
    end.
  Definition ctext (s : string) : cbor := CText (text_bytes s).
  Definition cbool (b : bool) : cbor := CSimple (if b then 21 else 20)%N.
  Definition cnull : cbor := CSimple 22%N.
  (** CID: tag 42 around a byte string with a leading zero byte. *)
  Definition ccid (c : bytes) : cbor := CTag 42 (CBytes (Byte.x00 :: c)).
  Definition clink (l : option L) : cbor :=
    match l with None => cnull | Some x => ccid (l_cid x) end.

  Definition leaf_fields (x : LeafIndex) : list (string * cbor) :=
    [("keys"%string, ks_enc (li_keys x));
     ("link"%string, clink (li_link x));
     ("sealed"%string, cbool (li_sealed x));
     ("value_bytes"%string, CUint (li_vbytes x))].

  Definition branch_fields (x : BranchIndex) : list (string * cbor) :=
    [("link"%string, clink (bi_link x));
     ("count"%string, CUint (N.of_nat (bi_count x)));
     ("level"%string, CUint (N.of_nat (bi_level x)));
     ("sealed"%string, cbool (bi_sealed x));
     ("key_bytes"%string, CUint (bi_kbytes x));
     ("summaries"%string, ss_enc (bi_sums x));
     ("value_bytes"%string, CUint (bi_vbytes x))].

  Definition cmap (fs : list (string * cbor)) : cbor :=
    CMap (map (fun f => (ctext (fst f), snd f)) fs).

  Definition enc_index (i : Index) : cbor :=
    match i with ILeaf x => cmap (leaf_fields x) | IBranch x => cmap (branch_fields x) end.

  (** Fields that are narrower than what the model stores: [level: u32]. All
      other bounds are those of [cbor_ok]. *)
  Definition index_ok (i : Index) : bool :=
    cbor_ok (enc_index i) && (N.of_nat (ilevel i) <? two32)%N.

  (** Decoding looks fields up by name, in any order; unknown fields are
      ignored, missing ones are an error (derived [Decode]). *)
  Fixpoint lookup_field (name : bytes) (l : list (cbor * cbor)) : option cbor :=
    match l with
    | [] => None
    | (CText t, v) :: l' => if bytes_eqb t name then Some v else lookup_field name l'
    | _ :: l' => lookup_field name l'
    end.
  Definition field (name : string) (l : list (cbor * cbor)) : option cbor :=
    lookup_field (text_bytes name) l.

  Definition dec_bool (c : cbor) : option bool :=
    match c with
    | CSimple 20 => Some false
    | CSimple 21 => Some true
    | _ => None
    end%N.
  Definition dec_uint (c : cbor) : option N :=
    match c with CUint n => Some n | _ => None end.
  Definition dec_link (c : cbor) : option (option L) :=
    match c with
    | CSimple 22 => Some None
    | CTag 42 (CBytes (Byte.x00 :: b)) =>
        match l_of_cid b with Some l => Some (Some l) | None => None end
    | _ => None
    end%N.

  Definition obind {A B} (o : option A) (f : A -> option B) : option B :=
    match o with Some a => f a | None => None end.

  Definition dec_leaf (m : list (cbor * cbor)) : option LeafIndex :=
    obind (obind (field "keys" m) ks_dec) (fun keys =>
    obind (obind (field "link" m) dec_link) (fun link =>
    obind (obind (field "sealed" m) dec_bool) (fun sealed =>
    obind (obind (field "value_bytes" m) dec_uint) (fun vb =>
    Some {| li_sealed := sealed; li_link := link; li_keys := keys; li_vbytes := vb |})))).

  Definition dec_branch (m : list (cbor * cbor)) : option BranchIndex :=
    obind (obind (field "link" m) dec_link) (fun link =>
    obind (obind (field "count" m) dec_uint) (fun count =>
    obind (obind (field "level" m) dec_uint) (fun level =>
    obind (obind (field "sealed" m) dec_bool) (fun sealed =>
    obind (obind (field "key_bytes" m) dec_uint) (fun kb =>
    obind (obind (field "summaries" m) ss_dec) (fun sums =>
    obind (obind (field "value_bytes" m) dec_uint) (fun vb =>
    if (two32 <=? level)%N then None else
    Some {| bi_count := N.to_nat count; bi_level := N.to_nat level; bi_sealed := sealed;
            bi_link := link; bi_sums := sums; bi_vbytes := vb; bi_kbytes := kb |}))))))).

  (** [#[ipld(repr = "kinded")]] (index.rs 187): leaf is tried first. *)
  Definition dec_index (c : cbor) : option Index :=
    match c with
    | CMap m =>
        match dec_leaf m with
        | Some x => Some (ILeaf x)
        | None => match dec_branch m with Some x => Some (IBranch x) | None => None end
        end
    | _ => None
    end.

  (** index.rs 265-268: a loaded branch. *)
  Record Branch := { br_children : list Index; br_range : N * N }.
End Index.

(** forest/mod.rs 177-195 *)
Record Config := {
  max_summary_branches : nat;
  max_key_branches : nat;
  max_leaf_count : nat;
  target_leaf_size : N;
  max_uncompressed_leaf_size : N;
  zstd_level : N
}.

(** forest/mod.rs 197-209 *)
Definition config_debug : Config :=
  {| target_leaf_size := 10000; max_leaf_count := 10; max_key_branches := 4;
     max_summary_branches := 4; zstd_level := 0;
     max_uncompressed_leaf_size := 16 * 1024 * 1024 |}%N.

(** forest/mod.rs 212-221 *)
Definition config_debug_fast : Config :=
  {| target_leaf_size := 2 ^ 14; max_leaf_count := Nat.pow 2 14; max_key_branches := 32;
     max_summary_branches := 32; zstd_level := 0;
     max_uncompressed_leaf_size := 16 * 1024 * 1024 |}%N.

(** forest/mod.rs 245-252 *)
Definition config_validate (c : Config) : bool :=
  (Nat.ltb 1 (max_summary_branches c)) &&
  (Nat.ltb 0 (max_key_branches c)) &&
  ((0 <? target_leaf_size c)%N && (target_leaf_size c <=? 1024 * 1024)%N) &&
  (max_uncompressed_leaf_size c <=? 16 * 1024 * 1024)%N &&
  ((1 <=? zstd_level c)%N && (zstd_level c <=? 22)%N).

(** The configurations for which the tree is well behaved. [Config::validate]
    implies all but the first conjunct. *)
Definition config_ok (c : Config) : Prop :=
  1 <= max_leaf_count c /\ 1 <= max_key_branches c /\ 2 <= max_summary_branches c
  /\ (max_uncompressed_leaf_size c <= 16 * 1024 * 1024)%N.

(** Maximum number of children of a branch of the given level (write.rs 129-133). *)
Definition max_branches (c : Config) (level : nat) : nat :=
  if Nat.eqb level 1 then max_key_branches c else max_summary_branches c.

(** forest/mod.rs 224-243; the assertion [level > 0] holds at all call sites
    ([level] is a maximum plus one, or the level of a branch). *)
Definition branch_sealed {T : Types} (c : Config) (items : list Index) (level : nat) : bool :=
  if existsb (fun x => negb (isealed x)) items then false
  else if existsb (fun x => negb (Nat.eqb (ilevel x) (level - 1))) items then false
  else Nat.leb (max_branches c level) (List.length items).

(** forest/mod.rs 142-173 *)
Record Secrets := { index_key : bytes; value_key : bytes }.

(** Links of banyan-utils: [Sha256Digest] and its forms, banyan-utils/src/tags.rs
    23-87, and the content identifiers (CID) of the crates it relies on.

    Simplifications: of the multibase encodings, lower case base 32 is modelled
    (the one CIDs are printed in); the decoders of all others, and of CIDs of
    version 0 that are written without a prefix, are a parameter. Numbers in a
    CID are read up to nine bytes, i.e. below [2^63]. *)
From Coq Require Import List NArith Lia Bool String Ascii.
From Coq Require Import Strings.Byte.
From Verif Require Import Base Cbor Types MemStore.
Import ListNotations.
Open Scope list_scope.

(** ** Base 32, as printed: RFC 4648 section 6 without padding, in lower case *)

(** The bits of a byte, most significant first. *)
Definition byte_bits (b : byte) : list bool :=
  map (N.testbit (byte_to_N b)) [7; 6; 5; 4; 3; 2; 1; 0]%N.
Definition bits_N (l : list bool) : N :=
  fold_left (fun acc (b : bool) => 2 * acc + (if b then 1 else 0))%N l 0%N.
Definition bits_byte (l : list bool) : byte := byte_of_N (bits_N l).

Definition alphabet : bytes := text_bytes "abcdefghijklmnopqrstuvwxyz234567".

(** Groups of five bits; missing bits of the last group are zero. *)
Fixpoint fives (l : list bool) : list (list bool) :=
  match l with
  | a :: b :: c :: d :: e :: l' => [a; b; c; d; e] :: fives l'
  | [a; b; c; d] => [[a; b; c; d; false]]
  | [a; b; c] => [[a; b; c; false; false]]
  | [a; b] => [[a; b; false; false; false]]
  | [a] => [[a; false; false; false; false]]
  | [] => []
  end.

(** Groups of eight bits. Fewer than five zero bits may be left over: more
    would be a letter that encodes nothing, others would be lost. *)
Fixpoint eights (l : list bool) : option (list (list bool)) :=
  match l with
  | a :: b :: c :: d :: e :: f :: g :: h :: l' =>
      match eights l' with
      | Some r => Some ([a; b; c; d; e; f; g; h] :: r)
      | None => None
      end
  | _ => if Nat.ltb (List.length l) 5 && forallb negb l then Some [] else None
  end.

Definition letter (l : list bool) : byte := nth (N.to_nat (bits_N l)) alphabet x00.
Fixpoint position (b : byte) (l : bytes) : option N :=
  match l with
  | [] => None
  | x :: l' =>
      if byte_eqb x b then Some 0%N
      else match position b l' with Some n => Some (n + 1)%N | None => None end
  end.
Definition letter_bits (b : byte) : option (list bool) :=
  match position b alphabet with
  | Some n => Some (map (N.testbit n) [4; 3; 2; 1; 0]%N)
  | None => None
  end.

Definition base32 (b : bytes) : bytes := map letter (fives (flat_map byte_bits b)).
Definition of_base32 (t : bytes) : option bytes :=
  match omapM letter_bits t with
  | Some ls =>
      match eights (List.concat ls) with
      | Some bs => Some (map bits_byte bs)
      | None => None
      end
  | None => None
  end.

(** ** Content identifiers: crates cid 0.8, multihash 0.16, unsigned-varint *)

Record cid := {
  cid_version : N;
  cid_codec : N;
  cid_code : N;               (* hash().code() *)
  cid_digest : bytes          (* hash().digest() *)
}.

(** Seven bits a byte, least significant first. *)
Fixpoint varint_fuel (fuel : nat) (n : N) : bytes :=
  match fuel with
  | O => []
  | S f =>
      if (n <? 128)%N then [byte_of_N n]
      else byte_of_N (n mod 128 + 128) :: varint_fuel f (n / 128)
  end.
Definition varint (n : N) : bytes := varint_fuel 9 n.

(** At most [fuel] bytes; a last byte of zero after others is refused. *)
Fixpoint read_varint_fuel (fuel : nat) (first : bool) (b : bytes) : option (N * bytes) :=
  match fuel, b with
  | S f, x :: b' =>
      let v := byte_to_N x in
      if (v <? 128)%N then
        if (v =? 0)%N && negb first then None else Some (v, b')
      else
        match read_varint_fuel f false b' with
        | Some (n, rest) => Some (v - 128 + 128 * n, rest)%N
        | None => None
        end
  | _, _ => None
  end.
Definition read_varint (b : bytes) : option (N * bytes) := read_varint_fuel 9 true b.

(** [Cid::to_bytes] *)
Definition cid_bytes (c : cid) : bytes :=
  let mh := varint (cid_code c) ++ varint (Nlen (cid_digest c)) ++ cid_digest c in
  if (cid_version c =? 0)%N then mh
  else varint (cid_version c) ++ varint (cid_codec c) ++ mh.

(** [Cid::read_bytes] with [Multihash::read]: the identifier at the start of
    some bytes; what follows it is not looked at. A multihash holds at most 64
    bytes; a CID of version 0 has the fixed start [0x12 0x20]. *)
Definition read_cid (b : bytes) : option cid :=
  match read_varint b with
  | None => None
  | Some (version, b1) =>
      match read_varint b1 with
      | None => None
      | Some (codec, b2) =>
          if (version =? 0x12)%N && (codec =? 0x20)%N then
            match take_n 32 b2 with
            | Some (d, _) =>
                Some {| cid_version := 0; cid_codec := 0x70; cid_code := 0x12; cid_digest := d |}
            | None => None
            end
          else if (version =? 1)%N then
            match read_varint b2 with
            | None => None
            | Some (code, b3) =>
                match read_varint b3 with
                | None => None
                | Some (size, b4) =>
                    if (64 <? size)%N then None
                    else
                      match take_n size b4 with
                      | Some (d, _) =>
                          Some {| cid_version := 1; cid_codec := codec; cid_code := code;
                                  cid_digest := d |}
                      | None => None
                      end
                end
            end
          else None
      end
  end.

Section Text.
  (** [multibase::decode] of a text whose prefix is not [b], and
      [Base58Btc.decode] of a text that has no prefix. *)
  Context (other_base base58 : bytes -> option bytes).

  (** [Display] of a CID of version 1: the prefix [b] and base 32. *)
  Definition cid_text (c : cid) : bytes := x62 :: base32 (cid_bytes c).

  Fixpoint starts_with (p t : bytes) : bool :=
    match p, t with
    | [], _ => true
    | x :: p', y :: t' => byte_eqb x y && starts_with p' t'
    | _, _ => false
    end.
  (** [str::find] of a delimiter: what follows its first occurrence. *)
  Fixpoint after (delim t : bytes) : option bytes :=
    if starts_with delim t then Some (skipn (List.length delim) t)
    else match t with [] => None | _ :: t' => after delim t' end.

  (** [Cid::from_str] *)
  Definition cid_of_text (t : bytes) : option cid :=
    let hash := match after (text_bytes "/ipfs/") t with Some h => h | None => t end in
    match hash with
    | p :: _ :: _ =>
        let decoded :=
          if Nat.eqb (List.length hash) 46 && starts_with (text_bytes "Qm") hash then base58 hash
          else if byte_eqb p x62 then of_base32 (tl hash)
          else other_base hash in
        match decoded with Some b => read_cid b | None => None end
    | _ => None
    end.

  (** ** [Sha256Digest] *)

  (** tags.rs 26-27 *)
  Record sha256 := { sha_bytes : bytes; sha_len : Nat.eqb (List.length sha_bytes) 32 = true }.

  (** [From<Sha256Digest> for Cid], tags.rs 51-57 *)
  Definition cid_of_sha (d : sha256) : cid :=
    {| cid_version := 1; cid_codec := 0x71; cid_code := 0x12; cid_digest := sha_bytes d |}.

  (** [TryInto<[u8; 32]>] *)
  Definition sha_of_bytes (b : bytes) : option sha256 :=
    match bool_dec (Nat.eqb (List.length b) 32) true with
    | left p => Some {| sha_bytes := b; sha_len := p |}
    | right _ => None
    end.

  (** [TryFrom<Cid> for Sha256Digest], tags.rs 59-68 *)
  Definition sha_of_cid (c : cid) : option sha256 :=
    if negb (cid_codec c =? 0x71)%N then None
    else if negb (cid_code c =? 0x12)%N then None
    else sha_of_bytes (cid_digest c).

  (** [Display] and [Debug], tags.rs 78-88 *)
  Definition sha_text (d : sha256) : bytes := cid_text (cid_of_sha d).
  (** [FromStr], tags.rs 70-76 *)
  Definition sha_of_text (t : bytes) : option sha256 :=
    match cid_of_text t with Some c => sha_of_cid c | None => None end.
End Text.

(** [PartialEq] (derived) *)
Definition sha_eqb (a b : sha256) : bool := bytes_eqb (sha_bytes a) (sha_bytes b).

(** The binary form that banyan's blocks contain, behind a tag and a zero byte
    ([Encode]/[Decode<DagCborCodec>], tags.rs 29-38). *)
Definition sha_cid (d : sha256) : bytes := cid_bytes (cid_of_sha d).
Definition sha_of_cid_bytes (b : bytes) : option sha256 :=
  match read_cid b with Some c => sha_of_cid c | None => None end.
Definition sha_enc (d : sha256) : cbor := ccid (sha_cid d).
Definition sha_dec (c : cbor) : option sha256 :=
  match c with
  | CTag 42 (CBytes (x00 :: b)) => sha_of_cid_bytes b
  | _ => None
  end%N.

(** What the references scraper of libipld reads from a tagged byte string. *)
Definition real_cid_read (b : bytes) : option bytes :=
  match read_cid b with Some c => Some (cid_bytes c) | None => None end.

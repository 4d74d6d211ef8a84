(** Concise Binary Object Representation (RFC 8949), as used by the crates
    [cbor-data] and [libipld] that banyan relies on.

    Simplifications: only definite length items; floats are kept as raw bits;
    the parser accepts non-minimal integer heads. *)
From Coq Require Import List NArith Lia Bool.
From Verif Require Import Base.
Import ListNotations.

Inductive cbor :=
| CUint (n : N)
| CNeg (n : N)
| CBytes (b : bytes)
| CText (b : bytes)
| CArr (l : list cbor)
| CMap (l : list (cbor * cbor))
| CTag (t : N) (c : cbor)
| CSimple (n : N)
| CFloat (w : nat) (bits : N).

(** Big endian encoding of [n] in [k] bytes. *)
Fixpoint be (k : nat) (n : N) : bytes :=
  match k with
  | O => []
  | S k' => be k' (n / 256) ++ [byte_of_N n]
  end.

Definition of_be (l : bytes) : N :=
  fold_left (fun acc b => acc * 256 + byte_to_N b)%N l 0%N.

(** Item head: major type and argument in the shortest form. *)
Definition enc_head (major n : N) : bytes :=
  (if n <? 24 then [byte_of_N (major * 32 + n)]
   else if n <? 256 then byte_of_N (major * 32 + 24) :: be 1 n
   else if n <? 65536 then byte_of_N (major * 32 + 25) :: be 2 n
   else if n <? two32 then byte_of_N (major * 32 + 26) :: be 4 n
   else byte_of_N (major * 32 + 27) :: be 8 n)%N.

(** The additional information value for a float of [w] bytes. *)
Definition float_ai (w : nat) : N :=
  match w with 2%nat => 25 | 4%nat => 26 | _ => 27 end%N.

Fixpoint enc (c : cbor) : bytes :=
  match c with
  | CUint n => enc_head 0 n
  | CNeg n => enc_head 1 n
  | CBytes b => enc_head 2 (Nlen b) ++ b
  | CText b => enc_head 3 (Nlen b) ++ b
  | CArr l => enc_head 4 (Nlen l) ++ flat_map enc l
  | CMap l => enc_head 5 (Nlen l) ++ flat_map (fun kv => enc (fst kv) ++ enc (snd kv)) l
  | CTag t c' => enc_head 6 t ++ enc c'
  | CSimple n => enc_head 7 n
  | CFloat w bits => byte_of_N (7 * 32 + float_ai w) :: be w bits
  end.

(** All numbers and lengths fit in 64 bits: the values for which the Rust types
    can exist at all. *)
Fixpoint cbor_ok (c : cbor) : bool :=
  match c with
  | CUint n => (n <? two64)%N
  | CNeg n => (n <? two64)%N
  | CBytes b => (Nlen b <? two64)%N
  | CText b => (Nlen b <? two64)%N
  | CArr l => (Nlen l <? two64)%N && forallb cbor_ok l
  | CMap l => (Nlen l <? two64)%N && forallb (fun kv => cbor_ok (fst kv) && cbor_ok (snd kv)) l
  | CTag t c' => (t <? two64)%N && cbor_ok c'
  | CSimple n => (n <? 24)%N
  | CFloat w bits =>
      (Nat.eqb w 2 || Nat.eqb w 4 || Nat.eqb w 8) && (bits <? 256 ^ N.of_nat w)%N
  end.

(** Take exactly [n] bytes. *)
Definition take_n (n : N) (bs : bytes) : option (bytes * bytes) :=
  if (Nlen bs <? n)%N then None
  else Some (firstn (N.to_nat n) bs, skipn (N.to_nat n) bs).

(** Parse a head: major type, additional information, argument, rest. *)
Definition parse_head (bs : bytes) : option (N * N * N * bytes) :=
  match bs with
  | [] => None
  | b :: rest =>
      let v := byte_to_N b in
      let major := (v / 32)%N in
      let ai := (v mod 32)%N in
      let arg k :=
        match take_n k rest with
        | Some (x, rest') => Some (major, ai, of_be x, rest')
        | None => None
        end in
      if (ai <? 24)%N then Some (major, ai, ai, rest)
      else match ai with
           | 24 => arg 1
           | 25 => arg 2
           | 26 => arg 4
           | 27 => arg 8
           | _ => None
           end%N
  end.

Fixpoint parse_n {A} (p : bytes -> option (A * bytes)) (n : nat) (bs : bytes)
  : option (list A * bytes) :=
  match n with
  | O => Some ([], bs)
  | S n' =>
      match p bs with
      | None => None
      | Some (x, rest) =>
          match parse_n p n' rest with
          | None => None
          | Some (xs, rest') => Some (x :: xs, rest')
          end
      end
  end.

Definition parse_pair {A} (p : bytes -> option (A * bytes)) (bs : bytes)
  : option ((A * A) * bytes) :=
  match p bs with
  | None => None
  | Some (k, rest) =>
      match p rest with
      | None => None
      | Some (v, rest') => Some ((k, v), rest')
      end
  end.

(** Split one well-formed item off the front ([Cbor::checked_prefix] of
    cbor-data, [Decode] of libipld). [fuel] bounds the nesting. *)
Fixpoint parse (fuel : nat) (bs : bytes) : option (cbor * bytes) :=
  match fuel with
  | O => None
  | S f =>
      match parse_head bs with
      | None => None
      | Some (major, ai, n, rest) =>
          match major with
          | 0 => Some (CUint n, rest)
          | 1 => Some (CNeg n, rest)
          | 2 => match take_n n rest with Some (b, r) => Some (CBytes b, r) | None => None end
          | 3 => match take_n n rest with Some (b, r) => Some (CText b, r) | None => None end
          | 4 => if (Nlen rest <? n)%N then None
                 else match parse_n (parse f) (N.to_nat n) rest with
                      | Some (l, r) => Some (CArr l, r) | None => None end
          | 5 => if (Nlen rest <? n)%N then None
                 else match parse_n (parse_pair (parse f)) (N.to_nat n) rest with
                      | Some (l, r) => Some (CMap l, r) | None => None end
          | 6 => match parse f rest with Some (c, r) => Some (CTag n c, r) | None => None end
          | 7 => if (ai <? 24)%N then Some (CSimple ai, rest)
                 else match ai with
                      | 25 => Some (CFloat 2 n, rest)
                      | 26 => Some (CFloat 4 n, rest)
                      | 27 => Some (CFloat 8 n, rest)
                      | _ => None
                      end%N
          | _ => None
          end%N
      end
  end.

(** [Cbor::checked_prefix]: one item and the remaining bytes. *)
Definition checked_prefix (bs : bytes) : option (cbor * bytes) := parse (S (length bs)) bs.

(** A sequence of items (RFC 8742) up to the end of the input. *)
Fixpoint parse_seq_fuel (fuel : nat) (bs : bytes) : option (list cbor) :=
  match bs with
  | [] => Some []
  | _ =>
      match fuel with
      | O => None
      | S f =>
          match checked_prefix bs with
          | None => None
          | Some (c, rest) =>
              match parse_seq_fuel f rest with
              | None => None
              | Some cs => Some (c :: cs)
              end
          end
      end
  end.

Definition parse_seq (bs : bytes) : option (list cbor) := parse_seq_fuel (length bs) bs.

(** Publish and subscribe over an IPFS node: banyan-utils/src/ipfs.rs 21-107, and
    what recv-stream makes of the messages, bin/cli.rs 505-517.

    Simplifications: of base 64, the texts that the encoder writes are decoded
    here; what the decoder makes of all others is a parameter. Likewise the JSON
    reader [event_data]: it gives the text of the field [data] of a text that is
    exactly one JSON object with the four fields of [IpfsPubsubEventIo], 60-71.
    The URL parser leaves a query of letters, digits, [%], [=] and [&] alone.
    The connection is the list of chunks that the HTTP client hands on. *)
From Coq Require Import List NArith Arith Lia Bool String.
From Coq Require Import Strings.Byte.
From Verif Require Import Base Cbor Types MemStore Links.
Import ListNotations.
Open Scope list_scope.

(** ** Base 64, RFC 4648 section 4: [base64::encode] and [base64::decode] *)
Definition alphabet64 : bytes :=
  text_bytes "ABCDEFGHIJKLMNOPQRSTUVWXYZabcdefghijklmnopqrstuvwxyz0123456789+/".
Definition pad64 : byte := x3d.

Fixpoint sixes (l : list bool) : list (list bool) :=
  match l with
  | a :: b :: c :: d :: e :: f :: l' => [a; b; c; d; e; f] :: sixes l'
  | [a; b; c; d; e] => [[a; b; c; d; e; false]]
  | [a; b; c; d] => [[a; b; c; d; false; false]]
  | [a; b; c] => [[a; b; c; false; false; false]]
  | [a; b] => [[a; b; false; false; false; false]]
  | [a] => [[a; false; false; false; false; false]]
  | [] => []
  end.
Definition letter64 (l : list bool) : byte := nth (N.to_nat (bits_N l)) alphabet64 x00.
Definition letter64_bits (b : byte) : option (list bool) :=
  match position b alphabet64 with
  | Some n => Some (map (N.testbit n) [5; 4; 3; 2; 1; 0]%N)
  | None => None
  end.
Definition padding64 (body : bytes) : bytes := repeat pad64 ((4 - List.length body mod 4) mod 4).
Definition base64 (b : bytes) : bytes :=
  let body := map letter64 (sixes (flat_map byte_bits b)) in body ++ padding64 body.

Fixpoint before (x : byte) (t : bytes) : bytes * bytes :=
  match t with
  | [] => ([], [])
  | y :: r => if byte_eqb y x then ([], t) else let '(a, c) := before x r in (y :: a, c)
  end.
Definition of_base64 (other : bytes -> option bytes) (t : bytes) : option bytes :=
  let '(body, rest) := before pad64 t in
  if bytes_eqb rest (padding64 body) then
    match omapM letter64_bits body with
    | Some ls =>
        match eights (List.concat ls) with
        | Some bs => Some (map bits_byte bs)
        | None => other t
        end
    | None => other t
    end
  else other t.

(** ** Queries of URLs *)
Definition in_range (lo hi b : byte) : bool := (byte_to_N lo <=? byte_to_N b)%N && (byte_to_N b <=? byte_to_N hi)%N.
Definition alphanumeric (b : byte) : bool :=
  in_range x30 x39 b || in_range x41 x5a b || in_range x61 x7a b.
Definition hex_digits : bytes := text_bytes "0123456789ABCDEF".
Definition escape (b : byte) : bytes :=
  [x25; nth (N.to_nat (byte_to_N b / 16)) hex_digits x00; nth (N.to_nat (byte_to_N b mod 16)) hex_digits x00].

(** [percent_encode(.., NON_ALPHANUMERIC)], 97-98 *)
Definition percent_encode (t : bytes) : bytes :=
  flat_map (fun b => if alphanumeric b then [b] else escape b) t.

(** The query of [Url::parse_with_params], 74-77: crate form_urlencoded. *)
Definition form_byte (b : byte) : bytes :=
  if alphanumeric b || existsb (byte_eqb b) [x2a; x2d; x2e; x5f] then [b]
  else if byte_eqb b x20 then [x2b] else escape b.
Definition form_encode (t : bytes) : bytes := flat_map form_byte t.

(** [pubsub_pub] and [pubsub_sub]: the query that is sent, 99-102 and 74-77 *)
Definition pub_query (topic data : bytes) : bytes :=
  text_bytes "arg=" ++ percent_encode topic ++ text_bytes "&arg=" ++ percent_encode data.
Definition sub_query (topic : bytes) : bytes := text_bytes "arg=" ++ form_encode topic.

(** ** Messages *)
Section Messages.
  (** The JSON reader and the unusual forms of base 64 *)
  Variable event_data : bytes -> option bytes.
  Variable other64 : bytes -> option bytes.
  (** [String::from_utf8] succeeds *)
  Variable utf8 : bytes -> bool.
  (** The unusual forms of links, see [sha_of_text] *)
  Variables (other_base base58 : bytes -> option bytes).

  (** [pubsub_sub], 86-89: each chunk of the body is taken for one event; an
      error of the reader is a panic ([unwrap]). *)
  Definition sub_chunk (chunk : bytes) : res bytes :=
    match event_data chunk with
    | Some t => match of_base64 other64 t with Some d => Ok d | None => Panic (PAssert "unwrap") end
    | None => Panic (PAssert "unwrap")
    end.

  (** cli.rs 507-508: the link in a message, if it is one *)
  Definition message_link (d : bytes) : option sha256 :=
    if utf8 d then sha_of_text other_base base58 d else None.

  (** cli.rs 505-517: the links that reach [load_tree], and whether the program
      still runs. A chunk [None] is an error of the connection; it and messages
      that are no links are dropped ([filter_map]). *)
  Fixpoint recv_links (body : list (option bytes)) : list sha256 * bool :=
    match body with
    | [] => ([], true)
    | None :: body' => recv_links body'
    | Some c :: body' =>
        match sub_chunk c with
        | Ok d =>
            let '(ls, up) := recv_links body' in
            (match message_link d with Some l => l :: ls | None => ls end, up)
        | _ => ([], false)
        end
    end.
End Messages.

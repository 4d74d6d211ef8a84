(** JSON text as [serde_json] 1.0.74 writes and reads it (banyan-utils/Cargo.toml 41;
    used in banyan-utils/src/tag_index.rs 495-536, ipfs.rs 87, dump.rs), and the
    [Serialize] and [Deserialize] instances of banyan-utils:
    tag_index.rs 71-96 ([TagIndex]), tags.rs 96-107 ([Key], [TimeData]) and
    tags.rs 281-287 ([KeySeq]).

    Simplifications: reading builds the whole document first and then picks the
    fields, where [serde_json] does both at once, so that only the moment of an error
    differs; the limit of 128 nested brackets is left out; all numbers that are not
    integers between 0 and 2^64-1 are one value ([JReal]). The input is a [&str], so
    the check for UTF-8 has happened. *)
From Coq Require Import List NArith Lia Bool String.
From Coq Require Import Strings.Byte.
From Verif Require Import Base Types Tags.
Import ListNotations.
Open Scope list_scope.

Inductive json :=
| JNull
| JBool (b : bool)
| JNum (n : N)
| JReal
| JStr (s : bytes)
| JArr (l : list json)
| JObj (l : list (bytes * json)).

(** * Writing: [serde_json::to_string] with its [CompactFormatter] *)

(** [itoa]: at most twenty digits, the most significant one first. *)
Definition digit (n : N) : byte := byte_of_N (48 + n).
Fixpoint decimal_to (k : nat) (n : N) (acc : bytes) : bytes :=
  match k with
  | O => acc
  | S k' => if (n <? 10)%N then digit n :: acc else decimal_to k' (n / 10) (digit (n mod 10) :: acc)
  end.
Definition decimal (n : N) : bytes := decimal_to 20 n [].

(** [format_escaped_str]: a table says how each byte is written. *)
Definition hexdigit (n : N) : byte := nth (N.to_nat n) (text_bytes "0123456789abcdef") x00.
Definition escape_byte (b : byte) : bytes :=
  match b with
  | x22 => [x5c; x22]
  | x5c => [x5c; x5c]
  | x08 => [x5c; x62]
  | x0c => [x5c; x66]
  | x0a => [x5c; x6e]
  | x0d => [x5c; x72]
  | x09 => [x5c; x74]
  | _ =>
      if (byte_to_N b <? 32)%N
      then [x5c; x75; x30; x30; hexdigit (byte_to_N b / 16); hexdigit (byte_to_N b mod 16)]
      else [b]
  end.
Definition quoted (s : bytes) : bytes := x22 :: flat_map escape_byte s ++ [x22].

(** Arrays and objects, without any space. A [JReal] never occurs in what
    banyan-utils writes. *)
Definition commas (l : list bytes) : bytes :=
  match l with
  | [] => []
  | x :: l' => x ++ flat_map (fun y => x2c :: y) l'
  end.
Fixpoint jwrite (j : json) : bytes :=
  match j with
  | JNull => text_bytes "null"
  | JBool true => text_bytes "true"
  | JBool false => text_bytes "false"
  | JNum n => decimal n
  | JReal => text_bytes "0.0"
  | JStr s => quoted s
  | JArr l => x5b :: commas (map jwrite l) ++ [x5d]
  | JObj l => x7b :: commas (map (fun kv => quoted (fst kv) ++ x3a :: jwrite (snd kv)) l) ++ [x7d]
  end.

(** * Reading: [serde_json::from_str] *)

(** [parse_whitespace] *)
Fixpoint skip_ws (bs : bytes) : bytes :=
  match bs with
  | (x20 | x0a | x09 | x0d) :: r => skip_ws r
  | _ => bs
  end.

Definition is_digit (b : byte) : bool := ((48 <=? byte_to_N b) && (byte_to_N b <=? 57))%N.
(** The digits at the front, and what follows. *)
Fixpoint digits (bs : bytes) : bytes * bytes :=
  match bs with
  | b :: r => if is_digit b then let (d, r') := digits r in (b :: d, r') else ([], bs)
  | [] => ([], [])
  end.
Definition of_digits (d : bytes) : N :=
  fold_left (fun acc b => acc * 10 + (byte_to_N b - 48))%N d 0%N.

(** [parse_integer], [parse_decimal], [parse_exponent]: no leading zeros, at least
    one digit in every part. *)
Definition exponent (bs : bytes) : option bytes :=
  match bs with
  | (x65 | x45) :: r =>
      let r := match r with (x2b | x2d) :: r' => r' | _ => r end in
      match digits r with ([], _) => None | (_, r') => Some r' end
  | _ => Some bs
  end.
Definition whole (d : bytes) : bool :=
  match d with [] => false | x30 :: _ :: _ => false | _ => true end.
Definition unsigned (bs : bytes) : option (json * bytes) :=
  let (d, r) := digits bs in
  if whole d then
    match r with
    | x2e :: r' =>
        match digits r' with
        | ([], _) => None
        | (_, r'') => option_map (fun r => (JReal, r)) (exponent r'')
        end
    | (x65 | x45) :: _ => option_map (fun r => (JReal, r)) (exponent r)
    | _ => Some (if (of_digits d <? two64)%N then JNum (of_digits d) else JReal, r)
    end
  else None.
Definition number (bs : bytes) : option (json * bytes) :=
  match bs with
  | x2d :: r => option_map (fun jr => (JReal, snd jr)) (unsigned r)
  | _ => unsigned bs
  end.

(** [decode_hex_escape] *)
Definition hexval (b : byte) : option N :=
  let n := byte_to_N b in
  (if (48 <=? n) && (n <=? 57) then Some (n - 48)
   else if (97 <=? n) && (n <=? 102) then Some (n - 87)
   else if (65 <=? n) && (n <=? 70) then Some (n - 55)
   else None)%N.
Definition hex4 (a b c d : byte) : option N :=
  match hexval a, hexval b, hexval c, hexval d with
  | Some a, Some b, Some c, Some d => Some (((a * 16 + b) * 16 + c) * 16 + d)%N
  | _, _, _, _ => None
  end.
(** [char::encode_utf8] *)
Definition utf8_of (n : N) : bytes :=
  (if n <? 128 then [byte_of_N n]
   else if n <? 2048 then [byte_of_N (192 + n / 64); byte_of_N (128 + n mod 64)]
   else if n <? 65536 then [byte_of_N (224 + n / 4096); byte_of_N (128 + (n / 64) mod 64); byte_of_N (128 + n mod 64)]
   else [byte_of_N (240 + n / 262144); byte_of_N (128 + (n / 4096) mod 64);
         byte_of_N (128 + (n / 64) mod 64); byte_of_N (128 + n mod 64)])%N.
(** [parse_escape] for one character after the backslash *)
Definition simple_escape (b : byte) : option byte :=
  match b with
  | x22 => Some x22 | x5c => Some x5c | x2f => Some x2f | x62 => Some x08
  | x66 => Some x0c | x6e => Some x0a | x72 => Some x0d | x74 => Some x09
  | _ => None
  end.

(** [parse_str], after the opening quote. Two escapes with a pair of surrogates make
    one character, and a surrogate alone is an error. *)
Fixpoint string_end (bs : bytes) : option (bytes * bytes) :=
  match bs with
  | [] => None
  | x22 :: r => Some ([], r)
  | x5c :: x75 :: a :: b :: c :: d :: r =>
      match hex4 a b c d with
      | None => None
      | Some n =>
          if ((55296 <=? n) && (n <=? 56319))%N then
            match r with
            | x5c :: x75 :: a' :: b' :: c' :: d' :: r' =>
                match hex4 a' b' c' d' with
                | None => None
                | Some m =>
                    if ((56320 <=? m) && (m <=? 57343))%N
                    then option_map (fun sr => (utf8_of (65536 + (n - 55296) * 1024 + (m - 56320)) ++ fst sr, snd sr)) (string_end r')
                    else None
                end
            | _ => None
            end
          else if ((56320 <=? n) && (n <=? 57343))%N then None
          else option_map (fun sr => (utf8_of n ++ fst sr, snd sr)) (string_end r)
      end
  | x5c :: e :: r =>
      match simple_escape e with
      | None => None
      | Some b => option_map (fun sr => (b :: fst sr, snd sr)) (string_end r)
      end
  | b :: r => if (byte_to_N b <? 32)%N then None else option_map (fun sr => (b :: fst sr, snd sr)) (string_end r)
  end.

(** [parse_ident] *)
Fixpoint ident (w bs : bytes) : option bytes :=
  match w, bs with
  | [], _ => Some bs
  | a :: w', b :: r => if byte_eqb a b then ident w' r else None
  | _, [] => None
  end.
Definition word (w : string) (j : json) (bs : bytes) : option (json * bytes) :=
  option_map (fun r => (j, r)) (ident (text_bytes w) bs).

(** [deserialize_any], [SeqAccess] and [MapAccess] of the reader. No comma may
    precede a closing bracket. *)
Fixpoint jval (fuel : nat) (bs : bytes) : option (json * bytes) :=
  match fuel with
  | O => None
  | S f =>
      let bs := skip_ws bs in
      match bs with
      | x22 :: r => option_map (fun sr => (JStr (fst sr), snd sr)) (string_end r)
      | x5b :: r =>
          match skip_ws r with
          | x5d :: r' => Some (JArr [], r')
          | r' => option_map (fun lr => (JArr (fst lr), snd lr)) (jelems f r')
          end
      | x7b :: r =>
          match skip_ws r with
          | x7d :: r' => Some (JObj [], r')
          | r' => option_map (fun lr => (JObj (fst lr), snd lr)) (jmembers f r')
          end
      | x6e :: _ => word "null" JNull bs
      | x74 :: _ => word "true" (JBool true) bs
      | x66 :: _ => word "false" (JBool false) bs
      | _ => number bs
      end
  end
with jelems (fuel : nat) (bs : bytes) : option (list json * bytes) :=
  match fuel with
  | O => None
  | S f =>
      match jval f bs with
      | None => None
      | Some (j, r) =>
          match skip_ws r with
          | x5d :: r' => Some ([j], r')
          | x2c :: r' => option_map (fun lr => (j :: fst lr, snd lr)) (jelems f r')
          | _ => None
          end
      end
  end
with jmembers (fuel : nat) (bs : bytes) : option (list (bytes * json) * bytes) :=
  match fuel with
  | O => None
  | S f =>
      match skip_ws bs with
      | x22 :: r =>
          match string_end r with
          | None => None
          | Some (k, r1) =>
              match skip_ws r1 with
              | x3a :: r2 =>
                  match jval f r2 with
                  | None => None
                  | Some (j, r3) =>
                      match skip_ws r3 with
                      | x7d :: r' => Some ([(k, j)], r')
                      | x2c :: r' => option_map (fun lr => ((k, j) :: fst lr, snd lr)) (jmembers f r')
                      | _ => None
                      end
                  end
              | _ => None
              end
          end
      | _ => None
      end
  end.

(** [from_str]: one value, and nothing but space behind it. Every call above uses up
    a byte or is followed by one that does, so that the fuel suffices. *)
Definition jread (bs : bytes) : option json :=
  match jval (2 * List.length bs + 2) bs with
  | Some (j, r) => match skip_ws r with [] => Some j | _ => None end
  | None => None
  end.

(** * Serde *)

(** [Deserialize] for [u64], [u32], [SmolStr], [Vec] *)
Definition de_u64 (j : json) : option N :=
  match j with JNum n => if (n <? two64)%N then Some n else None | _ => None end.
Definition de_u32 (j : json) : option N :=
  match j with JNum n => if (n <? two32)%N then Some n else None | _ => None end.
Definition de_str (j : json) : option tag :=
  match j with JStr s => Some s | _ => None end.
Definition de_vec {A} (f : json -> option A) (j : json) : option (list A) :=
  match j with JArr l => omapM f l | _ => None end.
(** [Deserialize] for [VecSet] (vec-collections 0.3.5): sorted, without duplicates *)
Definition de_set {A} `{Ord A} (f : json -> option A) (j : json) : option (vset A) :=
  option_map vs_of (de_vec f j).
(** The derived [Deserialize] of a struct: an object with each of the fields once, in
    any order, others are skipped; or an array with the fields in their order. *)
Definition de_struct (names : list string) (j : json) : option (list json) :=
  match j with
  | JArr l => if Nat.eqb (List.length l) (List.length names) then Some l else None
  | JObj m =>
      omapM (fun n => match filter (fun kv => eqb (fst kv) (text_bytes n)) m with
                      | [(_, v)] => Some v
                      | _ => None
                      end) names
  | _ => None
  end.

Definition se_set (l : list tag) : json := JArr (map JStr l).
Definition se_nums (l : list N) : json := JArr (map JNum l).

(** [Serialize for TagIndex], tag_index.rs 71-78 *)
Definition se_index (ti : tag_index) : json :=
  JArr [se_set (ti_tags ti); JArr (map se_nums (ti_elements ti))].
(** [Deserialize for TagIndex], tag_index.rs 80-96 *)
Definition de_index (j : json) : option tag_index :=
  match j with
  | JArr [j1; j2] =>
      match de_set de_str j1, de_vec (de_set de_u32) j2 with
      | Some tags, Some elements =>
          if existsb (existsb (fun x => (Nlen tags <=? x)%N)) elements
          then None
          else Some {| ti_tags := tags; ti_elements := elements |}
      | _, _ => None
      end
  | _ => None
  end.

(** The derived instances of [TimeData] and [Key], tags.rs 96-107 *)
Definition se_time (t : time) : json :=
  JObj [(text_bytes "min_lamport", JNum (t_lamport t)); (text_bytes "min_time", JNum (t_min t));
        (text_bytes "max_time", JNum (t_max t))].
Definition de_time (j : json) : option time :=
  match de_struct ["min_lamport"; "min_time"; "max_time"]%string j with
  | Some [a; b; c] =>
      match de_u64 a, de_u64 b, de_u64 c with
      | Some a, Some b, Some c => Some {| t_lamport := a; t_min := b; t_max := c |}
      | _, _, _ => None
      end
  | _ => None
  end.
Definition se_key (k : key) : json :=
  JObj [(text_bytes "time", se_time (k_time k)); (text_bytes "tags", se_set (k_tags k))].
Definition de_key (j : json) : option key :=
  match de_struct ["time"; "tags"]%string j with
  | Some [a; b] =>
      match de_time a, de_set de_str b with
      | Some t, Some s => Some {| k_time := t; k_tags := s |}
      | _, _ => None
      end
  | _ => None
  end.

(** The derived instances of [KeySeq], tags.rs 281-287 *)
Definition se_keyseq (s : keyseq) : json :=
  JObj [(text_bytes "min_lamport", se_nums (ks_lamport s)); (text_bytes "min_time", se_nums (ks_min s));
        (text_bytes "max_time", se_nums (ks_max s)); (text_bytes "tags", se_index (ks_tags s))].
Definition de_keyseq (j : json) : option keyseq :=
  match de_struct ["min_lamport"; "min_time"; "max_time"; "tags"]%string j with
  | Some [a; b; c; d] =>
      match de_vec de_u64 a, de_vec de_u64 b, de_vec de_u64 c, de_index d with
      | Some a, Some b, Some c, Some ti => Some {| ks_lamport := a; ks_min := b; ks_max := c; ks_tags := ti |}
      | _, _, _, _ => None
      end
  | _ => None
  end.

(** [serde_json::to_string] and [serde_json::from_str] at these types *)
Definition to_string {A} (se : A -> json) (x : A) : bytes := jwrite (se x).
Definition from_str {A} (de : json -> option A) (bs : bytes) : option A :=
  match jread bs with Some j => de j | None => None end.

(** [Deserialize for Base64Blob] and [IpfsPubsubEventIo], ipfs.rs 33-73: the text in
    base 64 that an event holds. The other three fields have to be there. *)
Definition de_event (j : json) : option bytes :=
  match de_struct ["data"; "from"; "seqno"; "topicIDs"]%string j with
  | Some [JStr d; _; _; _] => Some d
  | _ => None
  end.

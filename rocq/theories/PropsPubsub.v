(** C89: a published link reaches the subscribers as the same link. *)
From Coq Require Import List NArith Arith Lia Bool String.
From Coq Require Import Strings.Byte.
From Verif Require Import Base BaseProofs Cbor Types MemStore Links PropsLinks Pubsub.
Import ListNotations.
Open Scope list_scope.

(** * Specification: what the node does

    It takes a query apart at [&] and at the first [=], and reads [+] as a space
    and [%XX] as a byte. *)
Fixpoint split_at (x : byte) (t : bytes) : list bytes :=
  match t with
  | [] => [[]]
  | y :: r =>
      if byte_eqb y x then [] :: split_at x r
      else match split_at x r with [] => [[y]] | p :: ps => (y :: p) :: ps end
  end.
Fixpoint unescape (t : bytes) : option bytes :=
  match t with
  | [] => Some []
  | y :: r =>
      if byte_eqb y x25 then
        match r with
        | a :: b :: r' =>
            match position a hex_digits, position b hex_digits, unescape r' with
            | Some h, Some l, Some s => Some (byte_of_N (16 * h + l) :: s)
            | _, _, _ => None
            end
        | _ => None
        end
      else match unescape r with
           | Some s => Some ((if byte_eqb y x2b then x20 else y) :: s)
           | None => None
           end
  end.
Definition argument (t : bytes) : option (bytes * bytes) :=
  let '(name, value) := before x3d t in
  match unescape name, unescape (tl value) with
  | Some n, Some v => Some (n, v)
  | _, _ => None
  end.
Definition arguments (q : bytes) : option (list (bytes * bytes)) := omapM argument (split_at x26 q).

(** A subscriber gets the data of the requests to publish under its topic. *)
Definition deliver (sub : bytes) (pubs : list bytes) : list bytes :=
  match arguments sub with
  | Some [(_, topic)] =>
      flat_map (fun p =>
        match arguments p with
        | Some [(_, t); (_, d)] => if bytes_eqb t topic then [d] else []
        | _ => []
        end) pubs
  | _ => []
  end.

(** The node sends an event as one JSON object with the data in base 64. *)
Definition sends (event_data : bytes -> option bytes) (event : bytes -> bytes) : Prop :=
  forall d, event_data (event d) = Some (base64 d).

(** ASCII texts are UTF-8. *)
Definition ascii_ok (utf8 : bytes -> bool) : Prop :=
  forall t, Forall (fun b => byte_to_N b < 128)%N t -> utf8 t = true.

(** * Base 64 *)
Lemma bytes_eqb_refl a : bytes_eqb a a = true.
Proof. now apply bytes_eqb_eq. Qed.

Lemma letter64_of a b c d e f : letter64_bits (letter64 [a; b; c; d; e; f]) = Some [a; b; c; d; e; f].
Proof. now destruct a, b, c, d, e, f. Qed.

Lemma sixes_ind (P : list bool -> Prop) :
  (forall l, List.length l < 6 -> P l) ->
  (forall a b c d e f l, P l -> P (a :: b :: c :: d :: e :: f :: l)) ->
  forall l, P l.
Proof.
  intros H0 H1 l. remember (List.length l) as n eqn:En.
  revert l En. induction n as [n IH] using lt_wf_ind. intros l ->.
  destruct l as [|a [|b [|c [|d [|e [|f l]]]]]]; try (apply H0; cbn; lia).
  apply H1. eapply IH; [|reflexivity]. cbn. lia.
Qed.

Lemma sixes_letters l : exists k, k < 6 /\
  omapM letter64_bits (map letter64 (sixes l)) = Some (sixes l)
  /\ List.concat (sixes l) = l ++ repeat false k
  /\ List.length l + k = 6 * List.length (sixes l).
Proof.
  induction l as [l H|a b c d e f l IH] using sixes_ind.
  - destruct l as [|a [|b [|c [|d [|e [|f l]]]]]]; cbn [List.length] in H; [| | | | | |lia].
    + exists 0. repeat split; lia.
    + exists 5. repeat split; [lia|now destruct a].
    + exists 4. repeat split; [lia|now destruct a, b].
    + exists 3. repeat split; [lia|now destruct a, b, c].
    + exists 2. repeat split; [lia|now destruct a, b, c, d].
    + exists 1. repeat split; [lia|now destruct a, b, c, d, e].
  - destruct IH as [k [Hk [H1 [H2 H3]]]]. exists k. split; [easy|].
    cbn [sixes map omapM]. rewrite letter64_of, H1. split; [easy|].
    cbn [List.concat app List.length]. rewrite H2. split; [easy|]. lia.
Qed.

Lemma bits_length b : List.length (flat_map byte_bits b) = 8 * List.length b.
Proof.
  induction b as [|x b IH]; [easy|].
  cbn [flat_map]. rewrite app_length, IH. cbn [byte_bits map List.length]. lia.
Qed.

Lemma before_app x a r : Forall (fun y => byte_eqb y x = false) a ->
  (r = [] \/ exists r', r = x :: r') -> before x (a ++ r) = (a, r).
Proof.
  intros Ha Hr. induction Ha as [|y a Hy _ IH]; cbn [app before].
  - destruct Hr as [->|[r' ->]]; [reflexivity|]. cbn. now destruct x.
  - rewrite Hy, IH. reflexivity.
Qed.

Lemma letter64_in l : In (letter64 l) (x00 :: alphabet64).
Proof.
  unfold letter64. destruct (nth_in_or_default (N.to_nat (bits_N l)) alphabet64 x00) as [H|H]; [right; exact H|left; now symmetry].
Qed.

Lemma letters64 l (P : byte -> bool) : forallb P (x00 :: alphabet64) = true -> Forall (fun y => P y = true) (map letter64 l).
Proof.
  intros H. rewrite forallb_forall in H. apply Forall_forall. intros y Hy. apply in_map_iff in Hy.
  destruct Hy as [g [<- _]]. apply H, letter64_in.
Qed.

(** Data in base 64 is read as the same data. *)
Theorem C89_base64 other b : of_base64 other (base64 b) = Some b.
Proof.
  unfold base64, of_base64. destruct (sixes_letters (flat_map byte_bits b)) as [k [Hk [H1 [H2 H3]]]].
  rewrite bits_length in H3.
  rewrite before_app.
  - rewrite bytes_eqb_refl, H1, H2, eights_bytes by lia. f_equal. rewrite map_map.
    rewrite <- (map_id b) at 2. apply map_ext. apply bits_byte_bits.
  - assert (G := letters64 (sixes (flat_map byte_bits b)) (fun y => negb (byte_eqb y pad64)) eq_refl).
    eapply Forall_impl; [|exact G]. intros y Hy. now apply negb_true_iff.
  - unfold padding64. destruct (_ mod 4) as [|n]; [now left|right]. cbn [repeat]. eauto.
Qed.

(** The letter for a number below 64: A-Z, a-z, 0-9, + and / (RFC 4648, table 1). *)
Definition char64 (n : N) : N :=
  (if n <? 26 then 65 + n else if n <? 52 then 71 + n else if n <? 62 then n - 4 else if n =? 62 then 43 else 47)%N.
(** [t] is the text [cs] of numbers below 64, followed by [rest]. *)
Definition chars64 (ns : list N) (t rest : bytes) : Prop :=
  Forall (fun n => (n < 64)%N) ns
  /\ exists l, t = l ++ rest /\ map Byte.to_N l = map char64 ns.

Lemma byte_bits_N b : exists b7 b6 b5 b4 b3 b2 b1 b0, byte_bits b = [b7; b6; b5; b4; b3; b2; b1; b0]
  /\ Byte.to_N b = (128 * N.b2n b7 + 64 * N.b2n b6 + 32 * N.b2n b5 + 16 * N.b2n b4 + 8 * N.b2n b3 + 4 * N.b2n b2 + 2 * N.b2n b1 + N.b2n b0)%N.
Proof. unfold byte_bits. cbn [map]. do 8 eexists. split; [reflexivity|]. now destruct b. Qed.
Lemma letter64_N a b c d e f : exists n, Byte.to_N (letter64 [a; b; c; d; e; f]) = char64 n /\ (n < 64)%N
  /\ n = (32 * N.b2n a + 16 * N.b2n b + 8 * N.b2n c + 4 * N.b2n d + 2 * N.b2n e + N.b2n f)%N.
Proof. eexists. split; [|split; [|reflexivity]]; destruct a, b, c, d, e, f; reflexivity. Qed.

Lemma padding_cons4 a b c d l : padding64 (a :: b :: c :: d :: l) = padding64 l.
Proof.
  unfold padding64. cbn [List.length]. replace (S (S (S (S (List.length l)))) mod 4) with (List.length l mod 4); [reflexivity|].
  change (S (S (S (S (List.length l))))) with (4 + List.length l). replace (4 + List.length l) with (List.length l + 1 * 4) by lia.
  now rewrite Nat.mod_add.
Qed.

(** Three bytes are four letters, of the same number in base 64; what is left
    over is filled up with zeros and marked with = signs. *)
Theorem C89_base64_text :
  base64 [] = []
  /\ (forall a b c rest, exists w x y z, chars64 [w; x; y; z] (base64 (a :: b :: c :: rest)) (base64 rest)
       /\ (65536 * Byte.to_N a + 256 * Byte.to_N b + Byte.to_N c = 262144 * w + 4096 * x + 64 * y + z)%N)
  /\ (forall a b, exists w x y, chars64 [w; x; y] (base64 [a; b]) (text_bytes "=")
       /\ (1024 * Byte.to_N a + 4 * Byte.to_N b = 4096 * w + 64 * x + y)%N)
  /\ (forall a, exists w x, chars64 [w; x] (base64 [a]) (text_bytes "==") /\ (16 * Byte.to_N a = 64 * w + x)%N).
Proof.
  split; [reflexivity|]. split; [|split].
  - intros a b c rest.
    destruct (byte_bits_N a) as (a7 & a6 & a5 & a4 & a3 & a2 & a1 & a0 & Ea & Na).
    destruct (byte_bits_N b) as (b7 & b6 & b5 & b4 & b3 & b2 & b1 & b0 & Eb & Nb).
    destruct (byte_bits_N c) as (c7 & c6 & c5 & c4 & c3 & c2 & c1 & c0 & Ec & Nc).
    destruct (letter64_N a7 a6 a5 a4 a3 a2) as (w & W1 & W2 & W3).
    destruct (letter64_N a1 a0 b7 b6 b5 b4) as (x & X1 & X2 & X3).
    destruct (letter64_N b3 b2 b1 b0 c7 c6) as (y & Y1 & Y2 & Y3).
    destruct (letter64_N c5 c4 c3 c2 c1 c0) as (z & Z1 & Z2 & Z3).
    exists w, x, y, z. split; [|rewrite Na, Nb, Nc, W3, X3, Y3, Z3; ring]. split; [repeat constructor; assumption|].
    exists [letter64 [a7; a6; a5; a4; a3; a2]; letter64 [a1; a0; b7; b6; b5; b4]; letter64 [b3; b2; b1; b0; c7; c6]; letter64 [c5; c4; c3; c2; c1; c0]].
    split; [|cbn [map]; now rewrite W1, X1, Y1, Z1].
    unfold base64. cbn [flat_map]. rewrite Ea, Eb, Ec. cbn [List.app sixes map]. now rewrite padding_cons4.
  - intros a b.
    destruct (byte_bits_N a) as (a7 & a6 & a5 & a4 & a3 & a2 & a1 & a0 & Ea & Na).
    destruct (byte_bits_N b) as (b7 & b6 & b5 & b4 & b3 & b2 & b1 & b0 & Eb & Nb).
    destruct (letter64_N a7 a6 a5 a4 a3 a2) as (w & W1 & W2 & W3).
    destruct (letter64_N a1 a0 b7 b6 b5 b4) as (x & X1 & X2 & X3).
    destruct (letter64_N b3 b2 b1 b0 false false) as (y & Y1 & Y2 & Y3).
    exists w, x, y. split; [|rewrite Na, Nb, W3, X3, Y3; cbn [N.b2n]; ring]. split; [repeat constructor; assumption|].
    exists [letter64 [a7; a6; a5; a4; a3; a2]; letter64 [a1; a0; b7; b6; b5; b4]; letter64 [b3; b2; b1; b0; false; false]].
    split; [|cbn [map]; now rewrite W1, X1, Y1].
    unfold base64. cbn [flat_map]. rewrite Ea, Eb. reflexivity.
  - intros a.
    destruct (byte_bits_N a) as (a7 & a6 & a5 & a4 & a3 & a2 & a1 & a0 & Ea & Na).
    destruct (letter64_N a7 a6 a5 a4 a3 a2) as (w & W1 & W2 & W3).
    destruct (letter64_N a1 a0 false false false false) as (x & X1 & X2 & X3).
    exists w, x. split; [|rewrite Na, W3, X3; cbn [N.b2n]; ring]. split; [repeat constructor; assumption|].
    exists [letter64 [a7; a6; a5; a4; a3; a2]; letter64 [a1; a0; false; false; false; false]].
    split; [|cbn [map]; now rewrite W1, X1].
    unfold base64. cbn [flat_map]. rewrite Ea. reflexivity.
Qed.

(** The test vectors of RFC 4648, section 10, and the last two letters. *)
Example C89_base64_text_case :
  base64 (text_bytes "foobar") = text_bytes "Zm9vYmFy" /\ base64 (text_bytes "fooba") = text_bytes "Zm9vYmE="
  /\ base64 (text_bytes "f") = text_bytes "Zg==" /\ base64 [xfb; xef; xff] = text_bytes "++//".
Proof. vm_compute. auto. Qed.

(** * Queries *)
Lemma unescape_step (P : byte -> bytes) :
  (forall b r, unescape (P b ++ r) = match unescape r with Some s => Some (b :: s) | None => None end) ->
  forall t, unescape (flat_map P t) = Some t.
Proof.
  intros H t. induction t as [|b t IH]; [reflexivity|]. cbn [flat_map]. now rewrite H, IH.
Qed.

Lemma forall_bytes (P : byte -> bool) :
  forallb P (map (fun n => byte_of_N (N.of_nat n)) (seq 0 256)) = true -> forall b, P b = true.
Proof.
  intros H b. rewrite forallb_forall in H. apply H. apply in_map_iff.
  exists (N.to_nat (byte_to_N b)). rewrite N2Nat.id, byte_of_to_N. split; [reflexivity|].
  apply in_seq. pose proof (byte_to_N_lt b). lia.
Qed.

Definition high (b : byte) : byte := nth (N.to_nat (byte_to_N b / 16)) hex_digits x00.
Definition low (b : byte) : byte := nth (N.to_nat (byte_to_N b mod 16)) hex_digits x00.
Definition two_digits (b : byte) : bool :=
  match position (high b) hex_digits, position (low b) hex_digits with
  | Some h, Some l => byte_eqb (byte_of_N (16 * h + l)) b
  | _, _ => false
  end.

Lemma unescape_escape b r : unescape (escape b ++ r) = match unescape r with Some s => Some (b :: s) | None => None end.
Proof.
  assert (H : two_digits b = true) by (apply (forall_bytes two_digits); vm_compute; reflexivity).
  unfold two_digits in H. unfold escape. fold (high b) (low b). cbn [app unescape].
  change (byte_eqb x25 x25) with true. cbn iota.
  destruct (position (high b) hex_digits) as [h|]; [|discriminate].
  destruct (position (low b) hex_digits) as [l|]; [|discriminate].
  apply byte_eqb_eq in H. now rewrite H.
Qed.

Lemma unescape_same b r : byte_eqb b x25 = false -> byte_eqb b x2b = false ->
  unescape (b :: r) = match unescape r with Some s => Some (b :: s) | None => None end.
Proof. intros H1 H2. cbn [unescape]. now rewrite H1, H2. Qed.

Lemma unescape_percent t : unescape (percent_encode t) = Some t.
Proof.
  apply unescape_step. intros b r. destruct (alphanumeric b) eqn:E; [|apply unescape_escape].
  assert (H := forall_bytes (fun b => implb (alphanumeric b) (negb (byte_eqb b x25) && negb (byte_eqb b x2b))) ltac:(vm_compute; reflexivity) b).
  cbn beta in H. rewrite E in H. cbn [implb] in H. apply andb_prop in H. destruct H as [H1 H2].
  apply negb_true_iff in H1, H2. now apply unescape_same.
Qed.

Lemma unescape_form t : unescape (form_encode t) = Some t.
Proof.
  apply unescape_step. intros b r. unfold form_byte. destruct (alphanumeric b || _) eqn:E.
  - assert (H := forall_bytes (fun b => implb (alphanumeric b || existsb (byte_eqb b) [x2a; x2d; x2e; x5f])
        (negb (byte_eqb b x25) && negb (byte_eqb b x2b))) ltac:(vm_compute; reflexivity) b).
    cbn beta in H. rewrite E in H. cbn [implb] in H. apply andb_prop in H. destruct H as [H1 H2].
    apply negb_true_iff in H1, H2. now apply unescape_same.
  - destruct (byte_eqb b x20) eqn:E2; [|apply unescape_escape].
    apply byte_eqb_eq in E2. subst b. reflexivity.
Qed.

Lemma all_bytes (P : byte -> bytes) (Q : byte -> bool) t :
  (forall b, forallb Q (P b) = true) -> Forall (fun y => Q y = true) (flat_map P t).
Proof.
  intros H. induction t as [|b t IH]; [constructor|]. cbn [flat_map]. apply Forall_app. split; [|exact IH].
  apply Forall_forall. specialize (H b). rewrite forallb_forall in H. exact H.
Qed.

Lemma split_none x t : Forall (fun y => negb (byte_eqb y x) = true) t -> split_at x t = [t].
Proof.
  induction 1 as [|y t H _ IH]; [reflexivity|]. cbn [split_at]. apply negb_true_iff in H. now rewrite H, IH.
Qed.
Lemma split_one x a t : Forall (fun y => negb (byte_eqb y x) = true) a -> split_at x (a ++ x :: t) = a :: split_at x t.
Proof.
  induction 1 as [|y a H _ IH]; cbn [app split_at].
  - now destruct x.
  - apply negb_true_iff in H. now rewrite H, IH.
Qed.

Definition name : bytes := text_bytes "arg".
Lemma argument_of v t : unescape v = Some t -> argument (text_bytes "arg=" ++ v) = Some (name, t).
Proof. intros H. unfold argument. cbn -[unescape]. rewrite H. reflexivity. Qed.

(** The node understands the two queries, whatever the topic and the data are. *)
Theorem C89_queries topic data :
  arguments (pub_query topic data) = Some [(text_bytes "arg", topic); (text_bytes "arg", data)]
  /\ arguments (sub_query topic) = Some [(text_bytes "arg", topic)].
Proof.
  assert (P : forall t, Forall (fun y => negb (byte_eqb y x26) = true) (text_bytes "arg=" ++ percent_encode t)).
  { intros t. apply Forall_app. split; [repeat constructor|]. apply all_bytes. intros b.
    apply (forall_bytes (fun b => forallb (fun y => negb (byte_eqb y x26)) (if alphanumeric b then [b] else escape b))). vm_compute. reflexivity. }
  split; unfold arguments.
  - unfold pub_query. change (text_bytes "&arg=" ++ percent_encode data) with (x26 :: (text_bytes "arg=" ++ percent_encode data)).
    rewrite app_assoc, split_one by apply P. rewrite split_none by apply P. cbn [omapM].
    rewrite (argument_of _ _ (unescape_percent topic)), (argument_of _ _ (unescape_percent data)). reflexivity.
  - unfold sub_query. rewrite split_none.
    + cbn [omapM]. rewrite (argument_of _ _ (unescape_form topic)). reflexivity.
    + apply Forall_app. split; [repeat constructor|]. apply all_bytes. intros b.
      apply (forall_bytes (fun b => forallb (fun y => negb (byte_eqb y x26)) (form_byte b))). vm_compute. reflexivity.
Qed.

(** * Messages *)
Lemma base32_ascii l : Forall (fun b => byte_to_N b < 128)%N (map letter l).
Proof.
  apply Forall_forall. intros y Hy. apply in_map_iff in Hy. destruct Hy as [g [<- _]].
  assert (H : In (letter g) (x00 :: alphabet)).
  { unfold letter. destruct (nth_in_or_default (N.to_nat (bits_N g)) alphabet x00) as [H|H]; [right; exact H|left; now symmetry]. }
  assert (A : forallb (fun b => byte_to_N b <? 128)%N (x00 :: alphabet) = true) by reflexivity.
  rewrite forallb_forall in A. apply A in H. now apply N.ltb_lt.
Qed.

Section Receiver.
  Variables (event_data other64 : bytes -> option bytes) (event : bytes -> bytes) (utf8 : bytes -> bool)
    (other_base base58 : bytes -> option bytes).
  Hypothesis Ev : sends event_data event.
  Hypothesis Ua : ascii_ok utf8.

  Notation recv := (recv_links event_data other64 utf8 other_base base58).
  Notation link_of := (message_link utf8 other_base base58).

  Lemma link_of_text l : link_of (sha_text l) = Some l.
  Proof.
    unfold message_link. rewrite Ua; [apply C82_printed|].
    unfold sha_text, cid_text, base32. constructor; [reflexivity|]. apply base32_ascii.
  Qed.

  (** Whatever is published and whenever the connection reports errors: when each
      chunk is one event, the receiver goes on, and takes the messages that are
      links, in order. Texts of links are such messages. *)
  Theorem C89_messages_partial (items : list (option bytes)) :
    recv (map (option_map event) items)
    = (flat_map (fun i => match i with
                          | Some d => match link_of d with Some l => [l] | None => [] end
                          | None => [] end) items, true)
    /\ forall l, link_of (sha_text l) = Some l.
  Proof.
    split; [|apply link_of_text].
    induction items as [|[d|] items IH]; [reflexivity| |exact IH].
    cbn [map option_map recv_links flat_map]. unfold sub_chunk. rewrite Ev, C89_base64, IH.
    now destruct (link_of d).
  Qed.

  (** The links that are published under a topic, with others under other topics
      in between, reach a subscriber of the topic in order. *)
  Theorem C89_arrive_partial topic (pubs : list (bytes * sha256)) :
    recv (map (fun d => Some (event d))
           (deliver (sub_query topic) (map (fun p => pub_query (fst p) (sha_text (snd p))) pubs)))
    = (map snd (filter (fun p => bytes_eqb (fst p) topic) pubs), true).
  Proof.
    unfold deliver. rewrite (proj2 (C89_queries topic [])).
    induction pubs as [|[t l] pubs IH]; [reflexivity|].
    cbn [map flat_map fst snd filter]. rewrite (proj1 (C89_queries t (sha_text l))).
    destruct (bytes_eqb t topic); cbn [app]; [|exact IH].
    cbn [map recv_links]. unfold sub_chunk. rewrite Ev, C89_base64, IH. now rewrite link_of_text.
  Qed.
End Receiver.

(** * A node, and how a connection breaks the receiver *)
Definition event_start : bytes := text_bytes "{""from"":""EiD"",""data"":""".
Definition event_end : bytes := text_bytes """,""seqno"":""FQ=="",""topicIDs"":[""t""]}".
Definition event0 (d : bytes) : bytes := event_start ++ base64 d ++ event_end.
Definition event_data0 (t : bytes) : option bytes :=
  if starts_with event_start t then
    let '(a, r) := before x22 (skipn (List.length event_start) t) in
    if bytes_eqb r event_end then Some a else None
  else None.

Lemma starts_app p t : starts_with p (p ++ t) = true.
Proof. induction p as [|x p IH]; [reflexivity|]. cbn. rewrite IH. now destruct x. Qed.
Lemma starts_inv p t : starts_with p t = true -> t = p ++ skipn (List.length p) t.
Proof.
  revert t. induction p as [|x p IH]; [reflexivity|]. intros [|y t]; [easy|]. cbn [starts_with List.length skipn app].
  intros H. apply andb_prop in H. destruct H as [H1 H2]. apply byte_eqb_eq in H1. subst. f_equal. now apply IH.
Qed.
Lemma skipn_app_len (p t : bytes) : skipn (List.length p) (p ++ t) = t.
Proof. induction p as [|x p IH]; [reflexivity|]. exact IH. Qed.

Lemma no_quote d : Forall (fun y => byte_eqb y x22 = false) (base64 d).
Proof.
  unfold base64. apply Forall_app. split.
  - eapply Forall_impl; [|apply (letters64 _ (fun y => negb (byte_eqb y x22))); reflexivity].
    intros y Hy. now apply negb_true_iff.
  - unfold padding64. apply Forall_forall. intros y Hy. apply repeat_spec in Hy. now subst.
Qed.

Lemma before_event d r : before x22 (base64 d ++ event_end ++ r) = (base64 d, event_end ++ r).
Proof. apply before_app; [apply no_quote|]. right. eexists. reflexivity. Qed.

Lemma event_data0_app d r : event_data0 (event0 d ++ r) = if bytes_eqb (event_end ++ r) event_end then Some (base64 d) else None.
Proof.
  unfold event_data0, event0. rewrite <- !app_assoc, starts_app, skipn_app_len, before_event. reflexivity.
Qed.

Lemma sends0 : sends event_data0 event0.
Proof. intros d. rewrite <- (app_nil_r (event0 d)), event_data0_app, app_nil_r, bytes_eqb_refl. reflexivity. Qed.

Lemma before_inv x t a r : before x t = (a, r) -> t = a ++ r /\ Forall (fun y => byte_eqb y x = false) a.
Proof.
  revert a r. induction t as [|y t IH]; intros a r; cbn [before].
  - intros [= <- <-]. auto.
  - destruct (byte_eqb y x) eqn:E.
    + intros [= <- <-]. auto.
    + destruct (before x t) as [a' r'] eqn:E1. intros [= <- <-]. destruct (IH _ _ eq_refl) as [-> H]. auto.
Qed.

Lemma event_data0_inv p a : event_data0 p = Some a -> p = event_start ++ a ++ event_end /\ Forall (fun y => byte_eqb y x22 = false) a.
Proof.
  unfold event_data0. destruct (starts_with event_start p) eqn:E1; [|discriminate].
  destruct (before x22 _) as [a' r] eqn:E2. destruct (bytes_eqb r event_end) eqn:E3; [|discriminate].
  intros [= ->]. apply bytes_eqb_eq in E3. subst r. apply before_inv in E2. destruct E2 as [E2 H].
  split; [|exact H]. rewrite <- E2. now apply starts_inv.
Qed.

Lemma event_cut d p q : event0 d = p ++ q -> q <> [] -> event_data0 p = None.
Proof.
  intros E Hq. destruct (event_data0 p) as [a|] eqn:Ea; [|reflexivity]. exfalso.
  apply event_data0_inv in Ea. destruct Ea as [-> Ha].
  unfold event0 in E. rewrite <- !app_assoc in E. apply app_inv_head in E.
  assert (B1 := before_event d []). rewrite app_nil_r, E in B1.
  rewrite before_app in B1; [|exact Ha|right; eexists; reflexivity].
  assert (B2 : event_end ++ q = event_end) by congruence.
  apply Hq. rewrite <- (app_nil_r event_end) in B2 at 2. now apply app_inv_head in B2.
Qed.

(** The chunks of an HTTP body have nothing to do with the messages in it: the
    program panics when an event comes in two chunks, and when two come in one. *)
Theorem C89_chunks_refuted :
  exists event_data event, sends event_data event /\
    forall other64 utf8 other_base base58,
      let recv := recv_links event_data other64 utf8 other_base base58 in
      (forall d p q, event d = p ++ q -> q <> [] -> recv [Some p; Some q] = ([], false))
      /\ (forall a b, recv [Some (event a ++ event b)] = ([], false)).
Proof.
  exists event_data0, event0. split; [exact sends0|]. intros o u ob b58. cbn zeta. split.
  - intros d p q E Hq. cbn [recv_links]. unfold sub_chunk. now rewrite (event_cut d p q E Hq).
  - intros a b. cbn [recv_links]. unfold sub_chunk. rewrite event_data0_app.
    destruct (bytes_eqb _ event_end) eqn:E; [|reflexivity]. exfalso. apply bytes_eqb_eq in E.
    rewrite <- (app_nil_r event_end) in E at 2. apply app_inv_head in E. discriminate E.
Qed.

(** A link among other messages, with a topic that needs escaping. *)
Definition zero_sha : sha256 := {| sha_bytes := repeat x00 32; sha_len := eq_refl |}.
Example C89_case :
  let none := fun _ : bytes => @None bytes in
  let topic := text_bytes "a b&arg=c" in
  sends event_data0 event0 /\ ascii_ok (fun _ => true)
  /\ pub_query topic (text_bytes "x/y") = text_bytes "arg=a%20b%26arg%3Dc&arg=x%2Fy"
  /\ sub_query topic = text_bytes "arg=a+b%26arg%3Dc"
  /\ base64 (text_bytes "banyan") = text_bytes "YmFueWFu" /\ base64 (text_bytes "tree") = text_bytes "dHJlZQ=="
  /\ recv_links event_data0 none (fun _ => true) none none
       (map (option_map event0) [Some (text_bytes "hello"); None; Some (sha_text zero_sha); Some []])
     = ([zero_sha], true).
Proof.
  cbn zeta. split; [exact sends0|]. split; [easy|]. split; [reflexivity|]. split; [reflexivity|].
  split; [reflexivity|]. split; [reflexivity|].
  rewrite (proj1 (C89_messages_partial event_data0 (fun _ => None) event0 (fun _ => true) (fun _ => None) (fun _ => None) sends0 ltac:(easy) _)).
  cbn [flat_map]. rewrite (link_of_text (fun _ => true) (fun _ => None) (fun _ => None) ltac:(easy)). reflexivity.
Qed.

(** C82: links survive being printed, stored and read. *)
From Coq Require Import List NArith Arith Lia Bool String Ascii.
From Coq Require Import Strings.Byte Eqdep_dec.
From Verif Require Import Base BaseProofs Cbor CborProofs Types MemStore Links Compact TagTypes.
Import ListNotations.
Open Scope list_scope.

(** ** Base 32 *)
Lemma letter_of a b c d e : letter_bits (letter [a; b; c; d; e]) = Some [a; b; c; d; e].
Proof. now destruct a, b, c, d, e. Qed.

Lemma bits_byte_bits b : bits_byte (byte_bits b) = b.
Proof. now destruct b. Qed.

Lemma fives_ind (P : list bool -> Prop) :
  (forall l, List.length l < 5 -> P l) ->
  (forall a b c d e l, P l -> P (a :: b :: c :: d :: e :: l)) ->
  forall l, P l.
Proof.
  intros H0 H1 l. remember (List.length l) as n eqn:En.
  revert l En. induction n as [n IH] using lt_wf_ind. intros l ->.
  destruct l as [|a [|b [|c [|d [|e l]]]]]; try (apply H0; cbn; lia).
  apply H1. eapply IH; [|reflexivity]. cbn. lia.
Qed.

(** The letters of a bit string stand for its bits and less than five zeros. *)
Lemma fives_letters l : exists k, k < 5 /\
  omapM letter_bits (map letter (fives l)) = Some (fives l)
  /\ List.concat (fives l) = l ++ repeat false k.
Proof.
  induction l as [l H|a b c d e l IH] using fives_ind.
  - destruct l as [|a [|b [|c [|d [|e l]]]]]; cbn [List.length] in H; [| | | | |lia].
    + exists 0. repeat split; lia.
    + exists 4. repeat split; [lia|now destruct a].
    + exists 3. repeat split; [lia|now destruct a, b].
    + exists 2. repeat split; [lia|now destruct a, b, c].
    + exists 1. repeat split; [lia|now destruct a, b, c, d].
  - destruct IH as [k [Hk [H1 H2]]]. exists k. split; [easy|].
    cbn [fives map omapM]. rewrite letter_of, H1. split; [easy|].
    cbn [List.concat app]. now rewrite H2.
Qed.

Lemma eights_bytes b k : k < 5 ->
  eights (flat_map byte_bits b ++ repeat false k) = Some (map byte_bits b).
Proof.
  intros H. induction b as [|x b IH].
  - cbn. do 5 (destruct k as [|k]; [reflexivity|]). lia.
  - cbn [flat_map map]. rewrite <- app_assoc. cbn [byte_bits map app eights]. rewrite IH. reflexivity.
Qed.

Lemma of_base32_base32 b : of_base32 (base32 b) = Some b.
Proof.
  unfold of_base32, base32. destruct (fives_letters (flat_map byte_bits b)) as [k [Hk [H1 H2]]].
  rewrite H1, H2, eights_bytes by easy. f_equal. rewrite map_map.
  rewrite <- (map_id b) at 2. apply map_ext. apply bits_byte_bits.
Qed.

Lemma fives_length l : List.length (fives l) = (List.length l + 4) / 5.
Proof.
  induction l as [l H|a b c d e l IH] using fives_ind.
  - destruct l as [|a [|b [|c [|d [|e l]]]]]; cbn [List.length] in H; [easy..|lia].
  - cbn [fives List.length]. rewrite IH.
    replace (S (S (S (S (S (List.length l))))) + 4) with (List.length l + 4 + 1 * 5) by lia.
    rewrite Nat.div_add by lia. lia.
Qed.

Lemma base32_length b : List.length (base32 b) = (8 * List.length b + 4) / 5.
Proof.
  assert (H : List.length (flat_map byte_bits b) = 8 * List.length b).
  { induction b as [|x b IH]; [easy|].
    cbn [flat_map]. rewrite app_length, IH. cbn [byte_bits map List.length]. lia. }
  unfold base32. now rewrite map_length, fives_length, H.
Qed.

(** ** Numbers *)
Lemma read_varint_small n rest : (n < 128)%N -> read_varint (varint n ++ rest) = Some (n, rest).
Proof.
  intros H. unfold varint, read_varint. cbn [varint_fuel].
  destruct (N.ltb_spec n 128) as [_|?]; [|lia].
  cbn [app read_varint_fuel]. rewrite byte_to_of_N by lia.
  destruct (N.ltb_spec n 128) as [_|?]; [|lia]. now rewrite andb_false_r.
Qed.

Lemma read_varint_pos fuel b n rest : read_varint_fuel fuel false b = Some (n, rest) -> (0 < n)%N.
Proof.
  revert b n rest. induction fuel as [|f IH]; intros [|x b] n rest; cbn [read_varint_fuel]; try easy.
  destruct (N.ltb_spec (byte_to_N x) 128) as [Hx|Hx].
  - destruct (N.eqb_spec (byte_to_N x) 0) as [E|E]; cbn; [easy|]. intros [= <- <-]. lia.
  - destruct (read_varint_fuel f false b) as [[m r]|] eqn:E; [|easy]. intros H.
    assert (n = byte_to_N x - 128 + 128 * m)%N by congruence. apply IH in E. lia.
Qed.

Lemma read_varint_lt fuel first b n rest :
  read_varint_fuel fuel first b = Some (n, rest) -> (n < 128 ^ N.of_nat fuel)%N.
Proof.
  revert first b n rest. induction fuel as [|f IH]; intros first [|x b] n rest; cbn [read_varint_fuel]; try easy.
  rewrite Nat2N.inj_succ, N.pow_succ_r'.
  pose proof (N.pow_nonzero 128 (N.of_nat f)) as Hp.
  destruct (N.ltb_spec (byte_to_N x) 128) as [Hx|Hx].
  - destruct (_ && _); [easy|]. intros [= <- <-]. nia.
  - destruct (read_varint_fuel f false b) as [[m r]|] eqn:E; [|easy]. intros H.
    assert (n = byte_to_N x - 128 + 128 * m)%N by congruence.
    apply IH in E. pose proof (byte_to_N_lt x). nia.
Qed.

Lemma read_varint_varint fuel first n rest :
  (n < 128 ^ N.of_nat fuel)%N -> (first = true /\ 0 < fuel \/ (0 < n)%N) ->
  read_varint_fuel fuel first (varint_fuel fuel n ++ rest) = Some (n, rest).
Proof.
  revert first n. induction fuel as [|f IH]; intros first n H Hn.
  - cbn in H. lia.
  - rewrite Nat2N.inj_succ, N.pow_succ_r' in H. cbn [varint_fuel].
    destruct (N.ltb_spec n 128) as [Hx|Hx].
    + cbn [app read_varint_fuel]. rewrite byte_to_of_N by lia.
      destruct (N.ltb_spec n 128) as [_|?]; [|lia].
      destruct (N.eqb_spec n 0) as [->|?]; [|easy].
      destruct Hn as [[-> _]|Hn]; [easy|lia].
    + cbn [app read_varint_fuel].
      pose proof (N.mod_lt n 128 ltac:(lia)) as Hm. rewrite byte_to_of_N by lia.
      assert (Hd : (n = 128 * (n / 128) + n mod 128)%N) by (apply N.div_mod; lia).
      remember (n mod 128)%N as m eqn:Em. clear Em.
      destruct (N.ltb_spec (m + 128) 128) as [?|_]; [lia|].
      rewrite IH.
      * f_equal. f_equal. lia.
      * apply N.div_lt_upper_bound; lia.
      * right. apply N.div_str_pos. lia.
Qed.

Lemma read_varint_again b n rest r :
  read_varint b = Some (n, rest) -> read_varint (varint n ++ r) = Some (n, r).
Proof.
  intros H. apply read_varint_varint; [|left; split; [easy|lia]]. now apply read_varint_lt in H.
Qed.

(** A small number has one form. *)
Lemma read_varint_inv b n rest : read_varint b = Some (n, rest) -> (n < 128)%N ->
  b = varint n ++ rest.
Proof.
  unfold read_varint, varint. cbn [read_varint_fuel varint_fuel].
  destruct b as [|x b]; [easy|].
  destruct (N.ltb_spec (byte_to_N x) 128) as [Hx|Hx].
  - rewrite andb_false_r. intros [= <- <-] _.
    destruct (N.ltb_spec (byte_to_N x) 128) as [_|?]; [|lia]. now rewrite byte_of_to_N.
  - fold (read_varint_fuel 8 false b).
    destruct (read_varint_fuel 8 false b) as [[m r]|] eqn:E; [|easy]. intros H Hn.
    assert (n = byte_to_N x - 128 + 128 * m)%N by congruence. apply read_varint_pos in E. lia.
Qed.

(** ** The digest *)
Lemma sha_eq a b : sha_bytes a = sha_bytes b -> a = b.
Proof.
  destruct a as [a Ha], b as [b Hb]. cbn. intros ->. f_equal.
  apply UIP_dec. apply bool_dec.
Qed.

Lemma sha_length d : List.length (sha_bytes d) = 32.
Proof. apply Nat.eqb_eq, sha_len. Qed.

Lemma sha_of_bytes_ok d : sha_of_bytes (sha_bytes d) = Some d.
Proof.
  unfold sha_of_bytes. destruct bool_dec as [p|p].
  - f_equal. now apply sha_eq.
  - now rewrite sha_len in p.
Qed.

Lemma sha_of_bytes_inv b d : sha_of_bytes b = Some d -> b = sha_bytes d.
Proof. unfold sha_of_bytes. destruct bool_dec; [|easy]. now intros [= <-]. Qed.

Lemma sha_cid_eq d : sha_cid d = [x01; x71; x12; x20] ++ sha_bytes d.
Proof.
  unfold sha_cid, cid_bytes, cid_of_sha. cbn [cid_version cid_codec cid_code cid_digest].
  unfold Nlen. rewrite sha_length. reflexivity.
Qed.

Lemma read_cid_sha d rest : read_cid (sha_cid d ++ rest) = Some (cid_of_sha d).
Proof.
  unfold sha_cid, cid_bytes. cbn [cid_version cid_codec cid_code cid_digest cid_of_sha].
  change (1 =? 0)%N with false. cbv iota. rewrite <- !app_assoc.
  unfold read_cid. rewrite read_varint_small by lia. rewrite read_varint_small by lia.
  change ((1 =? 0x12)%N && _) with false. change (1 =? 1)%N with true. cbv iota.
  rewrite read_varint_small by lia. unfold Nlen. rewrite sha_length.
  rewrite read_varint_small by (cbn; lia). change (64 <? N.of_nat 32)%N with false. cbv iota.
  rewrite take_n_app' by (unfold Nlen; now rewrite sha_length). reflexivity.
Qed.

Lemma read_cid_again b c rest : read_cid b = Some c -> read_cid (cid_bytes c ++ rest) = Some c.
Proof.
  unfold read_cid at 1. destruct (read_varint b) as [[v b1]|] eqn:E1; [|easy].
  destruct (read_varint b1) as [[k b2]|] eqn:E2; [|easy].
  destruct ((v =? 0x12)%N && (k =? 0x20)%N) eqn:E0.
  - destruct (take_n 32 b2) as [[d r]|] eqn:E3; [|easy]. intros [= <-].
    apply take_n_spec in E3. destruct E3 as [_ Hd].
    unfold cid_bytes. cbn [cid_version cid_codec cid_code cid_digest].
    change (0 =? 0)%N with true. cbv iota. rewrite Hd, <- !app_assoc.
    unfold read_cid. rewrite !read_varint_small by lia.
    change ((_ =? _)%N && _) with true. cbv iota. now rewrite take_n_app'.
  - destruct (N.eqb_spec v 1) as [->|?]; [|easy].
    destruct (read_varint b2) as [[code b3]|] eqn:E3; [|easy].
    destruct (read_varint b3) as [[size b4]|] eqn:E4; [|easy].
    destruct (N.ltb_spec 64 size) as [?|Hs]; [easy|].
    destruct (take_n size b4) as [[d r]|] eqn:E5; [|easy]. intros [= <-].
    apply take_n_spec in E5. destruct E5 as [_ Hd].
    unfold cid_bytes. cbn [cid_version cid_codec cid_code cid_digest].
    change (1 =? 0)%N with false. cbv iota. rewrite Hd, <- !app_assoc.
    unfold read_cid. rewrite (read_varint_again _ _ _ _ E1), (read_varint_again _ _ _ _ E2).
    rewrite E0. change (1 =? 1)%N with true. cbv iota.
    rewrite (read_varint_again _ _ _ _ E3), (read_varint_again _ _ _ _ E4).
    destruct (N.ltb_spec 64 size) as [?|_]; [lia|]. now rewrite take_n_app'.
Qed.

Lemma sha_of_cid_sha d : sha_of_cid (cid_of_sha d) = Some d.
Proof. unfold sha_of_cid. cbn. apply sha_of_bytes_ok. Qed.

Lemma alphabet_letter l : In (letter l) alphabet \/ letter l = x00.
Proof.
  unfold letter. destruct (Nat.lt_ge_cases (N.to_nat (bits_N l)) (List.length alphabet)) as [H|H].
  - left. now apply nth_In.
  - right. now apply nth_overflow.
Qed.

Lemma base32_letters b x : In x (base32 b) -> In x alphabet \/ x = x00.
Proof.
  unfold base32. rewrite in_map_iff. intros [l [<- _]]. apply alphabet_letter.
Qed.

Lemma no_slash b : ~ In x2f (base32 b).
Proof.
  intros H. apply base32_letters in H. destruct H as [H|H]; [|easy].
  cbn in H. repeat (destruct H as [H|H]; [discriminate H|]). easy.
Qed.

Lemma after_none delim t c : ~ In c t -> after (c :: delim) t = None.
Proof.
  induction t as [|x t IH]; intros H; [easy|].
  cbn [after starts_with].
  destruct (byte_eqb c x) eqn:E.
  - apply byte_eqb_eq in E. subst x. exfalso. apply H. now left.
  - cbn [andb]. apply IH. intros H1. apply H. now right.
Qed.

Lemma cid_of_text_text other base58 b rest :
  base32 b = x61 :: rest -> cid_of_text other base58 (x62 :: base32 b) = read_cid b.
Proof.
  intros E. unfold cid_of_text. change (text_bytes "/ipfs/") with (x2f :: text_bytes "ipfs/").
  rewrite after_none.
  - rewrite E. cbn [starts_with text_bytes].
    change (byte_eqb (byte_of_ascii "Q") x62) with false. cbn [andb].
    rewrite andb_false_r. change (byte_eqb x62 x62) with true. cbv iota. cbn [tl].
    rewrite <- E, of_base32_base32. reflexivity.
  - intros [H|H]; [easy|]. now apply no_slash in H.
Qed.

Definition prefix : bytes := text_bytes "bafyrei".

Lemma sha_text_eq d : exists rest, sha_text d = prefix ++ rest /\ List.length rest = 52.
Proof.
  assert (Hl : List.length (sha_text d) = 59).
  { unfold sha_text, cid_text. cbn [List.length]. rewrite base32_length.
    fold (sha_cid d). rewrite sha_cid_eq, app_length, sha_length. reflexivity. }
  assert (E : exists rest, sha_text d = prefix ++ rest).
  { unfold sha_text, cid_text. fold (sha_cid d). rewrite sha_cid_eq.
    unfold base32. cbn [app flat_map byte_bits map].
    pose proof (sha_length d) as H. destruct (sha_bytes d) as [|x l]; [easy|].
    cbn [flat_map byte_bits map app fives letter].
    eexists. cbn -[fives byte_to_N N.testbit]. reflexivity. }
  destruct E as [rest E]. exists rest. split; [easy|].
  rewrite E, app_length in Hl. cbn in Hl. lia.
Qed.

(** ** C82 *)

(** A printed link is read as the same link: whatever the decoders of other
    bases do. *)
Theorem C82_printed other base58 d : sha_of_text other base58 (sha_text d) = Some d.
Proof.
  destruct (sha_text_eq d) as [rest [E _]].
  unfold sha_of_text, sha_text, cid_text in *. fold (sha_cid d) in *.
  change (prefix ++ rest) with (x62 :: x61 :: (text_bytes "fyrei" ++ rest)) in E.
  assert (E1 : base32 (sha_cid d) = x61 :: (text_bytes "fyrei" ++ rest)) by congruence.
  rewrite (cid_of_text_text _ _ _ _ E1). rewrite <- (app_nil_r (sha_cid d)), read_cid_sha. apply sha_of_cid_sha.
Qed.

(** The text has 59 characters and starts with [bafyrei]. *)
Theorem C82_text d : List.length (sha_text d) = 59 /\ exists rest, sha_text d = prefix ++ rest.
Proof.
  destruct (sha_text_eq d) as [rest [E H]]. split; [|now exists rest].
  now rewrite E, app_length, H.
Qed.

(** Different links look different. *)
Theorem C82_distinct a b : sha_text a = sha_text b -> a = b.
Proof.
  intros E. pose proof (C82_printed (fun _ => None) (fun _ => None) a) as H.
  rewrite E, C82_printed in H. now injection H as ->.
Qed.

(** A link in a block takes 41 bytes and is read as the same link, whatever
    follows it. *)
Theorem C82_stored d rest :
  List.length (enc (sha_enc d)) = 41
  /\ exists c, checked_prefix (enc (sha_enc d) ++ rest) = Some (c, rest) /\ sha_dec c = Some d.
Proof.
  assert (Hn : Nlen (x00 :: sha_cid d) = 37%N).
  { rewrite sha_cid_eq. unfold Nlen. cbn [List.length app]. now rewrite sha_length. }
  split.
  - unfold sha_enc, ccid. cbn [enc]. rewrite Hn. rewrite !app_length, sha_cid_eq.
    cbn [List.length app]. now rewrite sha_length.
  - exists (sha_enc d). split.
    + apply checked_prefix_enc. unfold sha_enc, ccid. cbn [cbor_ok]. now rewrite Hn.
    + change (sha_dec (sha_enc d)) with (sha_of_cid_bytes (sha_cid d)). unfold sha_of_cid_bytes.
      rewrite <- (app_nil_r (sha_cid d)), read_cid_sha. apply sha_of_cid_sha.
Qed.

(** The other way round: bytes that are read as a link are the bytes of that
    link, and possibly more behind it. No other content type, hash function,
    version or spelling is accepted. *)
Theorem C82_only b d : sha_of_cid_bytes b = Some d <-> exists rest, b = sha_cid d ++ rest.
Proof.
  split.
  - unfold sha_of_cid_bytes, read_cid. destruct (read_varint b) as [[v b1]|] eqn:E1; [|easy].
    destruct (read_varint b1) as [[k b2]|] eqn:E2; [|easy].
    destruct ((v =? 0x12)%N && (k =? 0x20)%N) eqn:E0.
    + now destruct (take_n 32 b2) as [[d' r]|].
    + destruct (N.eqb_spec v 1) as [->|?]; [|easy].
      destruct (read_varint b2) as [[code b3]|] eqn:E3; [|easy].
      destruct (read_varint b3) as [[size b4]|] eqn:E4; [|easy].
      destruct (N.ltb_spec 64 size) as [?|Hs]; [easy|].
      destruct (take_n size b4) as [[d' r]|] eqn:E5; [|easy].
      unfold sha_of_cid. cbn [cid_codec cid_code cid_digest].
      destruct (N.eqb_spec k 0x71) as [->|?]; [|easy].
      destruct (N.eqb_spec code 0x12) as [->|?]; [|easy]. cbn [negb].
      intros H. apply sha_of_bytes_inv in H. subst d'.
      apply take_n_spec in E5. destruct E5 as [-> Hd].
      unfold Nlen in Hd. rewrite sha_length in Hd. subst size.
      apply read_varint_inv in E1; [|lia]. apply read_varint_inv in E2; [|lia].
      apply read_varint_inv in E3; [|lia]. apply read_varint_inv in E4; [|cbn; lia].
      subst. exists r. unfold sha_cid, cid_bytes, cid_of_sha.
      cbn [cid_version cid_codec cid_code cid_digest].
      change (1 =? 0)%N with false. cbv iota. unfold Nlen. now rewrite sha_length, <- !app_assoc.
  - intros [rest ->]. unfold sha_of_cid_bytes. rewrite read_cid_sha. apply sha_of_cid_sha.
Qed.

(** In a block only a tagged byte string is a link. *)
Theorem C82_stored_only c d : sha_dec c = Some d <-> exists rest, c = CTag 42 (CBytes (x00 :: sha_cid d ++ rest)).
Proof.
  split.
  - unfold sha_dec. intros H. destruct c as [| | | | | |t c| |]; try discriminate.
    assert (t = 42%N) as ->.
    { destruct t as [|p]; [discriminate|]. repeat (destruct p as [p|p|]; try discriminate). reflexivity. }
    destruct c as [| |b| | | | | |]; try discriminate. destruct b as [|x b]; [discriminate|].
    destruct x; try discriminate. apply C82_only in H as [rest ->]. now exists rest.
  - intros [rest ->]. cbn [sha_dec]. apply C82_only. now exists rest.
Qed.

(** An identifier of another kind is not a link. *)
Theorem C82_cid c d : sha_of_cid c = Some d <->
  cid_codec c = 0x71%N /\ cid_code c = 0x12%N /\ cid_digest c = sha_bytes d.
Proof.
  unfold sha_of_cid. split.
  - destruct (N.eqb_spec (cid_codec c) 0x71) as [->|?]; [|easy].
    destruct (N.eqb_spec (cid_code c) 0x12) as [->|?]; [|easy]. cbn [negb].
    intros H. now apply sha_of_bytes_inv in H.
  - intros [-> [-> ->]]. cbn. apply sha_of_bytes_ok.
Qed.

(** What the other theorems require of links and of the scraper of links holds
    for these. *)
Theorem C82_laws :
  (forall l, sha_of_cid_bytes (sha_cid l) = Some l)
  /\ (forall a b, sha_eqb a b = true <-> a = b)
  /\ (forall l, real_cid_read (sha_cid l) = Some (sha_cid l))
  /\ (forall b c, real_cid_read b = Some c -> real_cid_read c = Some c).
Proof.
  splits.
  - intros l. apply C82_only. exists []. now rewrite app_nil_r.
  - intros a b. unfold sha_eqb. rewrite bytes_eqb_eq. split; [apply sha_eq|now intros ->].
  - intros l. unfold real_cid_read. rewrite <- (app_nil_r (sha_cid l)) at 1. now rewrite read_cid_sha.
  - intros b c. unfold real_cid_read. destruct (read_cid b) as [x|] eqn:E; [|easy].
    intros [= <-]. rewrite <- (app_nil_r (cid_bytes x)) at 1. now rewrite (read_cid_again _ _ _ E).
Qed.

(** The letter for a number below 32: a-z and 2-7 (RFC 4648, table 3, in lower
    case), and the number that digits stand for. *)
Definition char32 (n : N) : N := (if n <? 26 then 97 + n else 24 + n)%N.
Definition number (base : N) (digits : list N) : N := fold_left (fun acc n => base * acc + n)%N digits 0%N.

Lemma letter_N a b c d e : Byte.to_N (letter [a; b; c; d; e]) = char32 (bits_N [a; b; c; d; e]) /\ (bits_N [a; b; c; d; e] < 32)%N.
Proof. now destruct a, b, c, d, e. Qed.
Definition fold_bits (l : list bool) (acc : N) : N := fold_left (fun acc (b : bool) => 2 * acc + (if b then 1 else 0))%N l acc.
Lemma fives_five l : Forall (fun g => List.length g = 5) (fives l).
Proof.
  induction l as [l H|a b c d e l IH] using fives_ind.
  - destruct l as [|a [|b [|c [|d [|e l]]]]]; cbn [List.length] in H; [| | | | |lia]; cbn; repeat constructor.
  - cbn [fives]. now constructor.
Qed.
Lemma number_fives gs : Forall (fun g => List.length g = 5) gs ->
  forall acc, fold_left (fun acc n => 32 * acc + n)%N (map bits_N gs) acc = fold_bits (List.concat gs) acc.
Proof.
  induction 1 as [|g gs Hg _ IH]; intros acc; [easy|]. cbn [map fold_left List.concat]. unfold fold_bits. rewrite fold_left_app. fold (fold_bits (List.concat gs)).
  rewrite IH. unfold fold_bits. f_equal. destruct g as [|a [|b [|c [|d [|e [|? ?]]]]]]; try discriminate. unfold bits_N. cbn [fold_left].
  ring.
Qed.
Lemma number_bytes b : forall acc, fold_left (fun acc n => 256 * acc + n)%N (map Byte.to_N b) acc = fold_bits (flat_map byte_bits b) acc.
Proof.
  induction b as [|x b IH]; intros acc; [easy|]. cbn [map fold_left flat_map]. unfold fold_bits. rewrite fold_left_app. fold (fold_bits (flat_map byte_bits b)).
  rewrite IH. unfold fold_bits at 1. f_equal. unfold byte_bits. cbn [map fold_left].
  transitivity (256 * acc + fold_bits (byte_bits x) 0)%N; [f_equal; now destruct x|]. unfold fold_bits, byte_bits. cbn [map fold_left]. ring.
Qed.
Lemma fold_bits_zeros l k : fold_bits (l ++ repeat false k) 0 = (fold_bits l 0 * 2 ^ N.of_nat k)%N.
Proof.
  unfold fold_bits. rewrite fold_left_app. generalize (fold_left (fun acc (b : bool) => 2 * acc + (if b then 1 else 0))%N l 0%N).
  induction k as [|k IH]; intros n.
  - cbn. ring.
  - cbn [repeat fold_left]. rewrite IH, Nat2N.inj_succ, N.pow_succ_r'. ring.
Qed.

(** The text of a link is the letter b and the identifier, version 1 of a block in
    the format dag-cbor with a digest sha2-256 of 32 bytes, as a number in base 32,
    filled up with two bits. *)
Theorem C82_letters d : exists l ns,
  sha_text d = x62 :: l
  /\ map Byte.to_N l = map char32 ns /\ Forall (fun n => (n < 32)%N) ns /\ List.length ns = 58
  /\ number 32 ns = (4 * number 256 (map Byte.to_N ([x01; x71; x12; x20] ++ sha_bytes d)))%N.
Proof.
  exists (base32 (sha_cid d)), (map bits_N (fives (flat_map byte_bits (sha_cid d)))).
  pose proof (fives_five (flat_map byte_bits (sha_cid d))) as H5.
  assert (L : List.length (fives (flat_map byte_bits (sha_cid d))) = 58).
  { pose proof (base32_length (sha_cid d)) as L. unfold base32 in L. rewrite map_length in L. rewrite L, sha_cid_eq, app_length, sha_length. reflexivity. }
  split; [reflexivity|]. split; [|split; [|split]].
  - unfold base32. rewrite !map_map. apply map_ext_in. intros g Hg. rewrite Forall_forall in H5. apply H5 in Hg.
    destruct g as [|a [|b [|c [|e [|f [|? ?]]]]]]; try discriminate. apply letter_N.
  - apply Forall_forall. intros n Hn. apply in_map_iff in Hn as (g & <- & Hg). rewrite Forall_forall in H5. apply H5 in Hg.
    destruct g as [|a [|b [|c [|e [|f [|? ?]]]]]]; try discriminate. apply letter_N.
  - now rewrite map_length.
  - unfold number. rewrite (number_fives _ H5). destruct (fives_letters (flat_map byte_bits (sha_cid d))) as [k [Hk [_ H2]]].
    rewrite H2, fold_bits_zeros, number_bytes, <- sha_cid_eq.
    assert (k = 2) as ->.
    { apply (f_equal (@List.length bool)) in H2. rewrite app_length, repeat_length in H2.
      assert (E : List.length (List.concat (fives (flat_map byte_bits (sha_cid d)))) = 5 * 58).
      { rewrite <- L. clear - H5. induction H5 as [|g gs Hg _ IH]; [easy|]. cbn [List.concat List.length]. rewrite app_length, Hg, IH. lia. }
      assert (E' : forall b, List.length (flat_map byte_bits b) = 8 * List.length b).
      { induction b as [|x b IH]; [easy|]. cbn [flat_map]. rewrite app_length, IH. cbn [byte_bits map List.length]. lia. }
      rewrite E, E', sha_cid_eq, app_length, sha_length in H2. cbn [List.length] in H2. lia. }
    change (2 ^ N.of_nat 2)%N with 4%N. apply N.mul_comm.
Qed.

(** ** A case: the link made of zeros, in the text form, behind a path, and the
    same digest as identifier of a raw block *)
Definition d0 : sha256 := {| sha_bytes := repeat x00 32; sha_len := eq_refl |}.
Example C82_case :
  sha_text d0 = text_bytes "bafyrei" ++ repeat x61 52
  /\ sha_of_text (fun _ => None) (fun _ => None) (text_bytes "/ipfs/" ++ sha_text d0) = Some d0
  /\ sha_of_cid_bytes ([x01; x55; x12; x20] ++ repeat x00 32) = None.
Proof.
  splits; [reflexivity| |reflexivity].
  destruct (sha_of_text _ _ _) as [d|] eqn:E; [|vm_compute in E; discriminate].
  f_equal. apply sha_eq. apply (f_equal (option_map sha_bytes)) in E.
  vm_compute in E. injection E as E. symmetry. exact E.
Qed.

(** C90: decompression does not depend on what the thread decompressed before. *)
From Coq Require Import List NArith Arith Lia Bool String.
From Coq Require Import Strings.Byte.
From Verif Require Import Base BaseProofs Cbor Types Seq ThreadZstd Instance.
Import ListNotations.
Open Scope list_scope.

(** * Specification *)
Section Spec.
  Context {X : Ext}.

  (** What is required of the library: data is no larger than the bound that is
      reported for it, and buffers keep their length. *)
  Definition bound_ok (upper_bound : bytes -> option N) : Prop :=
    forall d raw u, z_dec d = Some raw -> upper_bound d = Some u -> (Nlen raw <= u)%N.
  Definition leftover_ok (leftover : bytes -> bytes -> bytes) : Prop :=
    forall d b, List.length (leftover d b) = List.length b.

  (** The threads that did any work before, whether or not it panicked. *)
  Inductive used (upper_bound : bytes -> option N) (leftover : bytes -> bytes -> bytes) : thread -> Prop :=
  | used_new : used upper_bound leftover th_new
  | used_more th w : used upper_bound leftover th -> used upper_bound leftover (snd (run_work upper_bound leftover w th)).

  (** The largest size that is decompressed: 16 MiB. *)
  Definition limit : N := (16 * 1024 * 1024)%N.
End Spec.

Section Props.
  Context {X : Ext}.
  Variables (upper_bound : bytes -> option N) (leftover : bytes -> bytes -> bytes).
  Hypothesis Ub : bound_ok upper_bound.
  Hypothesis Lo : leftover_ok leftover.

  Notation run := (run_work upper_bound leftover).
  Notation used := (used upper_bound leftover).
  Definition whole (th : thread) : Prop := Nlen (th_buffer th) = min_capacity.

  Lemma whole_buffer d th : whole th ->
    let own := (capacity upper_bound d <=? min_capacity)%N in
    let buffer := if own then th_buffer th else repeat x00 (N.to_nat (capacity upper_bound d)) in
    (N.max (capacity upper_bound d) (if own then min_capacity else 0) = Nlen buffer)%N.
  Proof.
    intros H. cbn zeta. destruct (N.leb_spec (capacity upper_bound d) min_capacity).
    - rewrite H. lia.
    - unfold Nlen. rewrite repeat_length. lia.
  Qed.

  Lemma Nlen_skip (raw b : bytes) : (Nlen raw <= Nlen b)%N -> Nlen (raw ++ skipn (List.length raw) b) = Nlen b.
  Proof. unfold Nlen. intros H. rewrite app_length, skipn_length. lia. Qed.

  (** The buffer keeps its length and the result is in front of it. *)
  Lemma to_buffer d b :
    let '(r, b') := decompress_to_buffer leftover d b in
    Nlen b' = Nlen b /\
    match z_dec d with
    | Some raw => if (Nlen raw <=? Nlen b)%N then r = Ok (Nlen raw) /\ firstn (N.to_nat (Nlen raw)) b' = raw else r = Err EZstd
    | None => r = Err EZstd
    end.
  Proof.
    assert (L : Nlen (leftover d b) = Nlen b) by (unfold Nlen; now rewrite Lo).
    unfold decompress_to_buffer. destruct (z_dec d) as [raw|]; [|auto].
    destruct (N.leb_spec (Nlen raw) (Nlen b)); [|auto]. split.
    - rewrite Nlen_skip by (rewrite L; exact H). exact L.
    - split; [reflexivity|]. unfold Nlen. rewrite Nat2N.id, firstn_app, firstn_all, Nat.sub_diag. cbn [firstn]. apply app_nil_r.
  Qed.

  (** The buffer that is chosen is large enough whenever the limit allows. *)
  Lemma fits_limit d raw th : whole th -> z_dec d = Some raw ->
    let own := (capacity upper_bound d <=? min_capacity)%N in
    let buffer := if own then th_buffer th else repeat x00 (N.to_nat (capacity upper_bound d)) in
    (Nlen raw <=? Nlen buffer)%N = (Nlen raw <=? limit)%N.
  Proof.
    intros H Hz. cbn zeta. pose proof (whole_buffer d th H) as E. cbn zeta in E. rewrite <- E.
    assert (C : (Nlen raw <= limit -> Nlen raw <= capacity upper_bound d)%N).
    { intros HL. unfold capacity. change max_capacity with limit. destruct (upper_bound d) as [u|] eqn:Eu.
      - pose proof (Ub d raw u Hz Eu). lia.
      - lia. }
    assert (M : (capacity upper_bound d <= limit)%N) by (unfold capacity; change max_capacity with limit; lia).
    assert (m : (min_capacity <= limit)%N) by (unfold min_capacity, limit; lia).
    destruct (N.leb_spec (Nlen raw) limit); destruct (N.leb_spec (capacity upper_bound d) min_capacity);
      match goal with |- (?a <=? ?b)%N = _ => destruct (N.leb_spec a b) end; try reflexivity; lia.
  Qed.

  Lemma run_whole w : forall th, whole th ->
    whole (snd (run w th)) /\ (th_borrowed th = false -> th_borrowed (snd (run w th)) = false).
  Proof.
    induction w as [r| |d f IHf k IHk]; intros th H; cbn [run_work]; [auto|auto|].
    destruct (th_borrowed th) eqn:Eb; [cbn; now rewrite Eb|].
    set (own := (capacity upper_bound d <=? min_capacity)%N).
    set (buffer := if own then th_buffer th else repeat x00 (N.to_nat (capacity upper_bound d))).
    pose proof (to_buffer d buffer) as TB. destruct (decompress_to_buffer leftover d buffer) as [r b'].
    destruct TB as [TL _].
    set (th1 := {| th_borrowed := true; th_buffer := if own then b' else th_buffer th |}).
    assert (W1 : whole th1).
    { unfold whole, th1. cbn [th_buffer]. destruct own eqn:Eo; [|exact H]. rewrite TL. unfold buffer. exact H. }
    assert (F : forall th', whole th' -> whole (free th')) by (intros th' Ht; exact Ht).
    destruct r as [len|e|p|].
    - destruct (len <=? Nlen b')%N; [|split; [now apply F|auto]].
      specialize (IHf (firstn (N.to_nat len) b') th1 W1).
      destruct (run (f (firstn (N.to_nat len) b')) th1) as [[x|e|p|] th2]; cbn [snd] in IHf; destruct IHf as [W2 _].
      + destruct (IHk (Ok (len, x)) (free th2) (F _ W2)) as [A C]. split; [exact A|]. intros _. now apply C.
      + split; [now apply F|auto].
      + split; [now apply F|auto].
      + split; [now apply F|auto].
    - destruct (IHk (Err e) (free th1) (F _ W1)) as [A C]. split; [exact A|]. intros _. now apply C.
    - split; [now apply F|auto].
    - split; [now apply F|auto].
  Qed.

  Lemma used_ok th : used th -> whole th /\ th_borrowed th = false.
  Proof.
    induction 1 as [|th w _ [H1 H2]].
    - split; [|reflexivity]. unfold whole, th_new. cbn [th_buffer]. unfold Nlen. rewrite repeat_length. lia.
    - destruct (run_whole w th H1) as [A C]. auto.
  Qed.

  (** Whatever the thread did before, also when that failed or panicked: the
      transform gets exactly the decompressed bytes, and their number and its
      result are returned; data above the limit and broken data are errors. *)
  Theorem C90_transform th d (g : bytes -> bytes) k : used th ->
    exists th', used th' /\
      run (WUnpack d (fun b => WDone (g b)) k) th
      = run (k (match z_dec d with
                | Some raw => if (Nlen raw <=? limit)%N then Ok (Nlen raw, g raw) else Err EZstd
                | None => Err EZstd
                end)) th'.
  Proof.
    intros HU. destruct (used_ok th HU) as [H Hb].
    exists (snd (run (WUnpack d (fun b => WDone (g b)) (fun _ => WDone [])) th)). split; [now constructor|].
    cbn [run_work]. rewrite Hb.
    set (own := (capacity upper_bound d <=? min_capacity)%N).
    set (buffer := if own then th_buffer th else repeat x00 (N.to_nat (capacity upper_bound d))).
    pose proof (to_buffer d buffer) as TB. pose proof (fits_limit d) as FL.
    destruct (decompress_to_buffer leftover d buffer) as [r b']. destruct TB as [TL TB].
    destruct (z_dec d) as [raw|].
    - specialize (FL raw th H eq_refl). cbn zeta in FL. fold own in FL. fold buffer in FL. rewrite FL in TB.
      destruct (Nlen raw <=? limit)%N eqn:EL.
      + destruct TB as [-> TB]. assert (E : (Nlen raw <=? Nlen b')%N = true) by (rewrite TL; exact FL).
        rewrite E, TB. reflexivity.
      + subst r. reflexivity.
    - subst r. reflexivity.
  Qed.

  (** So every reading function of Seq.v, which uses [decompress], sees the same. *)
  Theorem C90_decompress th d : used th ->
    exists th', used th' /\
      run (WUnpack d WDone (fun r => match r with Ok (_, b) => WDone b | _ => WPanic end)) th
      = (match decompress d with Ok raw => Ok raw | _ => Panic (PAssert "transform") end, th').
  Proof.
    intros HU. destruct (C90_transform th d (fun b => b) (fun r => match r with Ok (_, b) => WDone b | _ => WPanic end) HU) as [th' [U E]].
    exists th'. split; [exact U|]. cbn beta in E. change (fun b : bytes => WDone b) with WDone in E. rewrite E.
    unfold decompress. change max_capacity with limit. destruct (z_dec d) as [raw|]; [|reflexivity].
    rewrite N.ltb_antisym. destruct (Nlen raw <=? limit)%N; reflexivity.
  Qed.

  (** A transform that panics does not break the thread; one that decompresses
      panics: decoding a value must not read another sequence. *)
  Theorem C90_panic th d raw f k : used th -> z_dec d = Some raw -> (Nlen raw <= limit)%N ->
    (f raw = WPanic \/ exists d' f' k', f raw = WUnpack d' f' k') ->
    exists th' p, run (WUnpack d f k) th = (Panic p, th') /\ used th'.
  Proof.
    intros HU Hz HL Hf. destruct (used_ok th HU) as [H Hb].
    assert (G : exists p, fst (run (WUnpack d f k) th) = Panic p).
    { cbn [run_work]. rewrite Hb.
      set (own := (capacity upper_bound d <=? min_capacity)%N).
      set (buffer := if own then th_buffer th else repeat x00 (N.to_nat (capacity upper_bound d))).
      pose proof (to_buffer d buffer) as TB. pose proof (fits_limit d raw th H Hz) as FL. cbn zeta in FL.
      fold own in FL. fold buffer in FL.
      destruct (decompress_to_buffer leftover d buffer) as [r b']. destruct TB as [TL TB]. rewrite Hz, FL in TB.
      apply N.leb_le in HL. rewrite HL in TB, FL. destruct TB as [-> TB]. rewrite TL, FL, TB.
      destruct Hf as [->|[d' [f' [k' ->]]]]; cbn [run_work th_borrowed]; eexists; reflexivity. }
    destruct G as [p G]. exists (snd (run (WUnpack d f k) th)), p. split; [|now constructor].
    rewrite <- G. now destruct (run (WUnpack d f k) th).
  Qed.
End Props.

(** The second data is shorter than the first and does not show any of it. *)
Example C90_case :
  bound_ok (fun d => Some (Nlen d)) /\ leftover_ok (fun _ b => b)
  /\ let run := run_work (fun d => Some (Nlen d)) (fun _ b => b) in
     let long := z_finish 0 [[x01; x02; x03; x04]] in let short := z_finish 0 [[x05]] in
     fst (run (WUnpack long WDone (fun _ => WUnpack short WDone
            (fun r => match r with Ok (n, b) => WDone (byte_of_N n :: b) | _ => WPanic end))) th_new)
     = Ok [x01; x05].
Proof.
  assert (U : bound_ok (fun d => Some (Nlen d))).
  { intros d raw u. destruct d as [|x d]; [discriminate|]. cbn. destruct x; try discriminate. intros [= <-] [= <-]. unfold Nlen. cbn [List.length]. lia. }
  assert (L : leftover_ok (fun _ b => b)) by (intros d b; reflexivity).
  split; [exact U|]. split; [exact L|]. cbn zeta.
  destruct (C90_transform _ _ U L th_new (z_finish 0 [[x01; x02; x03; x04]]) (fun b => b)
    (fun _ => WUnpack (z_finish 0 [[x05]]) WDone
            (fun r => match r with Ok (n, b) => WDone (byte_of_N n :: b) | _ => WPanic end)) (used_new _ _)) as [th [HU E]].
  cbn beta in E. change (fun b => WDone b) with WDone in E. rewrite E.
  destruct (C90_transform _ _ U L th (z_finish 0 [[x05]]) (fun b => b)
    (fun r => match r with Ok (n, b) => WDone (byte_of_N n :: b) | _ => WPanic end) HU) as [th2 [_ E2]].
  cbn beta in E2. change (fun b => WDone b) with WDone in E2. rewrite E2. reflexivity.
Qed.

(** C89 with the JSON reader of the program: events of the node are read, and chunks
    that are not exactly one event are not. *)
From Coq Require Import List NArith Arith Lia Bool String.
From Coq Require Import Strings.Byte.
From Verif Require Import Base BaseProofs Cbor Types Tags MemStore Links PropsLinks Pubsub PropsPubsub Json PropsJson.
Import ListNotations.
Open Scope list_scope.

(** * Specification *)

(** The fields of an event, without its data: each of the three others once. *)
Definition other_fields (m : list (bytes * json)) : Prop :=
  Forall (fun kv => plain (snd kv)) m
  /\ (forall n, In n ["from"; "seqno"; "topicIDs"]%string ->
      exists v, filter (fun kv => eqb (fst kv) (text_bytes n)) m = [(text_bytes n, v)])
  /\ filter (fun kv => eqb (fst kv) (text_bytes "data")) m = [].

(** The event as the node sends it: one JSON object without spaces, with the data
    between the fields [before] and [after] of it. *)
Definition event_of (before after : list (bytes * json)) (d : bytes) : bytes :=
  jwrite (JObj (before ++ (text_bytes "data", JStr (base64 d)) :: after)).

(** * The reader, one byte at a time *)
Definition is_ws (b : byte) : bool := match b with x20 | x0a | x09 | x0d => true | _ => false end.
Lemma skip_S b r : skip_ws (b :: r) = if is_ws b then skip_ws r else b :: r.
Proof. destruct b; reflexivity. Qed.
Lemma skip_ext p q b t : skip_ws p = b :: t -> skip_ws (p ++ q) = b :: t ++ q.
Proof.
  induction p as [|x p IH]; [discriminate|]. cbn [app]. rewrite !skip_S.
  destruct (is_ws x); [exact IH|]. intros E. injection E as <- <-. reflexivity.
Qed.

Definition is_e (b : byte) : bool := match b with x65 | x45 => true | _ => false end.
Definition is_sign (b : byte) : bool := match b with x2b | x2d => true | _ => false end.
Definition unsign (r : bytes) : bytes := match r with [] => [] | s :: r' => if is_sign s then r' else r end.
Lemma exponent_S b r : exponent (b :: r) =
  if is_e b then match digits (unsign r) with ([], _) => None | (_, r') => Some r' end else Some (b :: r).
Proof.
  assert (X : match r with (x2b | x2d) :: r' => r' | _ => r end = unsign r).
  { destruct r as [|s r]; [reflexivity|]. destruct s; reflexivity. }
  rewrite <- X. destruct b; reflexivity.
Qed.
Lemma digits_ext p q d r : digits p = (d, r) -> r <> [] -> digits (p ++ q) = (d, r ++ q).
Proof.
  revert d r. induction p as [|b p IH]; intros d r E N; cbn [digits app] in *.
  - congruence.
  - destruct (is_digit b).
    + destruct (digits p) as [d' r'] eqn:E'. injection E as <- <-. now rewrite (IH _ _ eq_refl N).
    + injection E as <- <-. reflexivity.
Qed.
Lemma exponent_ext p q r : exponent p = Some r -> r <> [] -> exponent (p ++ q) = Some (r ++ q).
Proof.
  destruct p as [|b p]; intros E N; [cbn in E; congruence|]. cbn [app]. rewrite exponent_S in *.
  destruct (is_e b); [|now injection E as <-].
  destruct (digits (unsign p)) as [[|c d] r'] eqn:D; [discriminate|]. injection E as ->.
  replace (unsign (p ++ q)) with (unsign p ++ q).
  - now rewrite (digits_ext _ q _ _ D N).
  - destruct p as [|s p]; [discriminate D|]. cbn. now destruct (is_sign s).
Qed.
Definition after_digits (d r : bytes) : option (json * bytes) :=
  match r with
  | [] => Some (if (of_digits d <? two64)%N then JNum (of_digits d) else JReal, [])
  | b :: r' =>
      if byte_eqb b x2e then
        match digits r' with
        | ([], _) => None
        | (_, r'') => option_map (fun r => (JReal, r)) (exponent r'')
        end
      else if is_e b then option_map (fun r => (JReal, r)) (exponent r)
      else Some (if (of_digits d <? two64)%N then JNum (of_digits d) else JReal, r)
  end.
Lemma unsigned_eq bs : unsigned bs = let (d, r) := digits bs in if whole d then after_digits d r else None.
Proof.
  unfold unsigned. destruct (digits bs) as [d r]. destruct (whole d); [|reflexivity].
  destruct r as [|b r]; [reflexivity|]. destruct b; reflexivity.
Qed.
Lemma unsigned_ext p q j r : unsigned p = Some (j, r) -> r <> [] -> unsigned (p ++ q) = Some (j, r ++ q).
Proof.
  rewrite !unsigned_eq. destruct (digits p) as [d r0] eqn:D. destruct (whole d) eqn:W; [|discriminate].
  intros E N. destruct r0 as [|b r0]; [cbn in E; congruence|].
  rewrite (digits_ext _ q _ _ D) by discriminate. rewrite W. cbn [app after_digits] in *.
  destruct (byte_eqb b x2e).
  - destruct (digits r0) as [[|c d2] r2] eqn:D2; [discriminate|].
    destruct (exponent r2) as [r3|] eqn:X; [|discriminate]. cbn in E. injection E as <- <-.
    assert (N2 : r2 <> []) by (intros ->; cbn in X; congruence).
    now rewrite (digits_ext _ q _ _ D2 N2), (exponent_ext _ q _ X N).
  - destruct (is_e b).
    + destruct (exponent (b :: r0)) as [r3|] eqn:X; [|discriminate]. cbn in E. injection E as <- <-.
      now rewrite (exponent_ext _ q _ X N : exponent (b :: r0 ++ q) = _).
    + injection E as <- <-. reflexivity.
Qed.
Lemma number_S b r : number (b :: r) =
  if byte_eqb b x2d then option_map (fun jr => (JReal, snd jr)) (unsigned r) else unsigned (b :: r).
Proof. destruct b; reflexivity. Qed.
Lemma number_ext p q j r : number p = Some (j, r) -> r <> [] -> number (p ++ q) = Some (j, r ++ q).
Proof.
  destruct p as [|b p]; [discriminate|]. cbn [app]. rewrite !number_S. destruct (byte_eqb b x2d).
  - destruct (unsigned p) as [[j' r']|] eqn:U; [|discriminate]. cbn. intros E N. injection E as <- <-.
    now rewrite (unsigned_ext _ q _ _ U N).
  - intros E N. exact (unsigned_ext (b :: p) q _ _ E N).
Qed.

Lemma string_end_S b r : string_end (b :: r) =
  if byte_eqb b x22 then Some ([], r)
  else if byte_eqb b x5c then
    match r with
    | [] => None
    | e :: r1 =>
        if byte_eqb e x75 then
          match r1 with
          | a :: b :: c :: d :: r2 =>
              match hex4 a b c d with
              | None => None
              | Some n =>
                  if ((55296 <=? n) && (n <=? 56319))%N then
                    match r2 with
                    | x :: y :: a' :: b' :: c' :: d' :: r' =>
                        if byte_eqb x x5c && byte_eqb y x75 then
                          match hex4 a' b' c' d' with
                          | None => None
                          | Some m =>
                              if ((56320 <=? m) && (m <=? 57343))%N
                              then option_map (fun sr => (utf8_of (65536 + (n - 55296) * 1024 + (m - 56320)) ++ fst sr, snd sr)) (string_end r')
                              else None
                          end
                        else None
                    | _ => None
                    end
                  else if ((56320 <=? n) && (n <=? 57343))%N then None
                  else option_map (fun sr => (utf8_of n ++ fst sr, snd sr)) (string_end r2)
              end
          | _ => None
          end
        else match simple_escape e with
             | None => None
             | Some c => option_map (fun sr => (c :: fst sr, snd sr)) (string_end r1)
             end
    end
  else if (byte_to_N b <? 32)%N then None
  else option_map (fun sr => (b :: fst sr, snd sr)) (string_end r).
Proof.
  destruct (byte_eqb b x22) eqn:E1; [apply byte_eqb_eq in E1; now subst|].
  destruct (byte_eqb b x5c) eqn:E2.
  - apply byte_eqb_eq in E2. subst. destruct r as [|e r]; [reflexivity|].
    destruct (byte_eqb e x75) eqn:E3.
    + apply byte_eqb_eq in E3. subst. destruct r as [|a [|b [|c [|d r]]]]; try reflexivity.
      cbn [string_end]. destruct (hex4 a b c d) as [n|]; [|reflexivity].
      destruct (_ && _)%bool; [|reflexivity].
      destruct r as [|x [|y [|a' [|b' [|c' [|d' r]]]]]]; try (destruct x; reflexivity); try reflexivity.
      * destruct x; try reflexivity. destruct y; reflexivity.
      * destruct x; try reflexivity. destruct y; reflexivity.
      * destruct x; try reflexivity. destruct y; reflexivity.
      * destruct x; try reflexivity. destruct y; reflexivity.
      * destruct x; try reflexivity. destruct y; reflexivity.
    + destruct e; try reflexivity; discriminate E3.
  - destruct b; try reflexivity; discriminate.
Qed.
Lemma string_end_ext n : forall p q s r, List.length p <= n -> string_end p = Some (s, r) -> string_end (p ++ q) = Some (s, r ++ q).
Proof.
  induction n as [|n IH]; intros p q s r L E.
  { destruct p; [discriminate|cbn in L; lia]. }
  assert (G : forall p' f, List.length p' <= n ->
    option_map f (string_end p') = Some (s, r) -> (forall s' r', snd (f (s', r')) = r') -> (forall s' r' r'', fst (f (s', r')) = fst (f (s', r''))) ->
    option_map f (string_end (p' ++ q)) = Some (s, r ++ q)).
  { intros p' f L' E' F1 F2. destruct (string_end p') as [[s' r']|] eqn:E1; [|discriminate].
    rewrite (IH _ q _ _ L' E1). cbn in *. injection E' as E'. 
    rewrite (surjective_pairing (f (s', r' ++ q))), F1. specialize (F1 s' r'). specialize (F2 s' r' (r' ++ q)).
    rewrite E' in F1, F2. cbn in *. subst. reflexivity. }
  destruct p as [|b p]; [discriminate|]. cbn [List.length] in L. cbn [app]. rewrite string_end_S in *.
  destruct (byte_eqb b x22); [injection E as <- <-; reflexivity|].
  destruct (byte_eqb b x5c).
  - destruct p as [|e p]; [discriminate|]. cbn [app List.length] in *. destruct (byte_eqb e x75).
    + destruct p as [|a [|b' [|c [|d p]]]]; try discriminate. cbn [app List.length] in *.
      destruct (hex4 a b' c d) as [m|]; [|discriminate]. destruct (_ && _)%bool.
      * destruct p as [|x [|y [|a' [|b1 [|c' [|d' p]]]]]]; try discriminate. cbn [app List.length] in *.
        destruct (_ && _)%bool; [|discriminate]. destruct (hex4 a' b1 c' d') as [m'|]; [|discriminate].
        destruct (_ && _)%bool; [|discriminate]. apply G; [lia|exact E|reflexivity|reflexivity].
      * destruct (_ && _)%bool; [discriminate|]. apply G; [lia|exact E|reflexivity|reflexivity].
    + destruct (simple_escape e); [|discriminate]. apply G; [lia|exact E|reflexivity|reflexivity].
  - destruct (byte_to_N b <? 32)%N; [discriminate|]. apply G; [lia|exact E|reflexivity|reflexivity].
Qed.

Lemma ident_ext w : forall p q r, ident w p = Some r -> ident w (p ++ q) = Some (r ++ q).
Proof.
  induction w as [|a w IH]; intros p q r E; [cbn [ident] in *; injection E as <-; reflexivity|].
  destruct p as [|b p]; [discriminate|]. cbn [ident app] in *. destruct (byte_eqb a b); [now apply IH|discriminate].
Qed.
Lemma word_ext w j p q j' r : word w j p = Some (j', r) -> word w j (p ++ q) = Some (j', r ++ q).
Proof.
  unfold word. destruct (ident (text_bytes w) p) as [r'|] eqn:E; [|discriminate].
  rewrite (ident_ext _ _ q _ E). cbn [option_map]. intros X. injection X as <- <-. reflexivity.
Qed.

Definition brackets {A} (close : byte) (inner : bytes -> option (A * bytes)) (none : A) (r : bytes) : option (A * bytes) :=
  match skip_ws r with
  | [] => inner []
  | b :: r' => if byte_eqb b close then Some (none, r') else inner (b :: r')
  end.
Lemma jval_S f bs : jval (S f) bs =
  match skip_ws bs with
  | [] => None
  | b :: r =>
      if byte_eqb b x22 then option_map (fun sr => (JStr (fst sr), snd sr)) (string_end r)
      else if byte_eqb b x5b then
        brackets x5d (fun r => option_map (fun lr => (JArr (fst lr), snd lr)) (jelems f r)) (JArr []) r
      else if byte_eqb b x7b then
        brackets x7d (fun r => option_map (fun lr => (JObj (fst lr), snd lr)) (jmembers f r)) (JObj []) r
      else if byte_eqb b x6e then word "null" JNull (b :: r)
      else if byte_eqb b x74 then word "true" (JBool true) (b :: r)
      else if byte_eqb b x66 then word "false" (JBool false) (b :: r)
      else number (b :: r)
  end.
Proof.
  cbn [jval]. destruct (skip_ws bs) as [|b r]; [reflexivity|].
  assert (A : match skip_ws r with
              | x5d :: r' => Some (JArr [], r')
              | r' => option_map (fun lr => (JArr (fst lr), snd lr)) (jelems f r')
              end = brackets x5d (fun r => option_map (fun lr => (JArr (fst lr), snd lr)) (jelems f r)) (JArr []) r).
  { unfold brackets. destruct (skip_ws r) as [|c t]; [reflexivity|]. destruct c; reflexivity. }
  assert (B : match skip_ws r with
              | x7d :: r' => Some (JObj [], r')
              | r' => option_map (fun lr => (JObj (fst lr), snd lr)) (jmembers f r')
              end = brackets x7d (fun r => option_map (fun lr => (JObj (fst lr), snd lr)) (jmembers f r)) (JObj []) r).
  { unfold brackets. destruct (skip_ws r) as [|c t]; [reflexivity|]. destruct c; reflexivity. }
  destruct b; try reflexivity; [exact A|exact B].
Qed.
Lemma jelems_S f bs : jelems (S f) bs =
  match jval f bs with
  | None => None
  | Some (j, r) =>
      match skip_ws r with
      | [] => None
      | b :: r' =>
          if byte_eqb b x5d then Some ([j], r')
          else if byte_eqb b x2c then option_map (fun lr => (j :: fst lr, snd lr)) (jelems f r')
          else None
      end
  end.
Proof.
  cbn [jelems]. destruct (jval f bs) as [[j r]|]; [|reflexivity].
  destruct (skip_ws r) as [|c t]; [reflexivity|]. destruct c; reflexivity.
Qed.
Lemma jmembers_S f bs : jmembers (S f) bs =
  match skip_ws bs with
  | [] => None
  | b :: r =>
      if byte_eqb b x22 then
        match string_end r with
        | None => None
        | Some (k, r1) =>
            match skip_ws r1 with
            | [] => None
            | c :: r2 =>
                if byte_eqb c x3a then
                  match jval f r2 with
                  | None => None
                  | Some (j, r3) =>
                      match skip_ws r3 with
                      | [] => None
                      | d :: r' =>
                          if byte_eqb d x7d then Some ([(k, j)], r')
                          else if byte_eqb d x2c then option_map (fun lr => ((k, j) :: fst lr, snd lr)) (jmembers f r')
                          else None
                      end
                  end
                else None
            end
        end
      else None
  end.
Proof.
  cbn [jmembers]. destruct (skip_ws bs) as [|b r]; [reflexivity|].
  destruct (byte_eqb b x22) eqn:E; [apply byte_eqb_eq in E; subst b|destruct b; try reflexivity; discriminate E].
  destruct (string_end r) as [[k r1]|]; [|reflexivity].
  destruct (skip_ws r1) as [|c r2]; [reflexivity|].
  destruct (byte_eqb c x3a) eqn:E; [apply byte_eqb_eq in E; subst c|destruct c; try reflexivity; discriminate E].
  destruct (jval f r2) as [[j r3]|]; [|reflexivity].
  destruct (skip_ws r3) as [|d t]; [reflexivity|]. destruct d; reflexivity.
Qed.

Lemma jelems_nil f : jelems f [] = None.
Proof. destruct f as [|[|f]]; reflexivity. Qed.
Lemma jmembers_nil f : jmembers f [] = None.
Proof. destruct f; reflexivity. Qed.

(** What was read is read again when more follows, unless it is a number at the end. *)
Definition closed (j : json) : Prop := match j with JNum _ | JReal => False | _ => True end.
Lemma read_more f :
  (forall p j r, jval f p = Some (j, r) -> forall k q, r <> [] \/ closed j -> jval (f + k) (p ++ q) = Some (j, r ++ q))
  /\ (forall p l r, jelems f p = Some (l, r) -> forall k q, jelems (f + k) (p ++ q) = Some (l, r ++ q))
  /\ (forall p l r, jmembers f p = Some (l, r) -> forall k q, jmembers (f + k) (p ++ q) = Some (l, r ++ q)).
Proof.
  induction f as [|f (IV & IE & IM)]; [repeat split; discriminate|]. split; [|split].
  - intros p j r E k q C. cbn [Nat.add]. rewrite jval_S in *.
    destruct (skip_ws p) as [|b t] eqn:W; [discriminate|]. rewrite (skip_ext _ q _ _ W).
    destruct (byte_eqb b x22).
    { destruct (string_end t) as [[s r']|] eqn:Es; [|discriminate]. cbn in E. injection E as <- <-.
      now rewrite (string_end_ext _ _ q _ _ (le_n _) Es). }
    destruct (byte_eqb b x5b).
    { unfold brackets in *. destruct (skip_ws t) as [|c t'] eqn:W'; [rewrite jelems_nil in E; discriminate E|].
      rewrite (skip_ext _ q _ _ W'). destruct (byte_eqb c x5d); [injection E as <- <-; reflexivity|].
      destruct (jelems f (c :: t')) as [[l r']|] eqn:Ee; [|discriminate]. cbn in E. injection E as <- <-.
      now rewrite (IE _ _ _ Ee k q : jelems (f + k) (c :: t' ++ q) = _). }
    destruct (byte_eqb b x7b).
    { unfold brackets in *. destruct (skip_ws t) as [|c t'] eqn:W'; [rewrite jmembers_nil in E; discriminate E|].
      rewrite (skip_ext _ q _ _ W'). destruct (byte_eqb c x7d); [injection E as <- <-; reflexivity|].
      destruct (jmembers f (c :: t')) as [[l r']|] eqn:Ee; [|discriminate]. cbn in E. injection E as <- <-.
      now rewrite (IM _ _ _ Ee k q : jmembers (f + k) (c :: t' ++ q) = _). }
    destruct (byte_eqb b x6e); [exact (word_ext _ _ _ q _ _ E)|].
    destruct (byte_eqb b x74); [exact (word_ext _ _ _ q _ _ E)|].
    destruct (byte_eqb b x66); [exact (word_ext _ _ _ q _ _ E)|].
    assert (N : r <> []).
    { destruct C as [C|C]; [exact C|]. exfalso. clear - E C. rewrite number_S in E.
      assert (U : forall bs j' r', unsigned bs = Some (j', r') -> closed j' -> False).
      { intros bs j' r'. rewrite unsigned_eq. destruct (digits bs) as [d r0]. destruct (whole d); [|discriminate].
        assert (Y : closed (if (of_digits d <? two64)%N then JNum (of_digits d) else JReal) -> False) by now destruct (_ <? _)%N.
        unfold after_digits. destruct r0 as [|c r0]; [intros X; injection X as <- _; exact Y|].
        destruct (byte_eqb c x2e).
        - destruct (digits r0) as [[|x d2] r2]; [discriminate|]. destruct (exponent r2); [|discriminate].
          cbn. intros X. injection X as <- _. easy.
        - destruct (is_e c); [|intros X; injection X as <- _; exact Y].
          destruct (exponent (c :: r0)); [|discriminate]. cbn. intros X. injection X as <- _. easy. }
      destruct (byte_eqb b x2d); [|exact (U _ _ _ E C)].
      destruct (unsigned t); [|discriminate]. cbn in E. injection E as <- _. exact C. }
    exact (number_ext (b :: t) q _ _ E N).
  - intros p l r E k q. cbn [Nat.add]. rewrite jelems_S in *.
    destruct (jval f p) as [[j r1]|] eqn:Ev; [|discriminate].
    destruct (skip_ws r1) as [|b t] eqn:W; [discriminate|].
    rewrite (IV _ _ _ Ev k q) by (left; intros ->; discriminate W). rewrite (skip_ext _ q _ _ W).
    destruct (byte_eqb b x5d); [injection E as <- <-; reflexivity|].
    destruct (byte_eqb b x2c); [|discriminate].
    destruct (jelems f t) as [[l' r']|] eqn:Ee; [|discriminate]. cbn in E. injection E as <- <-.
    now rewrite (IE _ _ _ Ee k q).
  - intros p l r E k q. cbn [Nat.add]. rewrite jmembers_S in *.
    destruct (skip_ws p) as [|b t] eqn:W; [discriminate|]. rewrite (skip_ext _ q _ _ W).
    destruct (byte_eqb b x22); [|discriminate].
    destruct (string_end t) as [[s r1]|] eqn:Es; [|discriminate].
    rewrite (string_end_ext _ _ q _ _ (le_n _) Es).
    destruct (skip_ws r1) as [|c r2] eqn:W2; [discriminate|]. rewrite (skip_ext _ q _ _ W2).
    destruct (byte_eqb c x3a); [|discriminate].
    destruct (jval f r2) as [[j r3]|] eqn:Ev; [|discriminate].
    destruct (skip_ws r3) as [|d t'] eqn:W3; [discriminate|].
    rewrite (IV _ _ _ Ev k q) by (left; intros ->; discriminate W3). rewrite (skip_ext _ q _ _ W3).
    destruct (byte_eqb d x7d); [injection E as <- <-; reflexivity|].
    destruct (byte_eqb d x2c); [|discriminate].
    destruct (jmembers f t') as [[l' r']|] eqn:Ee; [|discriminate]. cbn in E. injection E as <- <-.
    now rewrite (IM _ _ _ Ee k q).
Qed.

(** A proper prefix of an object is no document, nor is an object with more behind it. *)
Lemma jval_obj l : plain (JObj l) -> jval (2 * List.length (jwrite (JObj l))) (jwrite (JObj l)) = Some (JObj l, []).
Proof.
  intros H. pose proof (jval_write _ H (2 * List.length (jwrite (JObj l))) [] (le_n _) Logic.I) as E.
  now rewrite app_nil_r in E.
Qed.
Lemma cut_none l p q : plain (JObj l) -> jwrite (JObj l) = p ++ q -> q <> [] -> jread p = None.
Proof.
  intros H E N. pose proof (jval_obj l H) as V. unfold jread.
  destruct (jval (2 * List.length p + 2) p) as [[j r]|] eqn:P; [|reflexivity].
  destruct (skip_ws r) eqn:W; [|reflexivity]. exfalso.
  assert (C : closed j).
  { destruct p as [|b p].
    - cbn in P. discriminate.
    - cbn [jwrite app] in E. injection E as <- _.
      replace (2 * List.length (x7b :: p) + 2) with (S (2 * List.length (x7b :: p) + 1)) in P by lia.
      rewrite jval_S in P. cbn [skip_ws] in P.
      change (byte_eqb x7b x22) with false in P. change (byte_eqb x7b x5b) with false in P.
      change (byte_eqb x7b x7b) with true in P. cbv iota in P. unfold brackets in P.
      destruct (skip_ws p) as [|c t].
      + destruct (jmembers _ _) as [[l' r']|]; [|discriminate]. cbn in P. injection P as <- _. exact Logic.I.
      + destruct (byte_eqb c x7d); [injection P as <- _; exact Logic.I|].
        destruct (jmembers _ _) as [[l' r']|]; [|discriminate]. cbn in P. injection P as <- _. exact Logic.I. }
  pose proof (proj1 (read_more _) _ _ _ P (2 * List.length (jwrite (JObj l))) q (or_intror C)) as X.
  rewrite <- E in X.
  pose proof (proj1 (read_more _) _ _ _ V (2 * List.length p + 2) [] (or_intror Logic.I)) as Y.
  rewrite app_nil_r, Nat.add_comm in Y. rewrite Y in X. cbn [app] in X.
  assert (Z : r ++ q = []) by congruence.
  apply app_eq_nil in Z. now destruct Z.
Qed.
Lemma two_none l j : plain (JObj l) -> plain j -> jread (jwrite (JObj l) ++ jwrite j) = None.
Proof.
  intros H P. pose proof (jval_obj l H) as V. unfold jread.
  pose proof (proj1 (read_more _) _ _ _ V (2 * List.length (jwrite j) + 2) (jwrite j) (or_intror Logic.I)) as Y.
  rewrite app_length.
  replace (2 * (List.length (jwrite (JObj l)) + List.length (jwrite j)) + 2)
    with (2 * List.length (jwrite (JObj l)) + (2 * List.length (jwrite j) + 2)) by lia.
  rewrite Y. cbn [app]. pose proof (skip_write j [] P) as W. rewrite app_nil_r in W. rewrite W.
  destruct (jwrite_front j P) as (b & r & E & _). now rewrite E.
Qed.

(** * C89 *)
Lemma event_plain before after d : Forall (fun kv => plain (snd kv)) (before ++ after) ->
  plain (JObj (before ++ (text_bytes "data", JStr (base64 d)) :: after)).
Proof.
  intros H. apply plain_obj. apply Forall_app in H. destruct H as (A & B). apply Forall_app. split; [exact A|].
  constructor; [exact Logic.I|exact B].
Qed.

(** The reader of the program reads the events of the node, whatever else is in them
    and in whatever order: the hypothesis of C89_messages_partial and
    C89_arrive_partial is met. *)
Theorem C89_event before after :
  other_fields (before ++ after) -> sends (from_str de_event) (event_of before after).
Proof.
  intros (P & O & N) d. unfold from_str, event_of. rewrite jread_write by now apply event_plain.
  unfold de_event, de_struct.
  assert (F : forall n, filter (fun kv => eqb (fst kv) (text_bytes n)) (before ++ (text_bytes "data", JStr (base64 d)) :: after)
    = if eqb (text_bytes "data") (text_bytes n)
      then filter (fun kv => eqb (fst kv) (text_bytes n)) before ++ (text_bytes "data", JStr (base64 d)) :: filter (fun kv => eqb (fst kv) (text_bytes n)) after
      else filter (fun kv => eqb (fst kv) (text_bytes n)) (before ++ after)).
  { intros n. rewrite !filter_app. cbn [filter fst]. now destruct (eqb _ _). }
  cbn [omapM]. rewrite !F.
  change (eqb (text_bytes "data") (text_bytes "data")) with true.
  change (eqb (text_bytes "data") (text_bytes "from")) with false.
  change (eqb (text_bytes "data") (text_bytes "seqno")) with false.
  change (eqb (text_bytes "data") (text_bytes "topicIDs")) with false. cbv iota.
  rewrite filter_app in N. apply app_eq_nil in N. destruct N as (N1 & N2). rewrite N1, N2. cbn [app].
  destruct (O "from"%string ltac:(cbn; auto)) as (v1 & ->).
  destruct (O "seqno"%string ltac:(cbn; auto)) as (v2 & ->).
  destruct (O "topicIDs"%string ltac:(cbn; auto)) as (v3 & ->). reflexivity.
Qed.

(** The chunks of an HTTP body have nothing to do with the messages in it: the
    program panics when an event comes in two chunks, and when two come in one. *)
Theorem C89_reader_refuted before after other64 utf8 other_base base58 :
  other_fields (before ++ after) ->
  let event := event_of before after in
  let recv := recv_links (from_str de_event) other64 utf8 other_base base58 in
  (forall d p q, event d = p ++ q -> q <> [] -> recv [Some p; Some q] = ([], false))
  /\ (forall a b, recv [Some (event a ++ event b)] = ([], false)).
Proof.
  intros (P & _). cbv zeta. split.
  - intros d p q E N. cbn [recv_links]. unfold sub_chunk, from_str.
    now rewrite (cut_none _ p q (event_plain before after d P) E N).
  - intros a b. cbn [recv_links]. unfold sub_chunk, from_str, event_of.
    now rewrite (two_none _ _ (event_plain before after a P) (event_plain before after b P)).
Qed.

(** An event as go-ipfs sends it. *)
Example C89_event_case :
  let before := [(text_bytes "from", JStr (text_bytes "EiD"))] in
  let after := [(text_bytes "seqno", JStr (text_bytes "FQ==")); (text_bytes "topicIDs", JArr [JStr (text_bytes "t")])] in
  other_fields (before ++ after)
  /\ event_of before after (text_bytes "tree")
     = text_bytes "{""from"":""EiD"",""data"":""dHJlZQ=="",""seqno"":""FQ=="",""topicIDs"":[""t""]}".
Proof.
  cbv zeta. split; [|vm_compute; reflexivity]. split; [|split].
  - repeat constructor.
  - intros n [<-|[<-|[<-|[]]]]; eexists; vm_compute; reflexivity.
  - reflexivity.
Qed.

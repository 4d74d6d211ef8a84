(** C88: what a printed expression means. *)
From Coq Require Import List NArith Arith Lia Bool String.
From Coq Require Import Strings.Byte.
From Verif Require Import Base BaseProofs Cbor Types Tags TagProofs MemStore PropsTags Display.
Import ListNotations.
Open Scope list_scope.

(** * Specification: how to read such a text *)

Inductive token := TLit (t : tag) | TAnd | TOr | TOpen | TClose.

(** The tokens of a text. [inside] is what has been read of a literal, in which
    two quotation marks stand for one. *)
Fixpoint tokens (inside : option tag) (text : bytes) : option (list token) :=
  match text, inside with
  | [], None => Some []
  | [], Some _ => None
  | b :: rest, Some t =>
      if byte_eqb b x27 then
        match rest with
        | c :: rest' =>
            if byte_eqb c x27 then tokens (Some (t ++ [x27])) rest'
            else option_map (cons (TLit t)) (tokens None rest)
        | [] => Some [TLit t]
        end
      else tokens (Some (t ++ [b])) rest
  | b :: rest, None =>
      if byte_eqb b x27 then tokens (Some []) rest                       (* ' *)
      else
        match rest with
        | c :: rest' =>
            if byte_eqb b x28 && byte_eqb c x20 then option_map (cons TOpen) (tokens None rest')       (* "( " *)
            else if byte_eqb b x20 && byte_eqb c x29 then option_map (cons TClose) (tokens None rest')  (* " )" *)
            else
              match rest' with
              | d :: rest'' =>
                  if byte_eqb b x20 && byte_eqb c x26 && byte_eqb d x20 then option_map (cons TAnd) (tokens None rest'')  (* " & " *)
                  else if byte_eqb b x20 && byte_eqb c x7c && byte_eqb d x20 then option_map (cons TOr) (tokens None rest'')  (* " | " *)
                  else None
              | [] => None
              end
        | [] => None
        end
  end.

(** Calculating from left to right with a stack for the brackets. On top of
    the stack: the value of the alternatives that are complete, and of the
    current one. So "and" binds more tightly than "or". *)
Fixpoint calc (s : list tag) (ts : list token) (st : list (bool * bool)) : list (bool * bool) :=
  match ts, st with
  | [], _ => st
  | TLit t :: ts, (o, a) :: st => calc s ts ((o, a && existsb (bytes_eqb t) s) :: st)
  | TAnd :: ts, st => calc s ts st
  | TOr :: ts, (o, a) :: st => calc s ts ((o || a, true) :: st)
  | TOpen :: ts, st => calc s ts ((false, true) :: st)
  | TClose :: ts, (o, a) :: (o', a') :: st => calc s ts ((o', a' && (o || a)) :: st)
  | _, _ => []
  end.

(** The value of a text for the tags [s]. *)
Definition value (s : list tag) (text : bytes) : option bool :=
  match tokens None text with
  | Some ts => match calc s ts [(false, true)] with [(o, a)] => Some (o || a) | _ => None end
  | None => None
  end.

(** No disjunction directly in a disjunction. *)
Fixpoint flat (e : expr) : Prop :=
  match e with
  | ELit _ => True
  | EAnd es => fold_right (fun e p => flat e /\ p) True es
  | EOr es => fold_right (fun e p => match e with EOr _ => False | _ => flat e end /\ p) True es
  end.

(** * Proofs *)

Definition tok_text (t : token) : bytes :=
  match t with
  | TLit t => quoted t
  | TAnd => text_bytes " & "
  | TOr => text_bytes " | "
  | TOpen => text_bytes "( "
  | TClose => text_bytes " )"
  end.

Fixpoint tjoin (sep : token) (l : list (list token)) : list token :=
  match l with
  | [] => []
  | [x] => x
  | x :: l' => x ++ [sep] ++ tjoin sep l'
  end.
Definition tbracketed (e : expr) (ts : list token) : list token :=
  match e with
  | EOr v => if Nat.ltb 1 (List.length v) then [TOpen] ++ ts ++ [TClose] else ts
  | _ => ts
  end.
Fixpoint toks (e : expr) : list token :=
  match e with
  | ELit t => [TLit t]
  | EAnd es => tjoin TAnd (map (fun e => tbracketed e (toks e)) es)
  | EOr es => tjoin TOr (map toks es)
  end.

(** A text that does not begin with a quotation mark. *)
Definition apart (t : bytes) : Prop := match t with b :: _ => byte_eqb b x27 = false | [] => True end.

(** [t] is the text of the tokens [ts] wherever a literal may end. *)
Definition lexes (t : bytes) (ts : list token) : Prop :=
  forall rest, apart rest -> tokens None (t ++ rest) = option_map (app ts) (tokens None rest).

Lemma eqb_true a b : byte_eqb a b = true -> a = b.
Proof. apply byte_eqb_eq. Qed.

Lemma option_map_map {A C D} (f : C -> D) (g : A -> C) o : option_map f (option_map g o) = option_map (fun x => f (g x)) o.
Proof. now destruct o. Qed.
Lemma option_map_eq {A C} (f g : A -> C) o : (forall a, f a = g a) -> option_map f o = option_map g o.
Proof. destruct o; cbn; congruence. Qed.

Lemma lex_inside : forall t acc rest, apart rest ->
  tokens (Some acc) (flat_map (fun b => if byte_eqb b quote_mark then [quote_mark; quote_mark] else [b]) t ++ [quote_mark] ++ rest)
  = option_map (cons (TLit (acc ++ t))) (tokens None rest).
Proof.
  induction t as [|b t IH]; intros acc rest H.
  - rewrite app_nil_r. cbn [flat_map app]. destruct rest as [|c rest]; [reflexivity|].
    cbn in H. cbn [tokens]. change (byte_eqb quote_mark x27) with true. cbn iota. now rewrite H.
  - cbn [flat_map]. destruct (byte_eqb b quote_mark) eqn:E.
    + apply eqb_true in E as ->. cbn [app]. cbn [tokens]. change (byte_eqb quote_mark x27) with true. cbn iota.
      change (quote_mark :: rest) with ([quote_mark] ++ rest). rewrite IH by exact H. now rewrite <- app_assoc.
    + cbn [app]. cbn [tokens]. change quote_mark with x27 in E. rewrite E.
      change (quote_mark :: rest) with ([quote_mark] ++ rest). rewrite IH by exact H. now rewrite <- app_assoc.
Qed.

Lemma lexes_lit t : lexes (quoted t) [TLit t].
Proof.
  intros rest H. unfold quoted. rewrite <- !app_assoc. cbn [app]. cbn [tokens]. change (byte_eqb quote_mark x27) with true. cbn iota.
  change (quote_mark :: rest) with ([quote_mark] ++ rest). now rewrite lex_inside.
Qed.
Lemma lexes_sep sep : match sep with TLit _ => False | _ => True end ->
  forall rest, tokens None (tok_text sep ++ rest) = option_map (cons sep) (tokens None rest).
Proof. destruct sep; cbn; easy. Qed.
Lemma apart_sep sep rest : match sep with TLit _ => False | _ => True end -> apart (tok_text sep ++ rest).
Proof. now destruct sep. Qed.

Lemma lexes_join sep (l : list (bytes * list token)) : match sep with TLit _ => False | _ => True end ->
  Forall (fun p => lexes (fst p) (snd p)) l -> lexes (join (tok_text sep) (map fst l)) (tjoin sep (map snd l)).
Proof.
  intros Hs. induction l as [|p l IH]; intros H rest Hr.
  - cbn. now destruct (tokens None rest).
  - inversion H as [|? ? H1 H2]; subst. destruct l as [|q l]; [now apply H1|].
    specialize (IH H2). change (map fst (p :: q :: l)) with (fst p :: map fst (q :: l)).
    change (map snd (p :: q :: l)) with (snd p :: map snd (q :: l)).
    change (join (tok_text sep) (fst p :: map fst (q :: l))) with (fst p ++ tok_text sep ++ join (tok_text sep) (map fst (q :: l))).
    change (tjoin sep (snd p :: map snd (q :: l))) with (snd p ++ [sep] ++ tjoin sep (map snd (q :: l))).
    rewrite <- !app_assoc. rewrite H1 by (now apply apart_sep). rewrite lexes_sep by exact Hs. rewrite IH by exact Hr.
    rewrite !option_map_map. apply option_map_eq. intros a. now rewrite <- !app_assoc.
Qed.

Lemma lexes_show e : lexes (show e) (toks e).
Proof.
  induction e as [t|es IH|es IH] using expr_ind'; cbn [show toks].
  - apply lexes_lit.
  - replace (map (fun e => bracketed e (show e)) es) with (map fst (map (fun e => (bracketed e (show e), tbracketed e (toks e))) es))
      by (rewrite map_map; reflexivity).
    replace (map (fun e => tbracketed e (toks e)) es) with (map snd (map (fun e => (bracketed e (show e), tbracketed e (toks e))) es))
      by (rewrite map_map; reflexivity).
    apply (lexes_join TAnd); [exact Logic.I|]. apply Forall_map. revert IH. apply Forall_impl. intros e H. cbn [fst snd].
    unfold bracketed, tbracketed. destruct e as [t|v|v]; [exact H|exact H|]. destruct (Nat.ltb 1 (List.length v)); [|exact H].
    intros rest Hr. rewrite <- !app_assoc. rewrite (lexes_sep TOpen) by exact Logic.I. rewrite H by easy.
    rewrite (lexes_sep TClose) by exact Logic.I. rewrite !option_map_map. apply option_map_eq. intros a. now rewrite <- !app_assoc.
  - replace (map show es) with (map fst (map (fun e => (show e, toks e)) es)) by (rewrite map_map; reflexivity).
    replace (map toks es) with (map snd (map (fun e => (show e, toks e)) es)) by (rewrite map_map; reflexivity).
    apply (lexes_join TOr); [exact Logic.I|]. now apply Forall_map.
Qed.

Lemma tokens_show e : tokens None (show e) = Some (toks e).
Proof. pose proof (lexes_show e [] Logic.I) as H. rewrite app_nil_r in H. rewrite H. cbn. now rewrite app_nil_r. Qed.

(** The value of an expression. *)
Fixpoint eval (s : list tag) (e : expr) : bool :=
  match e with
  | ELit t => existsb (bytes_eqb t) s
  | EAnd es => forallb (eval s) es
  | EOr es => existsb (eval s) es
  end.
Lemma eval_sat s e : eval s e = true <-> sat s e.
Proof.
  induction e as [t|es IH|es IH] using expr_ind'; cbn [eval].
  - rewrite existsb_exists. split; [intros (x & H & E%bytes_eqb_eq); now subst|intros H; exists t; split; [exact H|now apply bytes_eqb_eq]].
  - rewrite sat_and, forallb_forall. rewrite Forall_forall in IH. split; intros H e He; apply (IH e He), H, He.
  - rewrite sat_or, existsb_exists. rewrite Forall_forall in IH. split; intros (e & He & H); exists e; split; auto; now apply (IH e He).
Qed.

(** Reading [ts] as a factor. *)
Definition factor (s : list tag) (ts : list token) (v : bool) : Prop :=
  forall o a st r, calc s (ts ++ r) ((o, a) :: st) = calc s r ((o, a && v) :: st).

Lemma factor_join s (l : list (list token * bool)) : l <> [] -> Forall (fun p => factor s (fst p) (snd p)) l ->
  factor s (tjoin TAnd (map fst l)) (forallb snd l).
Proof.
  induction l as [|p l IH]; intros Hl H; [congruence|]. inversion H as [|? ? H1 H2]; subst.
  destruct l as [|q l]; [intros o a st r; cbn; rewrite andb_true_r; apply H1|]. specialize (IH ltac:(discriminate) H2).
  intros o a st r. change (map fst (p :: q :: l)) with (fst p :: map fst (q :: l)).
  change (tjoin TAnd (fst p :: map fst (q :: l))) with (fst p ++ [TAnd] ++ tjoin TAnd (map fst (q :: l))).
  rewrite <- !app_assoc, H1. cbn [app calc]. rewrite IH. change (forallb snd (p :: q :: l)) with (snd p && forallb snd (q :: l)).
  now rewrite andb_assoc.
Qed.

(** Reading [ts] as the alternatives of a disjunction. *)
Lemma terms_join s (l : list (list token * bool)) : l <> [] -> Forall (fun p => factor s (fst p) (snd p)) l ->
  forall o st r, exists o' a', calc s (tjoin TOr (map fst l) ++ r) ((o, true) :: st) = calc s r ((o', a') :: st)
    /\ o' || a' = o || existsb snd l.
Proof.
  induction l as [|p l IH]; intros Hl H o st r; [congruence|]. inversion H as [|? ? H1 H2]; subst.
  destruct l as [|q l].
  - exists o, (snd p). cbn. rewrite H1. cbn. now rewrite orb_false_r.
  - specialize (IH ltac:(discriminate) H2). change (map fst (p :: q :: l)) with (fst p :: map fst (q :: l)).
    change (tjoin TOr (fst p :: map fst (q :: l))) with (fst p ++ [TOr] ++ tjoin TOr (map fst (q :: l))).
    rewrite <- !app_assoc, H1. cbn [app calc]. destruct (IH (o || (true && snd p)) st r) as (o' & a' & E & V).
    exists o', a'. split; [exact E|]. rewrite V. change (existsb snd (p :: q :: l)) with (snd p || existsb snd (q :: l)).
    rewrite andb_true_l, <- orb_assoc. reflexivity.
Qed.

(** Expressions that read as a factor without brackets. *)
Definition tight (e : expr) : Prop := match e with EOr v => List.length v <= 1 | _ => True end.

Lemma flat_all es : flat (EAnd es) <-> Forall flat es.
Proof. cbn. induction es as [|e es IH]; cbn; [intuition|]. rewrite IH. split; [intros []; now constructor|intros H; now inversion H]. Qed.
Lemma flat_or es : flat (EOr es) <-> Forall (fun e => flat e /\ match e with EOr _ => False | _ => True end) es.
Proof.
  cbn. induction es as [|e es IH]; cbn; [intuition|]. rewrite IH. split.
  - intros [H H']. constructor; [|exact H']. destruct e; easy.
  - intros H. inversion H as [|? ? [H1 H2] H3]; subst. split; [|exact H3]. now destruct e.
Qed.

Lemma calc_show s e : flat e -> nonempty e ->
  (tight e -> factor s (toks e) (eval s e))
  /\ forall o st r, exists o' a', calc s (toks e ++ r) ((o, true) :: st) = calc s r ((o', a') :: st) /\ o' || a' = o || eval s e.
Proof.
  assert (W : forall ts v, factor s ts v ->
            forall o st r, exists o' a', calc s (ts ++ r) ((o, true) :: st) = calc s r ((o', a') :: st) /\ o' || a' = o || v).
  { intros ts v H o st r. exists o, v. now rewrite H. }
  induction e as [t|es IH|es IH] using expr_ind'; intros Hf Hn.
  - assert (H : factor s (toks (ELit t)) (eval s (ELit t))) by (intros o a st r; reflexivity). auto.
  - apply flat_all in Hf. destruct Hn as [Hne Hn]. apply nonempty_all in Hn.
    assert (H : factor s (toks (EAnd es)) (eval s (EAnd es))); [|auto].
    cbn [toks eval].
    replace (map (fun e => tbracketed e (toks e)) es) with (map fst (map (fun e => (tbracketed e (toks e), eval s e)) es))
      by (rewrite map_map; reflexivity).
    replace (forallb (eval s) es) with (forallb snd (map (fun e => (tbracketed e (toks e), eval s e)) es))
      by (clear; induction es as [|e es IH]; cbn; [reflexivity|now rewrite IH]).
    apply factor_join; [destruct es; easy|]. apply Forall_map. rewrite Forall_forall in *. intros e He. cbn [fst snd].
    destruct (IH e He (Hf e He) (Hn e He)) as [I1 I2]. unfold tbracketed.
    destruct e as [t|v|v]; [now apply I1|now apply I1|].
    destruct (Nat.ltb_spec 1 (List.length v)); [|apply I1; cbn; lia].
    intros o a st r. cbn [app]. rewrite <- app_assoc. cbn [calc app].
    destruct (I2 false ((o, a) :: st) (TClose :: r)) as (o' & a' & E & V). rewrite E. cbn [calc]. now rewrite V.
  - apply flat_or in Hf. destruct Hn as [Hne Hn]. apply nonempty_all in Hn.
    assert (F : Forall (fun p => factor s (fst p) (snd p)) (map (fun e => (toks e, eval s e)) es)).
    { apply Forall_map. rewrite Forall_forall in *. intros e He. cbn [fst snd]. destruct (Hf e He) as [Hf1 Hf2].
      apply (IH e He Hf1 (Hn e He)). now destruct e. }
    cbn [toks eval].
    assert (Em : map toks es = map fst (map (fun e => (toks e, eval s e)) es)) by (rewrite map_map; reflexivity).
    assert (Ev : existsb (eval s) es = existsb snd (map (fun e => (toks e, eval s e)) es))
      by (clear; induction es as [|e es IH]; cbn; [reflexivity|now rewrite IH]).
    rewrite Em, Ev. split; [|apply terms_join; [destruct es; easy|exact F]].
    intros Ht. destruct es as [|e [|e2 es]]; [easy| |cbn in Ht; lia]. cbn. rewrite orb_false_r. now inversion F.
Qed.

(** * C88 *)

(** The text of an expression means what the expression means. *)
Theorem C88_text_partial s e : nonempty e -> flat e ->
  exists b, value s (show e) = Some b /\ (b = true <-> sat s e).
Proof.
  intros Hn Hf. unfold value. rewrite tokens_show. destruct (calc_show s e Hf Hn) as [_ H].
  destruct (H false [] []) as (o & a & E & V). rewrite app_nil_r in E. rewrite E. cbn [calc]. exists (o || a).
  split; [reflexivity|]. rewrite V. cbn. apply eval_sat.
Qed.

(** Expressions with the same text match the same tags. *)
Theorem C88_same_text_partial a b : nonempty a -> flat a -> nonempty b -> flat b -> show a = show b -> forall s, sat s a <-> sat s b.
Proof.
  intros Na Fa Nb Fb E s. destruct (C88_text_partial s a Na Fa) as (x & X1 & X2). destruct (C88_text_partial s b Nb Fb) as (y & Y1 & Y2).
  rewrite E, Y1 in X1. injection X1 as ->. now rewrite <- X2, <- Y2.
Qed.

(** All expressions that the functions of the API make are of this kind. *)
Theorem C88_flat :
  (forall t, flat (ELit t))
  /\ (forall es, Forall flat es -> flat (e_or es) /\ flat (e_and es))
  /\ (forall a b, flat a -> flat b -> flat (e_bitor a b) /\ flat (e_bitand a b))
  /\ (forall d e, dnf_expression d = Ok e -> flat e)
  /\ (forall e, flat (simplify e)).
Proof.
  assert (O : forall es, Forall flat es -> flat (e_or es)).
  { intros es H. apply flat_or. induction H as [|e es H _ IH]; [constructor|]. cbn. apply Forall_app. split; [|exact IH].
    destruct e as [t|v|v]; [now constructor|now constructor|]. now apply flat_or in H. }
  assert (A : forall es, Forall flat es -> flat (e_and es)).
  { intros es H. apply flat_all. induction H as [|e es H _ IH]; [constructor|]. cbn. apply Forall_app. split; [|exact IH].
    destruct e as [t|v|v]; [now constructor| |now constructor]. now apply flat_all in H. }
  assert (R : forall f l e, (forall a b, flat a -> flat b -> flat (f a b)) -> Forall flat l -> reduce f l = Ok e -> flat e).
  { intros f [|x l] e Hf H E; [discriminate|]. injection E as <-. inversion H as [|? ? H1 H2]; subst. clear H.
    revert x H1. induction l as [|y l IH]; intros x H1; [exact H1|]. inversion H2; subst. cbn. apply IH; auto. }
  split; [exact (fun _ => Logic.I)|]. split; [auto|]. split; [intros a b Ha Hb; split; [apply O|apply A]; auto|]. split.
  - intros d e E. unfold dnf_expression in E. destruct (rmapM and_expr d) as [l|?|?|] eqn:El; try discriminate. cbn [rbind] in E.
    eapply (R e_bitor); [|clear E|exact E].
    { intros a b Ha Hb. apply O. auto. }
    revert l El. induction d as [|v d IH]; intros l El; cbn in El; [injection El as <-; constructor|].
    destruct (and_expr v) as [a|?|?|] eqn:Ea; try discriminate. cbn in El. destruct (rmapM and_expr d) as [l'|?|?|]; try discriminate.
    injection El as <-. constructor; [|now apply IH]. unfold and_expr in Ea. eapply (R e_bitand); [|clear Ea|exact Ea].
    { intros a' b' Ha Hb. apply A. auto. }
    apply Forall_map. now apply Forall_forall.
  - induction e as [t|es IH|es IH] using expr_ind'; cbn [simplify]; [exact Logic.I|..].
    + assert (F : Forall flat (flat_map (fun e => match simplify e with EAnd inner => inner | e => [e] end) es)).
      { induction IH as [|e es H _ IH]; [constructor|]. cbn. apply Forall_app. split; [|exact IH].
        destruct (simplify e) as [t|v|v]; [now constructor| |now constructor]. now apply flat_all in H. }
      unfold single_or. destruct (flat_map _ es) as [|x [|y l]]; [now apply flat_all|now inversion F|now apply flat_all].
    + assert (F : Forall (fun e => flat e /\ match e with EOr _ => False | _ => True end)
                    (flat_map (fun e => match simplify e with EOr inner => inner | e => [e] end) es)).
      { induction IH as [|e es H _ IH]; [constructor|]. cbn. apply Forall_app. split; [|exact IH].
        destruct (simplify e) as [t|v|v]; [now constructor|now constructor|]. now apply flat_or in H. }
      unfold single_or. destruct (flat_map _ es) as [|x [|y l]]; [now apply flat_or|now inversion F|now apply flat_or].
Qed.

(** The constructors of [Expression] are public. A disjunction of one
    disjunction gets no brackets in a conjunction. *)
Definition dx : tag := text_bytes "x".
Definition dy : tag := text_bytes "y".
Definition dz : tag := text_bytes "z".
Definition dbad : expr := EAnd [EOr [EOr [ELit dx; ELit dy]]; ELit dz].
Definition dgood : expr := EOr [ELit dx; EAnd [ELit dy; ELit dz]].
Theorem C88_refuted :
  exists a b, nonempty a /\ nonempty b /\ flat b /\ show a = show b /\ show a = text_bytes "'x' | 'y' & 'z'"
    /\ sat [dx] b /\ ~ sat [dx] a.
Proof.
  exists dbad, dgood. split; [cbn; intuition discriminate|]. split; [cbn; intuition discriminate|]. split; [cbn; auto|].
  split; [reflexivity|]. split; [reflexivity|]. split; [cbn; auto|]. cbn. intros (_ & [H|[]] & _). discriminate.
Qed.

(** A text with quotation marks, brackets and both operators. *)
Definition dq : tag := text_bytes "it's ' & '".
Definition dcase : expr := EAnd [ELit dq; e_bitor (ELit dx) (EAnd [ELit dy; EOr [ELit dz]])].
Example C88_case :
  nonempty dcase /\ flat dcase /\ show dcase = text_bytes "'it''s '' & ''' & ( 'x' | 'y' & 'z' )"
  /\ sat [dq; dx] dcase /\ ~ sat [dq; dy] dcase.
Proof.
  split; [cbn; intuition discriminate|]. split; [cbn; repeat split|]. split; [reflexivity|]. split; [apply eval_sat; reflexivity|].
  rewrite <- eval_sat. vm_compute. discriminate.
Qed.

(** Properties of how much is written: C66. *)
From Coq Require Import List NArith ZArith Lia Bool String Arith.
From Verif Require Import Base BaseProofs Cbor Types Seq SeqProofs Query World Read Write Api Iter History Spec Ghost Frame ReadProofs Packable WriteProofs ApiProofs SysProofs HistProofs Instance Example PropsWrite.
Import ListNotations.

Lemma max_nat_ge l : forall a, In a l -> a <= max_nat l.
Proof. induction l as [|b l IH]; cbn; [easy|]. intros a [->|H]; [lia|]. apply IH in H. unfold max_nat in *. lia. Qed.

Lemma skipn_plus {A} m n (l : list A) : skipn n (skipn m l) = skipn (m + n) l.
Proof. revert l. induction m as [|m IH]; intros l; [easy|]. destruct l; [now rewrite !skipn_nil|]. apply IH. Qed.

Section Cost.
  Context {T : Types} {TL : TypesLaws T} {X : Ext} {XL : ExtLaws X}
          {B : Backend T} {BL : BackendLaws T B}.
  Variable cfg : Config.
  Variable sec : Secrets.
  Hypothesis Hcfg : config_ok cfg.
  Hypothesis Hkeys : 2 <= max_key_branches cfg.
  Notation key := (index_key sec).
  Notation source := (list (K * V)).
  Notation len := List.length.

  (** [m] writes [c] blocks, where [Q] holds if it succeeds and [F] otherwise. *)
  Definition cost {A} (m : M A) (Q : A -> nat -> Prop) (F : nat -> Prop) : Prop :=
    forall w r w', m w = (r, w') ->
      exists c, len (w_log w') = len (w_log w) + c /\ match r with Ok a => Q a c | _ => F c end.

  Lemma cost_ret {A} (a : A) (Q : A -> nat -> Prop) F : Q a 0 -> cost (ret a) Q F.
  Proof. intros H w r w' [= <- <-]. exists 0. split; [lia|exact H]. Qed.
  Lemma cost_bind {A C} (m : M A) (f : A -> M C) Q1 (F1 : nat -> Prop) Q (F : nat -> Prop) :
    cost m Q1 F1 -> (forall c, F1 c -> F c) ->
    (forall a c1, Q1 a c1 -> cost (f a) (fun b c2 => Q b (c1 + c2)) (fun c2 => F (c1 + c2))) ->
    cost (mbind m f) Q F.
  Proof.
    intros Hm HF Hf w r w' E. unfold mbind in E. destruct (m w) as [r1 w1] eqn:Em.
    destruct (Hm _ _ _ Em) as (c1 & L1 & H1). destruct r1 as [a|e|p|].
    - destruct (Hf _ _ H1 _ _ _ E) as (c2 & L2 & H2). exists (c1 + c2). split; [lia|exact H2].
    - injection E as <- <-. exists c1. auto.
    - injection E as <- <-. exists c1. auto.
    - injection E as <- <-. exists c1. auto.
  Qed.
  Lemma cost_conseq {A} (m : M A) (Q1 Q : A -> nat -> Prop) (F1 F : nat -> Prop) :
    cost m Q1 F1 -> (forall a c, Q1 a c -> Q a c) -> (forall c, F1 c -> F c) -> cost m Q F.
  Proof. intros H HQ HF w r w' E. destruct (H _ _ _ E) as (c & L & Hc). exists c. split; [exact L|]. destruct r; auto. Qed.
  Lemma cost_none {A} (m : M A) (Q : A -> nat -> Prop) (F : nat -> Prop) :
    F 0 -> (forall w r w', m w = (r, w') -> w' = w /\ match r with Ok _ => False | _ => True end) -> cost m Q F.
  Proof. intros H Hm w r w' E. apply Hm in E as [-> E]. exists 0. split; [lia|]. now destruct r. Qed.
  Lemma cost_assert {A} b msg (f : unit -> M A) Q (F : nat -> Prop) :
    F 0 -> (b = true -> cost (f tt) Q F) -> cost (mbind (massert b msg) f) Q F.
  Proof.
    intros H0 H. destruct b; [now apply H|]. intros w r w' E. injection E as <- <-. exists 0. split; [lia|exact H0].
  Qed.
  Lemma cost_lift {A C} (r : res A) (f : A -> M C) Q (F : nat -> Prop) :
    F 0 -> (forall a, r = Ok a -> cost (f a) Q F) -> cost (mbind (lift r) f) Q F.
  Proof.
    intros H0 H w r' w' E. unfold mbind, lift in E. destruct r as [a|e|p|]; [eapply H; eauto| | |];
      injection E as <- <-; exists 0; (split; [lia|exact H0]).
  Qed.
  Lemma cost_read {A C} (m : M A) (f : A -> M C) Q (F : nat -> Prop) :
    frame (rext key) m -> F 0 -> (forall a, cost (f a) Q F) -> cost (mbind m f) Q F.
  Proof.
    intros Fm H0 H. eapply cost_bind with (Q1 := fun _ c => c = 0) (F1 := fun c => c = 0).
    - intros w r w' E. apply Fm in E as (_ & _ & _ & El). exists 0. rewrite El. split; [lia|]. now destruct r.
    - now intros c ->.
    - intros a c ->. apply H.
  Qed.

  (** ** Blocks *)
  Lemma cost_encrypt_put {C} leaf k z raw (f : event -> L -> M C) Q (F : nat -> Prop) :
    F 0 -> F 1 -> (forall e l, cost (f e l) (fun b c => Q b (1 + c)) (fun c => F (1 + c))) ->
    cost (mbind (encrypt_block leaf k z raw) (fun e => mbind (put_block e) (f e))) Q F.
  Proof.
    intros H0 H1 H. apply cost_bind with (Q1 := fun _ c => c = 0) (F1 := fun c => c = 0).
    - intros w r w' E. unfold encrypt_block in E. exists 0. destruct (reserve _ _) as [[o o']| | |]; injection E as <- <-;
        (split; [cbn; lia|]); try easy. now destruct (rmap _ _).
    - now intros c ->.
    - intros e c ->. apply cost_bind with (Q1 := fun _ c => c = 1) (F1 := fun c => c = 1).
      + intros w r w' E. unfold put_block in E. exists 1. destruct (sput _ _) as [[l|] s]; injection E as <- <-;
          (split; [cbn; rewrite app_length; cbn; lia|easy]).
      + now intros c ->.
      + intros l c ->. apply H.
  Qed.

  Lemma fill_loop_suffix lvl csize usize maxk : forall from keys size chunks ls st,
    fill_loop lvl csize usize maxk from keys size chunks ls = Ok st -> len (f_from st) <= len from.
  Proof.
    induction from as [|[k v] from IH]; intros keys size chunks ls st E; cbn in E; [injection E as <-; cbn; lia|].
    destruct (Nat.leb _ _); [injection E as <-; cbn; lia|]. rinv E.
    destruct (N.ltb _ _); [discriminate|]. destruct (N.ltb _ _); [injection E as <-; cbn; lia|]. rinv E.
    destruct (N.leb _ _); [injection E as <-; cbn; lia|]. apply IH in E. cbn. lia.
  Qed.

  Lemma cost_extend_leaf c keys from :
    cost (extend_leaf cfg sec c keys from)
      (fun p n => n = 1 /\ len (snd p) <= len from /\ (c = [] -> keys = [] -> len (snd p) < len from))
      (fun n => n <= 1).
  Proof.
    unfold extend_leaf. apply cost_assert; [lia|]. intros Hf. apply cost_lift; [lia|].
    intros [[[z full] keys'] from'] E. apply cost_encrypt_put; [lia|lia|]. intros e l. apply cost_ret. cbn [snd].
    split; [lia|]. split.
    - unfold fill in E. rinv E. destruct a as [[size chunks] ls]. rinv E. injection E as _ _ _ <-.
      eapply fill_loop_suffix; eauto.
    - intros -> ->. destruct (fill_spec _ _ _ _ _ _ _ [] _ _ _ _ E) as (taken & new & H1 & _ & _ & _ & _ & _ & _ & _ & _ & H10 & _); auto.
      assert (taken <> []). { apply H10; [now destruct from|cbn; apply Hcfg|easy]. }
      rewrite H1, app_length. destruct taken; [congruence|]. cbn. lia.
  Qed.

  Lemma cost_leaf_from_iter from :
    cost (leaf_from_iter cfg sec from) (fun p n => n = 1 /\ len (snd p) < len from) (fun n => n <= 1).
  Proof.
    unfold leaf_from_iter. apply cost_assert; [lia|]. intros _. eapply cost_conseq; [apply cost_extend_leaf| |auto].
    intros a n (H1 & _ & H2). auto.
  Qed.

  Lemma cost_new_branch cs mode :
    cost (new_branch cfg sec cs mode) (fun x n => n = 1 /\ bi_level x = S (max_nat (map ilevel cs)) /\ bi_count x = sum_nat (map icount cs)) (fun n => n <= 1).
  Proof.
    unfold new_branch. apply cost_assert; [lia|]. intros _. apply cost_assert; [lia|]. intros _.
    eapply cost_bind with (Q1 := fun _ n => n = 1) (F1 := fun n => n <= 1); [|auto|].
    - unfold persist_branch. apply cost_lift; [lia|]. intros z _. apply cost_encrypt_put; [lia|lia|]. intros e l.
      now apply cost_ret.
    - intros [l ln] n ->. apply cost_ret. splits; [lia|easy|easy].
  Qed.

  (** ** Branches *)

  (** Costs of [fill_node l] for [from]: [2 * taken - 1], and [l] more if not all
      nodes are full. *)
  Definition fills (l : nat) (f : source -> M (Index * source)) : Prop :=
    forall from, from <> [] ->
    cost (f from)
      (fun p c => exists k, len from = k + len (snd p) /\ 1 <= k /\ c + 1 <= 2 * k + l /\ (snd p <> [] -> c + 1 <= 2 * k))
      (fun c => c + 1 <= 2 * len from + l).

  Lemma cost_fill_children l f (Hf : fills l f) : forall n cs from,
    cost (fill_children f n cs from)
      (fun p c => exists k a new, len from = k + len (snd p) /\ fst p = cs ++ new /\ len new = a /\ a <= k /\ a <= n
         /\ c + a <= 2 * k + l /\ (snd p <> [] -> a = n /\ c + a <= 2 * k) /\ (k = 0 -> c = 0) /\ (from <> [] -> 1 <= n -> 1 <= a) /\ (1 <= k -> 1 <= a))
      (fun c => from <> [] /\ 1 <= n /\ c + 1 <= 2 * len from + l).
  Proof.
    induction n as [|n IH]; intros cs from; cbn [fill_children].
    - apply cost_ret. exists 0, 0, []. rewrite app_nil_r. cbn. splits; auto; lia.
    - destruct from as [|p from]; [apply cost_ret; exists 0, 0, []; rewrite app_nil_r; cbn; splits; auto; try lia; congruence|].
      set (from0 := p :: from). eapply cost_bind; [apply Hf; discriminate| |].
      + intros c H. split; [discriminate|]. split; [lia|exact H].
      + intros [c1 from1] n1 (k1 & H1 & H2 & H3 & H4). cbn [snd] in *. eapply cost_conseq; [apply IH| |].
        * intros [cs' from'] c (k & a & new & G1 & G2 & G3 & G4 & G5 & G6 & G7 & G8 & G9 & G10). cbn [fst snd] in *.
          exists (k1 + k), (S a), (c1 :: new).
          assert (Hp : from1 = [] \/ n1 + 1 <= 2 * k1 /\ from1 <> []) by (destruct from1; [now left|right; split; [now apply H4|]; discriminate]).
          splits; try lia.
          -- now rewrite G2, <- app_assoc.
          -- cbn. lia.
          -- destruct Hp as [->|[Hp _]]; [|lia]. cbn in G1. assert (E : k = 0) by lia. specialize (G8 E). lia.
          -- intros Hn. destruct (G7 Hn). destruct Hp as [->|[Hp _]]; [|lia]. destruct from'; [congruence|cbn in G1; lia].
        * intros c [G1 [G0 G2]]. split; [discriminate|]. specialize (H4 G1). split; lia.
  Qed.

  Lemma cost_extend_branch_with f cs level from mode (Hf : fills (level - 1) f) :
    let n := max_branches cfg level - len cs in
    cost (extend_branch_with cfg sec f cs level from mode)
      (fun p c => 1 <= level /\ exists k, len from = k + len (snd p)
         /\ (forall i, In i cs -> ilevel i < bi_level (fst p)) /\ 1 <= bi_level (fst p) <= level
         /\ (snd p <> [] -> c + n <= 2 * k + 1 /\ n <= k /\ bi_level (fst p) = level)
         /\ (k = 0 -> c = 1) /\ (from <> [] -> 1 <= n -> 1 <= k /\ c + 1 <= 2 * k + level) /\ (1 <= k -> 1 <= n))
      (fun c => c = 0 \/ 1 <= level /\ (c <= 1 \/ from <> [] /\ 1 <= n /\ c + 1 <= 2 * len from + level)).
  Proof.
    intros n. unfold extend_branch_with. do 3 (apply cost_assert; [now left|]; intros ?).
    apply Nat.ltb_lt in H. fold n.
    eapply cost_bind; [apply (cost_fill_children _ _ Hf)| |].
    { intros c (H2 & H3 & H4). right. split; [lia|]. right. splits; auto; lia. }
    intros [cs' from'] c1 (k & a & new & G1 & G2 & G3 & G4 & G5 & G6 & G7 & G8 & G9 & G10). cbn [fst snd] in *. subst cs'.
    assert (Hc : c1 = 0 \/ from <> [] /\ 1 <= n /\ c1 + 2 <= 2 * len from + level).
    { destruct (Nat.eq_dec k 0); [left; auto|right]. assert (from <> []) by (intros ->; cbn in *; lia).
      specialize (G10 ltac:(lia)). splits; auto; lia. }
    eapply cost_bind; [apply cost_new_branch| |].
    { intros c H2. cbn beta in H2. right. split; [lia|]. destruct Hc as [->|(H3 & H4 & H6)]; [left; lia|right; splits; auto; lia]. }
    intros x n2 (-> & Hl & _). apply cost_assert.
    { right. split; [lia|]. destruct Hc as [->|(H3 & H4 & H6)]; [left; lia|right; splits; auto; lia]. }
    intros Ha. apply cost_ret. cbn [fst snd]. split; [lia|]. exists k. splits; auto.
    - intros i Hi. rewrite Hl. apply le_n_S, max_nat_ge. rewrite map_app. apply in_or_app. left. now apply in_map.
    - lia.
    - destruct from' as [|? ?]; cbn in Ha; [now apply Nat.leb_le|]. apply andb_prop in Ha as [Ha _]. apply Nat.eqb_eq in Ha. lia.
    - intros Hn. destruct (G7 Hn). splits; try lia. destruct from'; [congruence|]. cbn in Ha. apply andb_prop in Ha as [Ha _]. now apply Nat.eqb_eq in Ha.
    - intros Hk. specialize (G8 Hk). lia.
    - intros H2 H3. specialize (G9 H2 H3). split; lia.
    - intros H2. specialize (G10 H2). lia.
  Qed.

  Lemma max_branches_2 l : 2 <= max_branches cfg l.
  Proof. unfold max_branches. destruct Hcfg as (_ & _ & H & _). destruct (Nat.eqb l 1); lia. Qed.

  Lemma cost_fill_node l : fills l (fill_node cfg sec l).
  Proof.
    induction l as [|l IH]; intros from Hf; cbn [fill_node];
      (apply cost_assert; [destruct from; [congruence|cbn; lia]|]); intros _.
    - eapply cost_bind; [apply cost_leaf_from_iter| |].
      + intros c H. destruct from; [congruence|cbn in *; lia].
      + intros [x from'] c [-> H]. cbn [snd] in H. apply cost_ret. cbn [snd]. exists (len from - len from'). splits; lia.
    - eapply cost_bind; [apply cost_extend_branch_with; cbn [Nat.sub]; rewrite Nat.sub_0_r; exact IH| |].
      + cbn [len]. intros c [->|(H1 & [H|(H2 & H3 & H4)])]; [| |lia]; (destruct from; [congruence|cbn; lia]).
      + intros [x from'] c (H1 & k & H2 & H3 & H4 & H5 & H6 & H7 & _). cbn [fst snd] in *. apply cost_ret. cbn [snd].
        pose proof (max_branches_2 (S l)) as M. cbn [List.length] in *.
        specialize (H7 Hf ltac:(lia)). exists k. splits; try lia. intros Hn. specialize (H5 Hn). lia.
  Qed.

  Lemma cost_extend_branch cs level from mode :
    let n := max_branches cfg level - len cs in
    cost (extend_branch cfg sec cs level from mode)
      (fun p c => 1 <= level /\ exists k, len from = k + len (snd p)
         /\ (forall i, In i cs -> ilevel i < bi_level (fst p)) /\ 1 <= bi_level (fst p) <= level
         /\ (snd p <> [] -> c + n <= 2 * k + 1 /\ n <= k /\ bi_level (fst p) = level)
         /\ (k = 0 -> c = 1) /\ (from <> [] -> 1 <= n -> 1 <= k /\ c + 1 <= 2 * k + level) /\ (1 <= k -> 1 <= n))
      (fun c => c = 0 \/ 1 <= level /\ (c <= 1 \/ from <> [] /\ 1 <= n /\ c + 1 <= 2 * len from + level)).
  Proof. apply cost_extend_branch_with, cost_fill_node. Qed.

  (** ** Climbing *)
  Lemma cost_climb fuel : forall i bnd from,
    cost (climb cfg sec fuel i bnd from)
      (fun p c => exists k, len from = k + len (snd p)
         /\ (snd p <> [] -> c <= 2 * k /\ ilevel i <= ilevel (fst p))
         /\ (from = [] -> c = 0 /\ fst p = i \/ c = 1 /\ ilevel i = 0 /\ below 0 bnd = true /\ ilevel (fst p) = 1)
         /\ (from <> [] -> snd p = [] -> exists m, ilevel (fst p) = S m /\ below m bnd = true /\ ilevel i <= m /\ m + 1 <= ilevel i + len from
                             /\ c <= 2 * k + m))
      (fun c => from = [] /\ c <= 1 /\ ilevel i = 0 /\ below 0 bnd = true
         \/ from <> [] /\ exists m, below m bnd = true /\ ilevel i <= m /\ m + 1 <= ilevel i + len from /\ c <= 2 * len from + m).
  Proof.
    induction fuel as [|fuel IH]; intros i bnd from; cbn [climb];
      (destruct ((negb (Write.is_nil from) || Nat.eqb (ilevel i) 0) && below (ilevel i) bnd) eqn:E;
       [apply andb_prop in E as [E Eb]|apply cost_ret; exists 0; cbn [fst snd]; splits; auto; try lia; congruence]).
    all: assert (E0 : from = [] -> ilevel i = 0) by (intros ->; cbn in E; now apply Nat.eqb_eq).
    - apply cost_none; [|intros w r w' [= <- <-]; easy]. destruct from as [|p from]; [left; splits; auto; rewrite <- (E0 eq_refl); exact Eb|].
      right. split; [discriminate|]. exists (ilevel i). cbn. splits; auto; lia.
    - pose proof (max_branches_2 (S (ilevel i))) as M.
      eapply cost_bind; [apply cost_extend_branch| |]; cbn [List.length].
      + intros c H. destruct from as [|p from].
        * left. splits; auto; [destruct H as [H|(_ & [H|(H & _)])]; [lia|exact H|congruence]|rewrite <- (E0 eq_refl); exact Eb].
        * right. split; [discriminate|]. exists (ilevel i). cbn in *. splits; auto; lia.
      + intros [x from1] c1 (_ & k1 & G1 & G2 & G3 & G4 & G5 & G6 & _). cbn [fst snd] in *.
        assert (Hx : bi_level x = S (ilevel i)) by (specialize (G2 i (or_introl eq_refl)); lia).
        destruct from as [|p from].
        { destruct from1; [|cbn in G1; lia]. cbn in G1. assert (Hk : k1 = 0) by lia. specialize (G5 Hk). specialize (E0 eq_refl).
          eapply cost_conseq; [apply IH| |]; cbn [ilevel].
          - intros [j from'] c (k & H1 & _ & H2 & _). cbn [fst snd] in *. exists 0. cbn in H1.
            destruct (H2 eq_refl) as [(H3 & H4)|(_ & H3 & _)]; [|lia]. subst j. cbn [ilevel]. destruct from'; [|cbn in H1; lia].
            splits; [easy|congruence| |congruence]. intros _. right. rewrite E0 in Eb. splits; auto; lia.
          - intros c [(_ & _ & H & _)|(H & _)]; [lia|congruence]. }
        set (from0 := p :: from) in *. assert (Hf0 : from0 <> []) by discriminate.
        assert (Hlen : 1 <= len from0) by (cbn; lia). clearbody from0.
        specialize (G6 Hf0 ltac:(lia)). destruct from1 as [|p1 from1].
        * clear G4. cbn in G1. eapply cost_conseq; [apply IH| |]; cbn [ilevel].
          -- intros [j from'] c (k & H1 & _ & H2 & _). cbn [fst snd] in *. cbn in H1.
             destruct (H2 eq_refl) as [(H3 & H4)|(_ & H3 & _)]; [|lia]. subst j. cbn [ilevel].
             destruct from'; [|cbn in *; lia]. exists k1. splits; try congruence; try (cbn; lia).
             intros _ _. exists (ilevel i). splits; auto; lia.
          -- intros c [(_ & _ & H & _)|(H & _)]; [lia|congruence].
        * set (from2 := p1 :: from1) in *. assert (Hf2 : from2 <> []) by discriminate. specialize (G4 Hf2).
          eapply cost_conseq; [apply IH| |]; cbn [ilevel].
          -- intros [j from'] c (k & H1 & H2 & _ & H3). cbn [fst snd] in *. exists (k1 + k). splits; try lia; try congruence.
             ++ intros Hn. destruct (H2 Hn). split; lia.
             ++ intros _ Hn. destruct (H3 Hf2 Hn) as (m & A1 & A2 & A3 & A4 & A5). exists m. splits; auto; lia.
          -- intros c [(H & _)|(_ & m & A1 & A2 & A3 & A4)]; [congruence|]. right. split; [exact Hf0|]. exists m. splits; auto; lia.
  Qed.

  (** ** Extending *)

  Lemma cost_extend0 rec i from : from <> [] ->
    (forall c b from, from <> [] ->
       cost (rec c b from)
         (fun p c => exists k, len from = k + len (snd p)
            /\ (snd p <> [] -> c <= 2 * k + b + 1) /\ (snd p = [] -> c + 1 <= 2 * k + 2 * b))
         (fun c => c + 1 <= 2 * len from + 2 * b)) ->
    cost (extend0 cfg sec rec i from)
      (fun p c => exists k, len from = k + len (snd p)
         /\ (snd p <> [] -> c <= 2 * k + ilevel i + 1 /\ ilevel (fst p) = ilevel i)
         /\ (snd p = [] -> c + 1 <= 2 * k + 2 * ilevel i /\ (ilevel (fst p) = 0 -> ilevel i = 0)))
      (fun c => c + 1 <= 2 * len from + 2 * ilevel i).
  Proof.
    intros Hf Hrec. assert (Hlen : 1 <= len from) by (destruct from; [congruence|cbn; lia]).
    assert (Hsame : cost (ret (i, from))
      (fun p c => exists k, len from = k + len (snd p)
         /\ (snd p <> [] -> c <= 2 * k + ilevel i + 1 /\ ilevel (fst p) = ilevel i)
         /\ (snd p = [] -> c + 1 <= 2 * k + 2 * ilevel i /\ (ilevel (fst p) = 0 -> ilevel i = 0)))
      (fun c => c + 1 <= 2 * len from + 2 * ilevel i)).
    { apply cost_ret. exists 0. cbn [fst snd]. splits; auto; try lia. congruence. }
    unfold extend0. destruct (isealed i || Write.is_nil from); [exact Hsame|].
    destruct (node_info_of i) as [x l|x l|x|x] eqn:En; try exact Hsame.
    - assert (i = IBranch x) as ->.
      { destruct i as [y|y]; cbn in En; [destruct (li_link y); discriminate|]. destruct (bi_link y) eqn:E; [|discriminate].
        now injection En as ->. }
      cbn [ilevel]. apply cost_read; [apply rf_load_branch_cached|lia|]. intros b.
      eapply cost_bind with
        (Q1 := fun p c => exists k, len from = k + len (snd p)
            /\ (snd p <> [] -> c <= 2 * k + (bi_level x - 1) + 1) /\ (snd p = [] -> c + 1 <= 2 * k + 2 * (bi_level x - 1)))
        (F1 := fun c => c + 1 <= 2 * len from + 2 * (bi_level x - 1)).
      { destruct (rev (br_children b)) as [|last rest].
        - apply cost_ret. exists 0. cbn [snd]. splits; try lia. congruence.
        - eapply cost_bind; [now apply Hrec|cbn beta; intros; lia|]. intros [last' from1] c (k & H). apply cost_ret.
          exists k. rewrite Nat.add_0_r. exact H. }
      { intros c H. lia. }
      intros [cs1 from1] c1 (k1 & H1 & H2 & H3). cbn [snd] in *.
      eapply cost_bind; [apply cost_extend_branch| |]; set (n := _ - _).
      + intros c H. destruct from1 as [|p1 from1].
        * specialize (H3 eq_refl). destruct H as [->|(Hl & [H|(H & _)])]; [|lia|congruence]. cbn in H1. lia.
        * specialize (H2 ltac:(discriminate)). assert (1 <= len (p1 :: from1)) by (cbn; lia).
          destruct H as [->|(Hl & [H|(_ & _ & H)])]; lia.
      + intros [x' from2] c2 (Hl & k2 & G1 & G2 & G3 & G4 & G5 & G6 & G7). cbn [fst snd] in *.
        apply cost_ret. cbn [fst snd ilevel]. exists (k1 + k2). rewrite Nat.add_0_r. splits; [lia| |].
        * intros Hn. destruct (G4 Hn) as (A1 & A2 & A3). split; [|exact A3].
          assert (Hn1 : from1 <> []) by (destruct from1; [destruct from2; [congruence|cbn in G1; lia]|discriminate]).
          specialize (H2 Hn1). lia.
        * intros ->. split; [|lia]. destruct from1 as [|p1 from1].
          -- cbn in G1. assert (Hk : k2 = 0) by lia. specialize (G5 Hk). specialize (H3 eq_refl). lia.
          -- assert (Hk : 1 <= k2) by (cbn in G1; lia). specialize (G7 Hk). destruct (G6 ltac:(discriminate) G7).
             specialize (H2 ltac:(discriminate)). lia.
    - assert (i = ILeaf x) as ->.
      { destruct i as [y|y]; cbn in En; [|destruct (bi_link y); discriminate]. destruct (li_link y) eqn:E; [|discriminate].
        now injection En as ->. }
      cbn [ilevel]. apply cost_read; [apply rf_load_leaf_from_link|lia|]. intros z.
      eapply cost_bind; [apply cost_extend_leaf|cbn beta; intros; lia|].
      intros [x' from'] c (-> & H & _). cbn [snd] in H. apply cost_ret. cbn [fst snd ilevel]. exists (len from - len from').
      splits; try lia. intros ->. cbn. lia.
  Qed.

  (** The cost of [extend_above] for a node of level [m] and [n] entries. *)
  Definition above (m : nat) (bnd : option nat) (n c : nat) : Prop :=
    c + 1 <= 2 * n + 2 * m
    \/ m = 0 /\ below 0 bnd = true /\ c <= 2 * n
    \/ exists m', below m' bnd = true /\ m <= m' /\ m' + 1 <= m + n /\ c <= 2 * n + m + 1 + m'.

  Lemma above_bounded m b n c : m <= b -> above m (Some b) n c -> c + 1 <= 2 * n + 2 * b.
  Proof.
    intros H [G|[(-> & G & G1)|(m' & G1 & G2 & G3 & G4)]]; [lia| |].
    - destruct b; [discriminate|lia].
    - cbn in G1. apply Nat.ltb_lt in G1. lia.
  Qed.

  Definition level0 (o : option Index) : nat := match o with Some i => ilevel i | None => 0 end.

  Lemma cost_extend_above d : forall node bnd from, from <> [] ->
    cost (extend_above cfg sec d node bnd from)
      (fun p c => (match node, bnd with Some i, Some b => ilevel i <= b | _, _ => True end)
         /\ exists k, len from = k + len (snd p)
         /\ (snd p <> [] -> bnd <> None /\ c <= 2 * k + level0 node + 1)
         /\ (snd p = [] -> above (level0 node) bnd k c
                /\ c <= 2 * k + level0 node + Nat.max (level0 node) (ilevel (fst p))))
      (fun c => c = 0 \/ (match node, bnd with Some i, Some b => ilevel i <= b | _, _ => True end) /\ above (level0 node) bnd (len from) c).
  Proof.
    induction d as [|d IH]; intros node bnd from Hf; cbn [extend_above];
      (assert (Hlen : 1 <= len from) by (destruct from; [congruence|cbn; lia])).
    { apply cost_none; [now left|intros w r w' [= <- <-]; easy]. }
    destruct (Write.is_nil from) eqn:En; [destruct from; [congruence|discriminate]|].
    apply cost_assert; [now left|]. intros Ha.
    assert (Hb : match node, bnd with Some i, Some b => ilevel i <= b | _, _ => True end).
    { destruct node, bnd; auto. now apply Nat.leb_le. }
    eapply cost_bind with
      (Q1 := fun p c => exists k, len from = k + len (snd p)
         /\ (snd p <> [] -> c <= 2 * k + level0 node + 1 /\ ilevel (fst p) = level0 node)
         /\ (snd p = [] -> c + 1 <= 2 * k + 2 * level0 node /\ (ilevel (fst p) = 0 -> level0 node = 0)))
      (F1 := fun c => c + 1 <= 2 * len from + 2 * level0 node).
    - destruct node as [i|]; cbn [level0].
      + apply cost_extend0; [exact Hf|]. intros c b from1 Hf1. eapply cost_conseq; [now apply IH| |]; cbn [level0].
        * intros [i1 from2] n (H1 & k & H2 & H3 & H4). cbn [fst snd] in *. exists k. splits; [exact H2| |].
          -- intros Hn. destruct (H3 Hn). lia.
          -- intros Hn. destruct (H4 Hn) as [H5 _]. now apply above_bounded with (m := ilevel c).
        * intros n [->|[H1 H2]]; [destruct from1; [congruence|cbn; lia]|]. now apply above_bounded with (m := ilevel c).
      + eapply cost_bind; [apply cost_leaf_from_iter|cbn beta; intros; lia|]. intros [x from'] c [-> H]. cbn [snd] in H.
        apply cost_ret. cbn [fst snd ilevel]. exists (len from - len from'). splits; lia.
    - intros c H. right. split; [exact Hb|]. left. exact H.
    - intros [i1 from1] c1 (k1 & H1 & H2 & H3). cbn [fst snd] in *.
      eapply cost_bind; [apply cost_climb| |].
      + intros c H. right. split; [exact Hb|]. destruct H as [(-> & G1 & G2 & G3)|(G0 & m & G1 & G2 & G3 & G4)].
        * destruct (H3 eq_refl) as [A1 A2]. specialize (A2 G2). cbn in H1. right. left. splits; auto; lia.
        * specialize (H2 G0). right. right. exists m. splits; auto; lia.
      + intros [i2 from2] c2 (k2 & G1 & G2 & G3 & G4). cbn [fst snd] in *.
        assert (R1 : from2 <> [] -> c1 + c2 <= 2 * (k1 + k2) + level0 node + 1).
        { intros Hn. assert (Hn1 : from1 <> []) by (destruct from1; [destruct from2; [congruence|cbn in G1; lia]|discriminate]).
          destruct (G2 Hn). specialize (H2 Hn1). lia. }
        assert (R2 : from2 = [] -> above (level0 node) bnd (k1 + k2) (c1 + c2)
                       /\ c1 + c2 <= 2 * (k1 + k2) + level0 node + Nat.max (level0 node) (ilevel i2)).
        { intros ->. destruct from1 as [|p1 from1].
          - destruct (H3 eq_refl) as [A1 A2]. cbn in G1. destruct (G3 eq_refl) as [[-> ->]|(-> & A3 & A4 & A5)].
            + split; [left|]; lia.
            + specialize (A2 A3). split; [|lia]. right. left. splits; auto. lia.
          - assert (Hn1 : p1 :: from1 <> []) by discriminate. destruct (H2 Hn1) as [A1 A2].
            destruct (G4 Hn1 eq_refl) as (m & B1 & B2 & B3 & B4 & B5). split; [|lia].
            right. right. exists m. cbn [List.length] in *. splits; auto; lia. }
        apply cost_assert.
        * right. split; [exact Hb|]. destruct from2 as [|p2 from2].
          -- destruct (R2 eq_refl) as [R _]. cbn in G1. replace (len from) with (k1 + k2) by lia. now rewrite Nat.add_0_r.
          -- specialize (R1 ltac:(discriminate)). cbn in G1. left. lia.
        * intros He. apply cost_ret. cbn [fst snd]. split; [exact Hb|]. exists (k1 + k2). rewrite Nat.add_0_r. splits; auto; [lia|].
          intros Hn. split; [|now apply R1]. intros ->. destruct from2; [congruence|discriminate].
  Qed.

  Lemma above_top n c : above 0 None n c -> c <= 3 * n.
  Proof. intros [H|[(_ & _ & H)|(m & _ & _ & H1 & H2)]]; lia. Qed.

  Lemma cost_extend_unpacked0 index from :
    cost (extend_unpacked0 cfg sec index from)
      (fun o c => from = [] /\ c = 0 \/ c <= 3 * len from + 1 /\ exists i, o = Some i /\ c <= 2 * len from + ilevel i)
      (fun c => c <= 3 * len from + 1).
  Proof.
    unfold extend_unpacked0. destruct from as [|p from]; cbn [Write.is_nil]; [apply cost_ret; now left|].
    set (from0 := p :: from). assert (Hf : from0 <> []) by discriminate. clearbody from0.
    eapply cost_bind; [apply cost_extend_above; exact Hf| |]; cbn [level0].
    - intros c [->|[_ H]]; [lia|]. apply above_top in H. lia.
    - intros [b from1] c1 (_ & k & H1 & H2 & H3). cbn [fst snd] in *. destruct from1 as [|p1 from1]; [|now destruct (H2 ltac:(discriminate))].
      destruct (H3 eq_refl) as [H4 H5]. apply above_top in H4. cbn in H1.
      destruct index as [a|].
      + eapply cost_bind; [apply cost_extend_branch| |].
        * intros c [->|(_ & [H|(H & _)])]; [lia|lia|congruence].
        * intros [x from2] c2 (_ & k2 & G1 & G2 & _ & _ & G5 & _). cbn [fst snd] in *. cbn in G1. assert (Hk : k2 = 0) by lia.
          specialize (G5 Hk). specialize (G2 b ltac:(right; now left)). apply cost_ret. right. split; [lia|].
          eexists. split; [reflexivity|]. cbn [ilevel]. lia.
      + apply cost_ret. right. split; [lia|]. eexists. split; [reflexivity|]. lia.
  Qed.

  (** ** Packing *)
  Lemma find_valid_2 cs r : find_valid_branch cfg cs = Ok r ->
    match r with RSealed n | RUnsealed n => 2 <= n <= len cs | RSkip _ => True end.
  Proof.
    unfold find_valid_branch. destruct (Nat.ltb_spec 1 (len cs)); cbn [negb]; [|discriminate].
    destruct (levels_desc cs); cbn [negb]; [|discriminate]. destruct cs as [|a cs]; [discriminate|].
    set (mx := if Nat.eqb _ 0 then _ else _). assert (2 <= mx) by (unfold mx; destruct Hcfg as (_ & _ & H2 & _); destruct (Nat.eqb _ 0); lia).
    assert (Hp : forall l lv, position_below lv l <= len l).
    { intros l lv. induction l as [|b l IH]; cbn; [lia|]. match goal with |- context [if ?b then _ else _] => destruct b end; lia. }
    specialize (Hp (a :: cs) (ilevel a)). set (pos := position_below _ _) in *.
    destruct (Nat.leb_spec mx pos); [intros [= <-]; lia|].
    destruct (_ || _); intros [= <-]; [|easy]. cbn [List.length] in *. lia.
  Qed.

  Definition lower (h : nat) (rs : list Index) : Prop := Forall (fun i => ilevel i <= h) rs.
  Definition total (rs : list Index) : nat := sum_nat (map icount rs).
  Lemma total_app a b : total (a ++ b) = total a + total b.
  Proof. unfold total. now rewrite map_app, sum_nat_app. Qed.
  Lemma max_nat_le l h : Forall (fun a => a <= h) l -> max_nat l <= h.
  Proof. induction 1; cbn; [lia|]. unfold max_nat in *. lia. Qed.

  Lemma cost_simplify_roots fuel : forall rs from,
    cost (simplify_roots cfg sec fuel rs from)
      (fun rs' c => c = 1 /\ len rs' + 1 <= len rs /\ total rs' = total rs /\ forall h, lower h rs -> lower (S h) rs')
      (fun c => c <= 1).
  Proof.
    induction fuel as [|fuel IH]; intros rs from; cbn [simplify_roots];
      do 2 (apply cost_assert; [lia|]; intros _); (apply cost_lift; [lia|]); intros r Hr;
      pose proof (find_valid_2 _ _ Hr) as Hn; (destruct r as [n|n|n];
        [| |first [apply cost_none; [lia|intros w r w' [= <- <-]; easy]|apply IH]]).
    all: rewrite skipn_length in Hn;
      (eapply cost_bind; [apply cost_new_branch|auto|]); intros x c (-> & Hl & Hc); apply cost_ret; (split; [lia|]);
      assert (E : rs = firstn from rs ++ firstn n (skipn from rs) ++ skipn (from + n) rs)
        by (rewrite <- skipn_plus, firstn_skipn, firstn_skipn; reflexivity);
      (split; [rewrite app_length, firstn_length; cbn [List.length app]; rewrite skipn_length; lia|split]).
    1,3,5,7: rewrite E at 3; rewrite !total_app; f_equal; f_equal; unfold total at 1, sum_nat; cbn [map fold_right icount]; unfold total; unfold sum_nat in Hc; rewrite Hc; unfold sum_nat; lia.
    all: intros h Hh; rewrite E in Hh; unfold lower in *; rewrite !Forall_app in *; destruct Hh as (A1 & A2 & A3);
      assert (up : forall l, Forall (fun i => ilevel i <= h) l -> Forall (fun i => ilevel i <= S h) l)
        by (intros l; apply Forall_impl; intros; lia);
      splits; auto; constructor; [|constructor]; cbn [ilevel]; rewrite Hl; apply le_n_S, max_nat_le; now rewrite Forall_map.
  Qed.

  Lemma cost_simplify_all fuel : forall rs,
    cost (simplify_all cfg sec fuel rs)
      (fun rs' c => c + len rs' <= len rs /\ len rs' <= 1 /\ total rs' = total rs /\ forall h, lower h rs -> lower (h + c) rs')
      (fun c => c <= len rs).
  Proof.
    induction fuel as [|fuel IH]; intros rs; cbn [simplify_all];
      (destruct (Nat.ltb_spec 1 (len rs)); [|apply cost_ret; splits; auto; intros h; now rewrite Nat.add_0_r]).
    - apply cost_none; [lia|intros w r w' [= <- <-]; easy].
    - eapply cost_bind; [apply cost_simplify_roots|cbn beta; intros; lia|]. intros rs1 c (-> & Hl & Ht & Hh).
      eapply cost_conseq; [apply IH| |]; cbn beta; [|intros; lia]. intros rs2 c (H1 & H2 & H3 & H4). splits; [lia|lia|lia|].
      intros h Hr. replace (h + (1 + c)) with (S h + c) by lia. auto.
  Qed.

  Lemma cost_tree_from_roots rs :
    cost (tree_from_roots cfg sec rs)
      (fun o c => c <= len rs /\ match o with Some i => icount i | None => 0 end = total rs
         /\ forall h, lower h rs -> level0 o <= h + c)
      (fun c => c <= len rs).
  Proof.
    unfold tree_from_roots. do 2 (apply cost_assert; [lia|]; intros _).
    eapply cost_bind; [apply cost_simplify_all|auto|]. intros rs1 c (H1 & H2 & H3 & H4). apply cost_ret. rewrite Nat.add_0_r.
    split; [lia|]. destruct rs1 as [|i [|]]; cbn in H2; [| |lia].
    - split; [now rewrite <- H3|]. intros h _. cbn. lia.
    - rewrite <- H3. split; [unfold total, sum_nat; cbn; lia|]. intros h Hh. specialize (H4 h Hh). cbn. now inversion H4.
  Qed.

  (** ** Builders *)

  (** The number of blocks handed to the store between two states. *)
  Definition wrote_blocks (fo fo' : Forest) (n : nat) : Prop := len (fo_log fo') = len (fo_log fo) + n.
  (** The level of the root; an empty tree counts as 0. *)
  Definition height (b : Builder) : nat := level0 (b_root b).

  Lemma run_cost {A} fo b (m : M A) Q F r fo' b' : cost m Q F -> run fo b m = (r, fo', b') ->
    exists c, wrote_blocks fo fo' c /\ match r with Ok a => Q a c | _ => F c end.
  Proof. intros H E. apply run_inv in E as [E _]. exact (H _ _ _ E). Qed.
End Cost.

(** ** Theorems *)

Section Props.
  Context {T : Types} {TL : TypesLaws T} {X : Ext} {XL : ExtLaws X}
          {B : Backend T} {BL : BackendLaws T B}.
  Variable cfg : Config.
  Variable sec : Secrets.
  Hypothesis Hcfg : config_ok cfg.
  Hypothesis Hkeys : 2 <= max_key_branches cfg.

  Lemma extend_cost fo b items r fo' b' : b_cfg b = cfg -> extend fo b items = (r, fo', b') ->
    exists n, wrote_blocks fo fo' n /\ n <= 3 * List.length items + 2 * height b
      /\ (r = Ok tt -> n <= 2 * List.length items + height b + Nat.max (height b) (height b')).
  Proof.
    intros Ec E. unfold extend in E. destruct items as [|p items].
    { injection E as <- <- <-. exists 0. unfold wrote_blocks. splits; lia. }
    set (from := p :: items) in *. assert (Hf : from <> []) by discriminate. clearbody from.
    assert (Hn : forall n, above (height b) None (List.length from) n -> n <= 3 * List.length from + 2 * height b).
    { assert (1 <= List.length from) by (destruct from; [congruence|cbn; lia]).
      intros n [H1|[(H1 & _ & H2)|(m & _ & H1 & H2 & H3)]]; lia. }
    rewrite Ec in E. destruct (run fo b _) as [[r0 fo1] b1] eqn:Erun.
    eapply run_cost in Erun as (c & W & H); [|apply (cost_extend_above cfg (b_sec b) Hcfg Hkeys); exact Hf].
    destruct r0 as [[i rest]|e|p0|]; injection E as <- <- <-; exists c.
    2,3,4: destruct H as [->|[_ H]]; [splits; [exact W|lia|discriminate]|]; splits; [exact W|now apply Hn|discriminate].
    destruct H as (_ & k & H1 & H2 & H3). cbn [fst snd] in *. destruct rest as [|q rest]; [|now destruct (H2 ltac:(discriminate))].
    destruct (H3 eq_refl) as [H4 H5]. cbn in H1. rewrite Nat.add_0_r in H1. rewrite H1 in *. splits; [exact W|now apply Hn|].
    intros _. exact H5.
  Qed.

  (** [extend] with [n] entries writes at most [2 * n] blocks and one for every
      level of the tree before and after; whether or not it succeeds, at most
      [3 * n + 2 * height]. *)
  Theorem C66_extend s items fo' b' :
    reach anything cfg sec s ->
    extend (sy_fo s) (sy_b s) items = (Ok tt, fo', b') ->
    exists n, wrote_blocks (sy_fo s) fo' n
      /\ n <= 2 * List.length items + height (sy_b s) + Nat.max (height (sy_b s)) (height b').
  Proof.
    intros R E. destruct (reach_b cfg sec Hcfg _ _ R) as (t & _ & _ & Ec & _).
    destruct (extend_cost _ _ _ _ _ _ Ec E) as (n & W & _ & H). eauto.
  Qed.

  Theorem C66_extend_any s items r fo' b' :
    reach anything cfg sec s ->
    extend (sy_fo s) (sy_b s) items = (r, fo', b') ->
    exists n, wrote_blocks (sy_fo s) fo' n /\ n <= 3 * List.length items + 2 * height (sy_b s).
  Proof.
    intros R E. destruct (reach_b cfg sec Hcfg _ _ R) as (t & _ & _ & Ec & _).
    destruct (extend_cost _ _ _ _ _ _ Ec E) as (n & W & H & _). eauto.
  Qed.

  (** [push] writes at most two blocks per level and three more. *)
  Theorem C66_push s k v r fo' b' :
    reach anything cfg sec s ->
    push (sy_fo s) (sy_b s) k v = (r, fo', b') ->
    exists n, wrote_blocks (sy_fo s) fo' n /\ n <= 2 * height (sy_b s) + 3.
  Proof.
    intros R E. destruct (C66_extend_any _ _ _ _ _ R E) as (n & W & H). exists n. split; [exact W|]. cbn in H. lia.
  Qed.

  (** [extend_unpacked] does not depend on the height of the tree. *)
  Theorem C66_extend_unpacked s items r fo' b' :
    reach anything cfg sec s ->
    extend_unpacked (sy_fo s) (sy_b s) items = (r, fo', b') ->
    exists n, wrote_blocks (sy_fo s) fo' n /\ n <= 3 * List.length items + 1.
  Proof.
    intros R E. destruct (reach_b cfg sec Hcfg _ _ R) as (t & _ & _ & Ec & _).
    unfold extend_unpacked in E. rewrite Ec in E. destruct (run (sy_fo s) (sy_b s) _) as [[r0 fo1] b1] eqn:Erun.
    eapply run_cost in Erun as (c & W & H); [|apply (cost_extend_unpacked0 cfg (b_sec (sy_b s)) Hcfg Hkeys)].
    exists c. destruct r0 as [i|e|p0|]; injection E as <- <- <-; (split; [exact W|]); lia.
  Qed.

  (** [pack] joins the roots it found, and appends the entries after them. *)
  Theorem C66_pack s rs fo1 r fo' b' :
    reach anything cfg sec s -> roots (sy_fo s) (sy_b s) = (Ok rs, fo1) ->
    pack (sy_fo s) (sy_b s) = (r, fo', b') ->
    exists n, wrote_blocks (sy_fo s) fo' n
      /\ n <= 3 * (builder_count (sy_b s) - sum_nat (map icount rs)) + 3 * List.length rs + 2 * height (sy_b s).
  Proof.
    intros R Ers E. destruct (reach_b cfg sec Hcfg _ _ R) as (t & I). pose proof I as (F & Es & Ec & Er & G). cbn [s_now only] in Ec.
    unfold pack in E. rewrite Ers in E.
    pose proof (roots_api cfg sec _ _ _ _ _ _ _ I Ers) as (S1 & Hrs & _).
    assert (L1 : fo_log fo1 = fo_log (sy_fo s)) by (destruct S1 as (_ & _ & _ & H); exact H).
    assert (Hlow : lower (height (sy_b s)) rs).
    { destruct Hrs as [[= ->]|[e Hrs]]; [|discriminate]. destruct t as [t|]; [|constructor].
      unfold height. rewrite Er. cbn [option_map level0]. unfold lower. rewrite Forall_map.
      assert (H : Forall (fun c => (exists lim, repr sec lim c) /\ ilevel (root_ix c) <= ilevel (root_ix t)) (fst (groots t None))).
      { apply groots_sub.
        - intros x cs [(lim & Rp) Hl]. apply repr_branch in Rp as (_ & _ & _ & Hlv & blk & rg & _ & _ & _ & Rp).
          rewrite Forall_map in Hlv. cbn in Hl. rewrite Forall_forall in *. intros c Hc. split; [eauto|]. specialize (Hlv c Hc). cbn in Hlv. lia.
        - split; [|lia]. destruct G as ((G & _) & _). eauto. }
      eapply Forall_impl; [|exact H]. now intros c []. }
    rewrite Ec, Es in E. destruct (run fo1 (sy_b s) _) as [[r1 fo2] b1] eqn:Erun.
    pose proof Erun as Erun'. apply run_inv in Erun' as (Em & Er1 & Es1 & Ec1).
    pose proof (wf_tree_from_roots sec cfg rs _ _ _ Em) as W2. clear Em.
    eapply run_cost in Erun as (c & W & H); [|apply (cost_tree_from_roots cfg sec Hcfg Hkeys)].
    unfold wrote_blocks in *. rewrite L1 in W.
    destruct r1 as [i|e|p|]; try (injection E as <- <- <-; exists c; split; [exact W|lia]).
    destruct H as (H1 & H2 & H3). specialize (H3 _ Hlow).
    destruct (collect_from fo2 _ _) as [rr3 fo3] eqn:Ecol.
    assert (L3 : fo_log fo3 = fo_log fo2).
    { unfold collect_from in Ecol. destruct (snapshot (sy_b s)) as [[[i0 s0] o0]|]; [|now injection Ecol as <- <-].
      apply (read_fsame s0) in Ecol; [|apply rf_collect0]. destruct Ecol as (_ & _ & _ & H). exact H. }
    destruct rr3 as [l|e|p|]; try (injection E as <- <- <-; exists c; rewrite L3; split; [exact W|lia]).
    assert (Hl : List.length l <= builder_count (sy_b s) - sum_nat (map icount rs)).
    { assert (Wall : fext sec (sy_fo s) (b_off (sy_b s)) fo2 (b_off b1)).
      { eapply fext_trans; [exact (fsame_fext sec _ _ _ S1)|exact W2]. }
      assert (I2 : bgood cfg sec (k_lose anything = false) (k_repair anything = false) fo2
                     {| b_root := b_root (sy_b s); b_off := b_off b1; b_sec := b_sec (sy_b s); b_cfg := b_cfg (sy_b s) |} t).
      { split; [eapply fext_fok; eauto|]. splits; auto. exact (gn_mono cfg sec _ _ _ _ _ _ _ Wall G). }
      set (b2 := {| b_root := _ |}) in I2.
      assert (Ecol' : collect_from fo2 (snapshot b2) (builder_count (set_root b1 i)) = (Ok l, fo3)).
      { rewrite <- Ecol. unfold snapshot. cbn. now destruct (b_root (sy_b s)). }
      destruct (collect_api cfg sec _ _ _ _ _ _ _ _ I2 Ecol') as (_ & [Hl|[e Hl]] & _); [|discriminate]. injection Hl as ->.
      rewrite skipn_length, <- (b_count _ _ _ _ _ _ _ I). unfold builder_count at 2. cbn [b_root set_root].
      fold (total rs). rewrite <- H2. destruct i; lia. }
    destruct (omapM _ l) as [rest|] eqn:Eo; [|injection E as <- <- <-; exists c; rewrite L3; split; [exact W|lia]].
    apply omapM_inv in Eo. subst l. rewrite map_length in Hl.
    destruct (extend_cost fo3 (set_root b1 i) rest r fo' b') as (n & W3 & H4 & _); [cbn; congruence|exact E|].
    unfold wrote_blocks, height in *. cbn [b_root set_root] in *. exists (c + n). split; [rewrite W3, L3, W; lia|lia].
  Qed.
End Props.

(** ** The hypotheses are met, and how close the bounds are *)

(** Whether the call succeeds, the blocks it wrote and the heights before and
    after. *)
Definition costs (s : @sys ITypes IBackend) (f : Forest -> Builder -> res unit * Forest * Builder) : bool * nat * nat * nat :=
  match f (sy_fo s) (sy_b s) with
  | (r, fo', b') => (match r with Ok _ => true | _ => false end,
                     List.length (fo_log fo') - List.length (fo_log (sy_fo s)), height (sy_b s), height b')
  end.

(** Twelve entries in a packed tree of height 3. *)
Example C66_case_keys : 2 <= max_key_branches ecfg. Proof. cbv. lia. Qed.
Example C66_case_extend : costs st2 (fun fo b => extend fo b (pairs 12 9)) = (true, 13, 3, 4). Proof. vm_compute; reflexivity. Qed.
Example C66_case_push : costs st2 (fun fo b => push fo b 12%N 112%N) = (true, 4, 3, 3). Proof. vm_compute; reflexivity. Qed.
Example C66_case_unpacked : costs st2 (fun fo b => extend_unpacked fo b (pairs 12 9)) = (true, 12, 3, 4). Proof. vm_compute; reflexivity. Qed.
Example C66_case_pack : costs st3 pack = (true, 7, 4, 3). Proof. vm_compute; reflexivity. Qed.
Example C66_case_full : costs st4 (fun fo b => extend fo b (pairs 12 9)) = (false, 4, 3, 3). Proof. vm_compute; reflexivity. Qed.

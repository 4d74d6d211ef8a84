(** C77: queries that err on one side. What filtered iteration returns for a
    query that misses some of the entries it should find, or finds some that it
    should not. *)
From Coq Require Import List NArith ZArith Lia Bool String Arith.
From Verif Require Import Base BaseProofs Cbor Types Seq SeqProofs Query QuerySpec World Read Write Api Iter IterFrame History Spec IterSpec Ghost Frame ReadProofs Packable WriteProofs QueryProofs PackProofs RetainProofs RepairProofs NoPurged ApiProofs SysProofs HistProofs IterProofs Instance Example PropsRead PropsQuery PropsIter.
Import ListNotations.

(** * Specification *)

(** [within a b]: [a] is [b] with some elements left out. *)
Inductive within {A} : list A -> list A -> Prop :=
| within_nil : within [] []
| within_keep x a b : within a b -> within (x :: a) (x :: b)
| within_skip x a b : within a b -> within a (x :: b).

(** [query_near q must may]: for a leaf, [q] keeps all bits of events that satisfy
    [must] and only bits of events that satisfy [may]; for a branch it keeps the
    bits of all children below which there is an event that satisfies [must]. *)
Record query_near {T : Types} (q : Query) (must may : nat -> K -> bool) : Prop := {
  qn_sized : q_sized q;
  qn_may : forall off x mask i k, List.length mask = List.length (leaf_keys x) ->
    nth_error (q_containing q off x mask) i = Some true -> nth_error (leaf_keys x) i = Some k ->
    may (off + i) k = true;
  qn_must : forall off x mask i k, List.length mask = List.length (leaf_keys x) ->
    nth_error mask i = Some true -> nth_error (leaf_keys x) i = Some k -> must (off + i) k = true ->
    nth_error (q_containing q off x mask) i = Some true;
  qn_branch : forall off x mask kss i j ks k,
    List.length mask = List.length (branch_sums x) ->
    branch_sums x <> [] ->
    sums_of (branch_sums x) kss -> bi_count x = List.length (List.concat kss) ->
    nth_error mask i = Some true ->
    nth_error kss i = Some ks -> nth_error ks j = Some k ->
    must (off + List.length (List.concat (firstn i kss)) + j) k = true ->
    nth_error (q_intersecting q off x mask) i = Some true
}.

(** * Proofs *)

Lemma within_nil_l {A} (b : list A) : within [] b.
Proof. induction b; constructor; auto. Qed.
Lemma within_refl {A} (b : list A) : within b b.
Proof. induction b; constructor; auto. Qed.
Lemma within_app {A} (a b c d : list A) : within a b -> within c d -> within (a ++ c) (b ++ d).
Proof. induction 1; intros H2; cbn; [exact H2|constructor; auto..]. Qed.
Lemma within_in {A} (a b : list A) x : within a b -> In x a -> In x b.
Proof. induction 1; cbn; intuition. Qed.

Section Near.
  Context {T : Types} {TL : TypesLaws T} {X : Ext} {XL : ExtLaws X}
          {B : Backend T} {BL : BackendLaws T B}.
  Variable cfg : Config.
  Variable sec : Secrets.
  Hypothesis Hcfg : config_ok cfg.

  Section Query.
    Variable q : Query.
    Variables must may : nat -> K -> bool.
    Hypothesis Q : query_near q must may.

    (** The exact query for [must] with the branch test of [q]. *)
    Definition exact_for : Query := {|
      q_containing := fun off x m => map (fun p => fst p && snd p) (combine m (key_mask must off (leaf_keys x)));
      q_intersecting := fun off x m => map (fun p => fst p && snd p) (combine (q_intersecting q off x m) m)
    |}.

    Lemma and_nth (a b : list bool) i : nth_error (map (fun p => fst p && snd p) (combine a b)) i
      = match nth_error a i, nth_error b i with Some x, Some y => Some (x && y) | _, _ => None end.
    Proof.
      revert b i. induction a as [|x a IH]; intros b i; [now destruct i|].
      destruct b as [|y b]; [destruct i; cbn; [easy|now destruct (nth_error a i)]|].
      destruct i; cbn; [easy|apply IH].
    Qed.

    Lemma exact_ok : query_ok exact_for must.
    Proof.
      constructor; cbn [exact_for q_containing q_intersecting].
      - intros off x mask H. rewrite map_length, combine_length, key_mask_length. lia.
      - intros off x mask i b k H E1 E2. rewrite and_nth, E1. now rewrite (nth_key_mask _ _ _ _ _ E2).
      - intros off x mask H. rewrite map_length, combine_length, (qs_branch _ (qn_sized _ _ _ Q)) by exact H. lia.
      - intros off x mask i H. rewrite and_nth. destruct (nth_error (q_intersecting q off x mask) i); [|discriminate].
        destruct (nth_error mask i) as [[]|]; try discriminate; [easy|]. now rewrite andb_false_r.
      - intros off x mask kss i j ks k H1 H2 H3 H4 H5 H6 H7 H8. rewrite and_nth, H5.
        now rewrite (qn_branch _ _ _ Q off x mask kss i j ks k H1 H2 H3 H4 H5 H6 H7 H8).
    Qed.

    Lemma and_trues {A} (a : list bool) (l : list A) : List.length a = List.length l ->
      map (fun p => fst p && snd p) (combine a (trues l)) = a.
    Proof.
      revert l. induction a as [|x a IH]; intros [|y l] H; try discriminate; [easy|]. cbn. rewrite andb_true_r. f_equal.
      apply IH. now injection H.
    Qed.

    Lemma near_gates x cs off : keyed_branch x cs ->
      gates must off (q_intersecting q off x (trues (branch_sums x))) cs.
    Proof.
      intros Kb. pose proof (keyed_gates must exact_for x cs off exact_ok Kb) as G.
      cbn [exact_for q_intersecting] in G. rewrite and_trues in G; [exact G|].
      rewrite (qs_branch _ (qn_sized _ _ _ Q)) by apply map_length. apply map_length.
    Qed.

    Lemma leaf_bits off x :
      List.length (q_containing q off x (trues (leaf_keys x))) = List.length (leaf_keys x)
      /\ forall i k, nth_error (leaf_keys x) i = Some k ->
           (nth_error (q_containing q off x (trues (leaf_keys x))) i = Some true -> may (off + i) k = true)
           /\ (must (off + i) k = true -> nth_error (q_containing q off x (trues (leaf_keys x))) i = Some true).
    Proof.
      assert (Lm : List.length (trues (leaf_keys x)) = List.length (leaf_keys x)) by apply map_length.
      split; [now rewrite (qs_leaf _ (qn_sized _ _ _ Q))|]. intros i k E. split; intros H.
      - eapply (qn_may _ _ _ Q); eauto.
      - eapply (qn_must _ _ _ Q); eauto. apply nth_trues. apply nth_error_Some. congruence.
    Qed.

    Lemma leaf_near off x vs : List.length vs = List.length (leaf_keys x) ->
      within (matches must off (content (TLeaf x vs))) (leaf_data q off x vs)
      /\ within (leaf_data q off x vs) (matches may off (content (TLeaf x vs))).
    Proof.
      intros El. unfold leaf_data, leaf_mask. rewrite <- trues_repeat.
      destruct (leaf_bits off x) as [Hl Hb].
      generalize dependent (q_containing q off x (trues (leaf_keys x))). cbn [content]. intros bits.
      generalize dependent (leaf_keys x). intros ks. revert off vs bits.
      induction ks as [|k ks IH]; intros off [|v vs] [|b bits]; try discriminate; [split; constructor|].
      intros El Hl Hb. injection El as El. injection Hl as Hl.
      destruct (Hb 0 k eq_refl) as [H1 H2]. cbn [nth_error] in H1, H2. rewrite Nat.add_0_r in H1, H2.
      assert (IH' : within (matches must (S off) (map Some (combine ks vs)))
                      (combine (combine (mask_select bits (seq (S off) (List.length bits))) (mask_select bits ks)) (mask_select bits vs))
                    /\ within (combine (combine (mask_select bits (seq (S off) (List.length bits))) (mask_select bits ks)) (mask_select bits vs))
                         (matches may (S off) (map Some (combine ks vs)))).
      { apply IH; auto. intros i k' E. replace (S off + i) with (off + S i) by lia. apply (Hb (S i) k' E). }
      destruct IH' as [I1 I2]. cbn [combine map matches List.length seq mask_select].
      destruct b.
      - rewrite H1 by reflexivity. cbn [combine]. split; [|now constructor].
        destruct (must off k); constructor; exact I1.
      - split.
        + destruct (must off k) eqn:Em; [specialize (H2 eq_refl); discriminate|exact I1].
        + destruct (may off k); [constructor|]; exact I2.
    Qed.

    Lemma chunks_near {E} (mk : node_info -> E) t : forall lim off, repr sec lim t -> keyed t ->
      within (matches must off (content t)) (flat_map c_data (chunks q mk off t))
      /\ within (flat_map c_data (chunks q mk off t)) (matches may off (content t)).
    Proof.
      induction t as [x vs|x|x cs IH|x] using tree_ind'; intros lim0 off R Kt.
      - destruct R as (R & _). cbn [chunks flat_map c_data]. rewrite app_nil_r. now apply leaf_near.
      - cbn [chunks]. rewrite skip_data. cbn [content]. rewrite !matches_none. split; constructor.
      - apply keyed_branch_iff in Kt as [K1 K2]. pose proof (near_gates x cs off K1) as G.
        rewrite trues_repeat in G. fold (branch_mask q off x) in G. rewrite chunks_branch. cbn zeta.
        pose proof (branch_mask_length q (qn_sized _ _ _ Q) off x) as Hml.
        apply repr_branch in R as (_ & Hcnt & Hlen & _ & blk & r & _ & _ & _ & Hch).
        rewrite Hlen in Hml. cbn [content].
        destruct (any _) eqn:Ea.
        + clear Ea. generalize dependent (branch_mask q off x). revert off.
          clear -IH Hch K2 TL XL BL Q.
          induction cs as [|c cs IHcs]; intros off [|b f] G El; try discriminate; [split; constructor|].
          cbn [combine fw flat_map]. inversion IH; subst. inversion Hch; subst. inversion K2; subst.
          cbn [gates] in G. destruct G as [G1 G2]. injection El as El.
          rewrite flat_map_app, !matches_app. erewrite length_content by eauto.
          destruct (IHcs ltac:(assumption) ltac:(assumption) ltac:(assumption) _ _ G2 El) as [I1 I2].
          unfold ich. cbn [fst snd]. destruct b.
          * edestruct H1 as [J1 J2]; [eassumption..|]. split; apply within_app; [exact J1|exact I1|exact J2|exact I2].
          * rewrite skip_data. split; apply within_app; try exact I1; try exact I2.
            -- rewrite nomatch_matches by (apply G1; reflexivity). constructor.
            -- apply within_nil_l.
        + rewrite skip_data. split; [|apply within_nil_l].
          rewrite nomatch_matches; [constructor|]. eapply gates_none; eauto.
      - cbn [chunks]. rewrite skip_data. cbn [content]. rewrite !matches_none. split; constructor.
    Qed.
  End Query.

  (** The entries returned are among those that satisfy [may], and among them are
      all that satisfy [must]; in ascending order, as they occur in the stream.
      Reverse iteration returns the same chunks in reverse. *)
  Theorem C77_near {E} s t q must may (mk : node_info -> E) :
    reach anything cfg sec s -> known s t -> query_near q must may ->
    exists c cs, answers (sy_fo s) t c
      /\ within (matches must 0 c) (flat_map c_data cs)
      /\ within (flat_map c_data cs) (matches may 0 c)
      /\ (forall rs s' it', pulls anything s (iter_filtered_chunked t q mk) rs s' it' -> follows cs rs)
      /\ (forall rs s' it', pulls anything s (iter_filtered_chunked_reverse t q mk) rs s' it' -> follows (rev cs) rs).
  Proof.
    intros R K Q. destruct (iter_follow cfg sec Hcfg _ _ _ q mk R K (qn_sized _ _ _ Q)) as (n & Bh & Hk & H1 & H2 & _).
    destruct (known_good cfg sec Hcfg _ _ _ R K) as [F _].
    assert (W : within (matches must 0 (ocontent n)) (flat_map c_data (expected q mk n))
                /\ within (flat_map c_data (expected q mk n)) (matches may 0 (ocontent n))).
    { destruct n as [g|]; [|split; constructor]. destruct t as [[[i sec'] o]|]; [|easy].
      destruct Bh as (_ & _ & lim & Rg). cbn. eapply chunks_near; eauto. apply Hk. }
    exists (ocontent n), (expected q mk n). splits; [now apply (behind_answers sec)|apply W|apply W|exact H1|exact H2].
  Qed.

  (** While the store keeps its blocks there is no error, and all of it is returned. *)
  Theorem C77_total s t q must may (RR : ReliableReads T B) :
    reach no_loss cfg sec s -> known s t -> small_branches (sy_fo s) -> query_near q must may ->
    exists c found enough, answers_all (sy_fo s) t c
      /\ within (matches must 0 c) found /\ within found (matches may 0 c)
      /\ forall n rs fo' it', enough <= n ->
           take_chunks n (sy_fo s) (iter_filtered_chunked t q (fun _ => tt)) = (rs, fo', it') ->
           flatten_chunks rs = map Ok found.
  Proof.
    intros R K Hs Q. destruct (iter_follow cfg sec Hcfg _ _ _ q (fun _ => tt) R K (qn_sized _ _ _ Q)) as (n & Bh & Hk & _ & _ & H).
    destruct (known_good cfg sec Hcfg _ _ _ R K) as [F G].
    assert (W : within (matches must 0 (ocontent n)) (flat_map c_data (expected q (fun _ => tt) n))
                /\ within (flat_map c_data (expected q (fun _ => tt) n)) (matches may 0 (ocontent n))).
    { destruct n as [g|]; [|split; constructor]. destruct t as [[[i sec'] o]|]; [|easy].
      destruct Bh as (_ & _ & lim & Rg). cbn. eapply chunks_near; eauto. apply Hk. }
    specialize (H RR eq_refl). pose proof (known_sec cfg sec Hcfg _ _ _ R K) as Hsec.
    exists (ocontent n), (flat_map c_data (expected q (fun _ => tt) n)), (List.length (expected q (fun _ => tt) n)).
    splits; [apply (behind_answers_all sec); auto; eapply behind_avail; eauto|apply W|apply W|].
    intros m rs fo' it' Hn Et.
    assert (El : fo_log fo' = fo_log (sy_fo s)) by (eapply (take_log sec); [|exact Et]; destruct t as [[[i sec'] o]|]; [exact Hsec|exact Logic.I]).
    rewrite (take_all _ _ _ _ _ _ (expected q (fun _ => tt) n) ltac:(intros r x y; apply H) Hs El Et Hn). clear. unfold flatten_chunks.
    induction (expected q (fun _ => tt) n) as [|x cs IH]; cbn; [easy|]. now rewrite map_app, IH.
  Qed.
End Near.

(** Every exact query is one of these. *)
Lemma C77_exact {T : Types} q m : query_ok q m -> query_near q m m.
Proof.
  intros Q. constructor.
  - eapply query_sized; eauto.
  - intros off x mask i k H E1 E2. destruct (nth_error mask i) as [b|] eqn:Em.
    + rewrite (qo_leaf _ _ Q _ _ _ _ _ _ H Em E2) in E1. injection E1 as E1. now apply andb_prop in E1.
    + apply nth_error_None in Em. assert (nth_error (q_containing q off x mask) i = None) as Hn.
      { apply nth_error_None. now rewrite (qo_leaf_length _ _ Q). }
      congruence.
  - intros off x mask i k H E1 E2 E3. rewrite (qo_leaf _ _ Q _ _ _ _ _ _ H E1 E2). now rewrite E3.
  - apply (qo_branch _ _ Q).
Qed.

(** A query for the offsets 3 to 8 that looks below branches as if it were one
    for 3 and 4. It finds 5, which is in a leaf with 4, and misses the others. *)
Definition qnear : @Query ITypes := {|
  q_containing := q_containing (offset_range_query (range_incl 3 8));
  q_intersecting := q_intersecting (offset_range_query (range_incl 3 4)) |}.

Example C77_case :
  reach no_loss ecfg esec st3 /\ known st3 t3 /\ small_branches (sy_fo st3)
  /\ query_near qnear (fun o _ => range_contains (range_incl 3 4) o) (fun o _ => range_contains (range_incl 3 8) o)
  /\ flatten_chunks (items 100 (sy_fo st3) (iter_filtered_chunked t3 qnear unit_of))
     = map Ok (map (fun i => (i, N.of_nat i, N.of_nat (100 + i))) [3; 4; 5]).
Proof.
  splits; [exact st3_ok|now left|apply smallb_ok; vm_compute; reflexivity| |vm_compute; reflexivity].
  pose proof (C37_offset_range (T := ITypes) (range_incl 3 8)) as Q8. pose proof (C37_offset_range (T := ITypes) (range_incl 3 4)) as Q4.
  constructor.
  - constructor; [apply (qo_leaf_length _ _ Q8)|apply (qo_branch_length _ _ Q4)].
  - apply (qn_may _ _ _ (C77_exact _ _ Q8)).
  - intros off x mask i k H E1 E2 E3. eapply (qn_must _ _ _ (C77_exact _ _ Q8)); eauto.
    revert E3. unfold range_contains. cbn [range_incl r_start r_end]. rewrite !andb_true_iff, !Nat.leb_le. lia.
  - apply (qo_branch _ _ Q4).
Qed.

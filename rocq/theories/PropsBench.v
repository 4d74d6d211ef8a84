(** C96: the numbers that the command bench prints. *)
From Coq Require Import List NArith ZArith Lia Bool String Arith Sorted Permutation.
From Coq Require Import Strings.Byte.
From Verif Require Import Base BaseProofs Cbor CborProofs Types Seq SeqProofs Query QuerySpec World Read Write Api Iter IterFrame History Spec IterSpec Ghost Frame ReadProofs Packable WriteProofs QueryProofs PackProofs RetainProofs RepairProofs NoPurged ApiProofs SysProofs HistProofs IterProofs Instance Example PropsRead PropsQuery PropsRefine PropsConfig PropsIter Tags TagProofs PropsTags PropsKeyTags Compact PropsCompact TagTypes PropsNear PropsTagged DumpTree Cli Commands PropsCommands ReadCommands PropsReadCommands TagCommands PropsFilter BenchCommand.
From Verif Require PropsCli.
Import ListNotations.
Open Scope list_scope.

(** * Specification *)

(** There are exactly [m] numbers with the property [P]. *)
Definition amount (P : nat -> Prop) (m : nat) : Prop :=
  exists l, NoDup l /\ (forall i, In i l <-> P i) /\ List.length l = m.

(** * Proofs *)
Section Counting.
  Context {T : Types} {TL : TypesLaws T} {X : Ext} {XL : ExtLaws X}
          {B : Backend T} {BL : BackendLaws T B}.

  Lemma count_each {E} fuel : forall fo (it : chunk_iter E) ls fo', each fuel fo it = (ls, Ok tt, fo') ->
    count_items fuel fo it = (Ok (List.length ls), fo').
  Proof.
    induction fuel as [|fuel IH]; intros fo it ls fo'; cbn [each count_items]; [discriminate|].
    destruct (next_chunk fo it) as [[[[c|e|p|]|] fo1] it1]; cbn [failed]; try discriminate.
    - destruct (each fuel fo1 it1) as [[ls1 r1] fo2] eqn:E1. intros [= <- -> <-].
      rewrite (IH _ _ _ _ E1). cbn [rmap flatten_chunk]. now rewrite map_length, app_length.
    - intros [= <- <-]. reflexivity.
  Qed.

  Variable sec : Secrets.
  Variable ev : nat -> K * V.

  Lemma count_ok (set : Setting) fo b n q must may :
    ReliableReads T B -> query_near q must may -> bgood set sec True True fo b n -> oavail (fo_store fo) n ->
    exists found fo', count_filtered fo (snapshot b) q = (Ok (List.length found), fo') /\ fsame sec fo fo'
      /\ within (matches must 0 (ocontent n)) found /\ within found (matches may 0 (ocontent n)).
  Proof.
    intros RR Q I A. unfold count_filtered. destruct n as [t|].
    - apply binv_snap in I as (F & Es & Sn). rewrite Es.
      destruct (items fo (Some (root_ix t, sec, b_off b)) q) as [[ls r] fo'] eqn:E. pose proof E as E'.
      eapply items_ok in E as (W & found & N1 & N2 & H1 & H2); [|exact F|exact Sn|exact Q].
      specialize (H2 RR A). subst r. destruct H1 as [[_ ->]|(e & m & ? & _)]; [|discriminate].
      exists found, fo'. split; [now apply count_each|]. auto.
    - apply binv_none in I as (F & Es). rewrite Es. exists [], fo. cbn. split; [reflexivity|]. split; [apply fsame_refl|]. split; constructor.
  Qed.

  Lemma same_small fo fo' : fsame sec fo fo' -> small_branches fo' -> small_branches fo.
  Proof. intros (_ & _ & _ & H). unfold small_branches. cbn in H. now rewrite H. Qed.

  Lemma small_same fo fo' : fsame sec fo fo' -> small_branches fo -> small_branches fo'.
  Proof. intros (_ & _ & _ & H). unfold small_branches. cbn in H. now rewrite H. Qed.

  Lemma count_same {E} fuel : forall fo (it : chunk_iter E) r fo', it_sec sec it -> count_items fuel fo it = (r, fo') -> fsame sec fo fo'.
  Proof.
    induction fuel as [|fuel IH]; intros fo it r fo' Hi; cbn [count_items]; [intros [= _ <-]; apply fsame_refl|].
    destruct (next_chunk fo it) as [[[x|] fo1] it1] eqn:En; apply (next_chunk_rext sec) in En as [W H]; try exact Hi; change (fsame sec fo fo1) in W.
    - destruct (count_items fuel fo1 it1) as [n fo2] eqn:E1. intros [= _ <-]. eapply fsame_trans; eauto.
    - intros [= _ <-]. exact W.
  Qed.
  Lemma filtered_same (set : Setting) fo b n q r fo' : bgood set sec True True fo b n -> count_filtered fo (snapshot b) q = (r, fo') -> fsame sec fo fo'.
  Proof.
    intros (_ & Es & _). apply count_same. unfold snapshot. destruct (b_root b); [exact Es|exact Logic.I].
  Qed.

  Lemma bench_ok common rare must1 may1 must2 may2 count fo ns r fo' :
    ReliableReads T B -> query_near common must1 may1 -> query_near rare must2 may2 ->
    (forall l b, sblocks (fo_store fo) l = Some b -> l = digest b) -> (forall l b, ~ cin (fo_cache fo) l b) -> fo_log fo = [] ->
    small_branches fo' ->
    bench ev common rare sec count fo = (ns, r, fo') ->
    (r = Ok tt /\ exists f1 f2, ns = [List.length f1; List.length f2]
       /\ within (matches must1 0 (map (fun i => Some (ev i)) (seq 0 count))) f1 /\ within f1 (matches may1 0 (map (fun i => Some (ev i)) (seq 0 count)))
       /\ within (matches must2 0 (map (fun i => Some (ev i)) (seq 0 count))) f2 /\ within f2 (matches may2 0 (map (fun i => Some (ev i)) (seq 0 count))))
    \/ (ns = [] /\ r <> Ok tt /\ no_assert r
        /\ fst (fst (extend fo (builder_new config_debug_fast sec) (map ev (seq 0 count)))) = r).
  Proof.
    intros RR Q1 Q2 Hd Hc Hl Hs E.
    pose proof (proj1 PropsCli.C85_config_case) as Hcfg.
    set (cfg := config_debug_fast) in *.
    assert (I0 : bgood (only cfg) sec True True fo (builder_new cfg sec) None).
    { assert (fok sec fo). { split; [exact Hd|]. intros l b Hb. now destruct (Hc l b). }
      unfold bgood. cbn. splits; auto. }
    unfold bench, bench_build, andthen at 1, writes in E.
    fold cfg in E. destruct (extend fo (builder_new cfg sec) (map ev (seq 0 count))) as [[r1 fo1] b1] eqn:E1. cbn [fst snd].
    destruct (extend_api (only cfg) sec (only_ok _ Hcfg) _ _ _ _ _ _ _ _ _ I0 E1) as (_ & (n & I1 & H1 & _) & _ & Hn).
    specialize (Hn (conj Logic.I Logic.I)).
    destruct r1 as [[]|e|p|]; unfold rmap in E; cbn [rbind failed] in E; try (right; injection E as <- <- <-; splits; easy). left.
    destruct (H1 eq_refl) as [Hn1 _]. cbn [ocontent app] in Hn1. rewrite map_map in Hn1. clear H1 Hn.
    assert (Step : forall fo2 : Forest, fsame sec fo1 fo2 -> small_branches fo1 ->
      bgood (only cfg) sec True True fo2 b1 n /\ oavail (fo_store fo2) n).
    { intros fo2 W S2. apply (small_same _ _ W) in S2. pose proof (binv_keep (only cfg) sec _ _ _ _ _ _ W I1) as I2. split; [exact I2|].
      exact (binv_avail _ _ _ _ _ _ _ I2 Logic.I S2). }
    unfold andthen, assert_invariants, andthen, reads, done, require in E. cbn [rmap app] in E.
    destruct (check_invariants fo1 b1) as [r2 fo2] eqn:E2.
    assert (W2 : fsame sec fo1 fo2).
    { pose proof I1 as (_ & Es & _). unfold check_invariants in E2. rewrite Es in E2. destruct (b_root b1).
      - eapply (read_fsame sec); [|exact E2]. apply rf_check_invariants0.
      - injection E2 as _ <-. apply fsame_refl. }
    assert (C2 : small_branches fo1 -> r2 = Ok []).
    { intros S1. destruct (Step _ (fsame_refl sec _) S1) as [(F & Es & Ec & Er & G) A1].
      unfold check_invariants in E2. rewrite Er, Es, Ec in E2. destruct n as [t|]; cbn [option_map] in E2; [|now injection E2 as <- <-].
      destruct G as ((R1 & J1 & _) & _).
      eapply (read_rd sec) with (P := fun s => avail s t) in E2 as (_ & _ & E2); [apply E2; [exact RR|exact A1]|exact F|apply rf_check_invariants0|].
      eapply check_invariants0_rd; [exact R1|exact J1|]. unfold depth. lia. }
    destruct r2 as [[|m ms]|e|p|]; cbn [app failed] in E;
      try (injection E as <- <- <-; discriminate (C2 (same_small _ _ W2 Hs))).
    destruct (collect fo2 (snapshot b1)) as [r3 fo3] eqn:E3.
    assert (W3 : fsame sec fo1 fo3).
    { eapply fsame_trans; [exact W2|]. pose proof I1 as (_ & Es & _). unfold collect, collect_from, snapshot in E3. rewrite Es in E3. destruct (b_root b1).
      - destruct (read fo2 _) as [r0 fo0] eqn:E0. eapply (read_fsame sec) in E0; [|apply rf_collect0]. injection E3 as _ <-. exact E0.
      - injection E3 as _ <-. apply fsame_refl. }
    assert (C3 : small_branches fo1 -> exists c, r3 = Ok c).
    { intros S1. destruct (Step _ W2 S1) as [I2 A2]. unfold collect in E3. eapply b_collect in E3 as [_ H]; [|exact I2]. eauto. }
    destruct r3 as [c|e|p|]; cbn [failed] in E;
      try (injection E as <- <- <-; destruct (C3 (same_small _ _ W3 Hs)) as (? & ?); discriminate).
    destruct (count_filtered fo3 (snapshot b1) common) as [r4 fo4] eqn:E4.
    assert (W4 : fsame sec fo1 fo4).
    { eapply fsame_trans; [exact W3|]. eapply (filtered_same (only cfg)); [|exact E4]. exact (binv_keep (only cfg) sec _ _ _ _ _ _ W3 I1). }
    assert (C4 : small_branches fo1 -> exists f, r4 = Ok (List.length f) /\ within (matches must1 0 (ocontent n)) f /\ within f (matches may1 0 (ocontent n))).
    { intros S1. destruct (Step _ W3 S1) as [I3 A3]. destruct (count_ok (only cfg) _ _ _ _ _ _ RR Q1 I3 A3) as (f & fo0 & E0 & _ & N1 & N2).
      exists f. split; [congruence|auto]. }
    destruct r4 as [m1|e|p|]; cbn [failed] in E;
      try (injection E as <- <- <-; destruct (C4 (same_small _ _ W4 Hs)) as (? & ? & _); discriminate).
    destruct (count_filtered fo4 (snapshot b1) rare) as [r5 fo5] eqn:E5.
    assert (W5 : fsame sec fo1 fo5).
    { eapply fsame_trans; [exact W4|]. eapply (filtered_same (only cfg)); [|exact E5]. exact (binv_keep (only cfg) sec _ _ _ _ _ _ W4 I1). }
    assert (S1 : small_branches fo1).
    { apply (same_small _ _ W5). destruct r5; injection E as _ _ <-; exact Hs. }
    destruct (Step _ W4 S1) as [I4 A4]. destruct (count_ok (only cfg) _ _ _ _ _ _ RR Q2 I4 A4) as (f2 & fo0 & E0 & _ & N3 & N4).
    rewrite E0 in E5. injection E5 as <- <-. injection E as <- <- <-. split; [reflexivity|].
    destruct (C4 S1) as (f1 & [= ->] & N1 & N2). rewrite Hn1 in *. exists f1, f2. auto.
  Qed.
End Counting.

(** * C96 *)
Section Bench.
  Variable utf8 : bytes -> bool.
  Hypothesis Hutf8 : forall t, In t cli_tags -> utf8 t = true.
  Context {V L : Type} (v_enc : V -> cbor) (v_dec : cbor -> option V)
    (l_eqb : L -> L -> bool) (l_cid : L -> bytes) (l_of : bytes -> option L) (nonce : bytes).
  Notation TT := (tag_types utf8 cli_tags v_enc v_dec l_eqb l_cid l_of nonce).
  Variable value : nat -> V.
  Notation built := (built utf8 v_enc v_dec l_eqb l_cid l_of nonce value).

  Lemma accepts_range m tg i : accepts [k_range 0 m (vs_of [tg])] (built_key i) <-> carries tg i /\ (N.of_nat i <= m)%N.
  Proof.
    unfold accepts. destruct (tags_one i) as (t0 & Et & _). split.
    - intros (x & [<-|[]] & _ & Hm & Hin). unfold built_key in Hin, Hm. cbn [k_single k_tags k_range k_time t_max] in Hin, Hm.
      split; [|lia]. apply carries_iff. rewrite Et in *. specialize (Hin t0 (or_introl eq_refl)). destruct Hin as [<-|[]]. reflexivity.
    - intros [Hc Hm]. eexists. split; [left; reflexivity|].
      cbn [k_range k_time t_min t_max built_key k_single k_tags]. apply carries_iff in Hc. rewrite Hc.
      split; [lia|]. split; [lia|]. apply incl_refl.
  Qed.

  Lemma amount_of m tg count found :
    within (@matches TT (fun _ k => mustb utf8 cli_tags [k_range 0 m (vs_of [tg])] k) 0 (map (fun i => Some (built i)) (seq 0 count))) found ->
    within found (@matches TT (fun _ k => mayb utf8 cli_tags [k_range 0 m (vs_of [tg])] k) 0 (map (fun i => Some (built i)) (seq 0 count))) ->
    amount (fun i => i < count /\ carries tg i /\ (N.of_nat i <= m)%N) (List.length found).
  Proof.
    intros W1 W2. exists (map (fun x => fst (fst x)) found). split; [|split; [|apply map_length]].
    - apply within_sorted in W2 as [_ W2]. revert W2. generalize (map (fun x : nat * @Types.K TT * @Types.V TT => fst (fst x)) found). clear.
      induction 1 as [|a l _ IH H]; constructor; [|exact IH]. intros Hi. rewrite Forall_forall in H. apply H in Hi. lia.
    - assert (Nth : forall o x, nth_error (map (fun i => Some (built i)) (seq 0 count)) o = Some x <-> o < count /\ x = Some (built o)).
      { intros o x. rewrite nth_error_map. split.
        - destruct (nth_error (seq 0 count) o) as [j|] eqn:Ej; [|discriminate]. intros [= <-].
          assert (Ho : o < List.length (seq 0 count)) by (apply nth_error_Some; congruence). pose proof Ej as Ej'.
          rewrite seq_length in Ho. apply nth_error_nth with (d := 0) in Ej. rewrite seq_nth in Ej by exact Ho. subst j. split; [exact Ho|reflexivity].
        - intros [Ho ->]. rewrite (nth_error_nth' _ 0) by (rewrite seq_length; exact Ho). rewrite seq_nth by exact Ho. reflexivity. }
      intros o. split.
      + intros Hi. apply in_map_iff in Hi as ([[o' k] v] & Eo & Hi). cbn [fst] in Eo. subst o'.
        eapply within_in in Hi; [|exact W2]. apply in_matches in Hi as (_ & H1 & H2). rewrite Nat.sub_0_r in H1.
        apply Nth in H1 as [Ho H1]. assert (H1' : (k, v) = built o) by congruence. split; [exact Ho|]. apply accepts_existsb in H2.
        apply (f_equal fst) in H1' as Ek. cbn [fst] in Ek. rewrite Ek in H2.
        rewrite (built_tk utf8 Hutf8 v_enc v_dec l_eqb l_cid l_of nonce value) in H2.
        now apply accepts_range in H2.
      + intros (Ho & Hc & Hm). apply in_map_iff. exists (o, fst (built o), snd (built o)). split; [reflexivity|].
        eapply within_in; [exact W1|]. apply in_matches. rewrite Nat.sub_0_r.
        split; [lia|]. split; [apply Nth; split; [exact Ho|]; now destruct (built o)|].
        unfold mustb. apply andb_true_intro. split.
        * apply accepts_existsb. rewrite (built_tk utf8 Hutf8). apply accepts_range. auto.
        * apply plainb_iff. rewrite (built_tk utf8 Hutf8). apply carries_iff in Hc. unfold plainly, built_key.
          cbn [k_single k_tags k_time t_min t_max]. rewrite Hc.
          split; [|split; [discriminate|lia]]. intros x t' [<-|[]] Ht'. exact Ht'.
  Qed.
End Bench.

Lemma amount_one P a b : amount P a -> amount P b -> a = b.
Proof.
  intros (l & N1 & H1 & <-) (l' & N2 & H2 & <-). apply Permutation_length, NoDup_Permutation; auto.
  intros x. now rewrite H1, H2.
Qed.
Lemma amount_ext P Q a : (forall i, P i <-> Q i) -> amount P a -> amount Q a.
Proof. intros E (l & H1 & H2 & H3). exists l. split; [exact H1|]. split; [|exact H3]. intros i. now rewrite <- E. Qed.
Lemma amount_below (P : nat -> Prop) (f : nat -> nat) : f 0 = 0 ->
  (forall n, P n /\ f (S n) = S (f n) \/ ~ P n /\ f (S n) = f n) ->
  forall n, amount (fun i => i < n /\ P i) (f n).
Proof.
  intros H0 Hs. induction n as [|n IH].
  - exists []. split; [constructor|]. split; [|now rewrite H0]. intros i. split; [intros []|lia].
  - destruct IH as (l & N & Hl & Hlen). destruct (Hs n) as [[Hp ->]|[Hp ->]].
    + exists (n :: l). split; [constructor; [|exact N]|].
      * intros Hi. apply Hl in Hi. lia.
      * split; [|cbn; now rewrite Hlen]. intros i. cbn [In]. rewrite Hl. split.
        -- intros [<-|[H1 H2]]; split; auto; lia.
        -- intros [H1 H2]. destruct (Nat.eq_dec n i); [now left|right]. split; [lia|exact H2].
    + exists l. split; [exact N|]. split; [|exact Hlen]. intros i. rewrite Hl. split.
      * intros [H1 H2]. split; auto; lia.
      * intros [H1 H2]. split; [|exact H2]. destruct (Nat.eq_dec n i) as [<-|]; [easy|lia].
Qed.

Lemma div_iff m n : m <> 0 -> Nat.divide m n <-> n mod m = 0.
Proof. intros H. symmetry. now apply Nat.mod_divide. Qed.
Lemma carries_fizz i : carries fizz i <-> i mod 3 = 0 /\ i mod 5 <> 0.
Proof.
  unfold carries. rewrite !div_iff by lia. split; [|tauto].
  intros [[? _]|[[_ H]|[[? _]|[? _]]]]; try discriminate. exact H.
Qed.
Lemma carries_fizzbuzz i : carries fizzbuzz i <-> i mod 3 = 0 /\ i mod 5 = 0.
Proof.
  unfold carries. rewrite !div_iff by lia. split; [|tauto].
  intros [[_ H]|[[? _]|[[? _]|[? _]]]]; try discriminate. exact H.
Qed.

Lemma by15 (P : nat -> Prop) : (forall a b, b < 15 -> P (b + a * 15)) -> forall n, P n.
Proof.
  intros H n. rewrite (Nat.div_mod_eq n 15), Nat.add_comm, Nat.mul_comm. apply H. apply Nat.mod_upper_bound. lia.
Qed.
Lemma mod_off a b c d : c <> 0 -> (b + a * (d * c)) mod c = b mod c.
Proof. intros H. rewrite Nat.mul_assoc. now apply Nat.mod_add. Qed.
Lemma div_off a b c d : c <> 0 -> (b + a * (d * c)) / c = b / c + a * d.
Proof. intros H. rewrite Nat.mul_assoc. now apply Nat.div_add. Qed.

Lemma fizz_amount n : amount (fun i => i < n /\ carries fizz i) ((n + 2) / 3 - (n + 14) / 15).
Proof.
  apply (amount_below (carries fizz) (fun n => (n + 2) / 3 - (n + 14) / 15)); [reflexivity|].
  intros k. rewrite carries_fizz. revert k. apply by15. intros a b Hb.
  replace (S (b + a * 15) + 2) with (S b + 2 + a * (5 * 3)) by lia. replace (b + a * 15 + 2) with (b + 2 + a * (5 * 3)) by lia.
  replace (S (b + a * 15) + 14) with (S b + 14 + a * (1 * 15)) by lia. replace (b + a * 15 + 14) with (b + 14 + a * (1 * 15)) by lia.
  rewrite (mod_off a b 3 5 ltac:(lia) : (b + a * 15) mod 3 = _), (mod_off a b 5 3 ltac:(lia) : (b + a * 15) mod 5 = _), !div_off by lia.
  do 15 (destruct b as [|b]; [cbn -[Nat.sub Nat.mul]; first [left; split; [split; lia|lia] | right; split; [intros [? ?]; lia|lia]]|]). lia.
Qed.
Lemma fizzbuzz_amount n : amount (fun i => i < n /\ carries fizzbuzz i) ((n + 14) / 15).
Proof.
  apply (amount_below (carries fizzbuzz) (fun n => (n + 14) / 15)); [reflexivity|].
  intros k. rewrite carries_fizzbuzz. revert k. apply by15. intros a b Hb.
  replace (S (b + a * 15) + 14) with (S b + 14 + a * (1 * 15)) by lia. replace (b + a * 15 + 14) with (b + 14 + a * (1 * 15)) by lia.
  rewrite (mod_off a b 3 5 ltac:(lia) : (b + a * 15) mod 3 = _), (mod_off a b 5 3 ltac:(lia) : (b + a * 15) mod 5 = _), !div_off by lia.
  do 15 (destruct b as [|b]; [cbn -[Nat.sub Nat.mul]; first [left; split; [split; lia|lia] | right; split; [intros [? ?]; lia|lia]]|]). lia.
Qed.

Section Theorems.
  Variable utf8 : bytes -> bool.
  Hypothesis Hutf8 : forall t, In t cli_tags -> utf8 t = true.
  Context {V L : Type} (v_enc : V -> cbor) (v_dec : cbor -> option V)
    (l_eqb : L -> L -> bool) (l_cid : L -> bytes) (l_of : bytes -> option L) (nonce : bytes).
  Notation TT := (tag_types utf8 cli_tags v_enc v_dec l_eqb l_cid l_of nonce).
  Variable value : nat -> V.
  Notation built := (built utf8 v_enc v_dec l_eqb l_cid l_of nonce value).
  Notation bench := (cmd_bench utf8 v_enc v_dec l_eqb l_cid l_of nonce value).
  Context {TL : TypesLaws TT} {X : Ext} {XL : ExtLaws X} {B : Backend TT} {BL : BackendLaws TT B} {RR : ReliableReads TT B}.

  (** A store where every block is filed under its digest, with nothing in the cache
      and nothing written by this program. *)
  Definition opened_store (fo : @Forest TT B) : Prop :=
    (forall l b, @sblocks TT B (fo_store fo) l = Some b -> l = digest b) /\ (forall l b, ~ cin (fo_cache fo) l b) /\ fo_log fo = [].

  (** bench prints the number of the entries with the tag fizz, and of those with the
      tag fizzbuzz in the first tenth. If it does not, then writing the entries has
      failed, and nothing is printed; it never ends with a failed assertion. *)
  Theorem C96_bench index_pass value_pass count fo ns r fo' :
    opened_store fo -> (N.of_nat count <= two64)%N -> small_branches fo' ->
    bench index_pass value_pass count fo = (ns, r, fo') ->
    (r = Ok tt /\ exists n m, ns = [n; m]
       /\ amount (fun i => i < count /\ carries fizz i) n
       /\ amount (fun i => i < count /\ carries fizzbuzz i /\ i <= count / 10) m)
    \/ (ns = [] /\ r <> Ok tt /\ no_assert r
        /\ fst (fst (@extend TT X B fo (builder_new config_debug_fast (cli_secrets index_pass value_pass)) (map built (seq 0 count)))) = r).
  Proof.
    intros (Hd & Hc & Hl) Hn Hs E. unfold cmd_bench in E.
    destruct (bench_ok _ _ _ _ _ _ _ _ _ _ _ _ _ RR
      (dnf_near utf8 cli_tags cli_few v_enc v_dec l_eqb l_cid l_of nonce query_common)
      (dnf_near utf8 cli_tags cli_few v_enc v_dec l_eqb l_cid l_of nonce (query_rare count)) Hd Hc Hl Hs E)
      as [(-> & f1 & f2 & -> & W1 & W2 & W3 & W4)|H]; [left|right; exact H].
    split; [reflexivity|]. exists (List.length f1), (List.length f2). split; [reflexivity|].
    apply (amount_of utf8 Hutf8) in W1; [|exact W2]. apply (amount_of utf8 Hutf8) in W3; [|exact W4]. split.
    - eapply amount_ext; [|exact W1]. intros i. split; [tauto|]. intros [H1 H2]. split; [exact H1|]. split; [exact H2|]. lia.
    - eapply amount_ext; [|exact W3]. intros i. split; (intros (H1 & H2 & H3); split; [exact H1|]; split; [exact H2|]; lia).
  Qed.

  (** The numbers are these. *)
  Theorem C96_numbers index_pass value_pass count fo ns fo' :
    opened_store fo -> (N.of_nat count <= two64)%N -> small_branches fo' ->
    bench index_pass value_pass count fo = (ns, Ok tt, fo') ->
    ns = [(count + 2) / 3 - (count + 14) / 15; if count =? 0 then 0 else count / 150 + 1].
  Proof.
    intros Ho Hn Hs E. destruct (C96_bench _ _ _ _ _ _ _ Ho Hn Hs E) as [(_ & n & m & -> & A1 & A2)|(_ & H & _)]; [|now destruct H].
    rewrite (amount_one _ _ _ A1 (fizz_amount count)). f_equal. f_equal. eapply amount_one; [exact A2|].
    destruct (Nat.eqb_spec count 0) as [->|Hc].
    - exists []. split; [constructor|]. split; [|reflexivity]. intros i. split; [intros []|lia].
    - assert (D : count / 10 < count) by (apply Nat.div_lt; lia).
      eapply amount_ext; [|replace (count / 150 + 1) with ((S (count / 10) + 14) / 15); [apply fizzbuzz_amount|]].
      + intros i. split; intros H; splits; try apply H; lia.
      + replace (S (count / 10) + 14) with (count / 10 + 1 * 15) by lia. rewrite Nat.div_add by lia. rewrite Nat.div_div by lia. reflexivity.
  Qed.
End Theorems.

(** Twenty entries, with passphrases; and a store that is too small. *)
Definition fbench (room : N) (count : nat) :=
  cmd_bench tutf8 CUint dec_uint bytes_eqb (fun l => l) Some [] N.of_nat (Some [x61]) (Some [x62]) count
    ({| fo_store := ((room, []) : @Store FT FBackend); fo_cache := ([] : @Cache FT FBackend); fo_log := [] |} : @Forest FT FBackend).
Definition fbench_is (room : N) (count : nat) (ns : list nat) (good : bool) : bool :=
  let '(ns', r, fo) := fbench room count in
  (if list_eq_dec Nat.eq_dec ns ns' then true else false) && Bool.eqb good (match r with Ok _ => true | _ => false end) && fsmallb fo.

Example C96_case :
  (exists fo', fbench 1000000 20 = ([5; 1], Ok tt, fo') /\ small_branches fo')
  /\ (exists r fo', fbench 10 20 = ([], r, fo') /\ r <> Ok tt /\ small_branches fo')
  /\ (exists fo', fbench 0 0 = ([0; 0], Ok tt, fo') /\ small_branches fo')
  /\ (forall room, opened_store tutf8 CUint dec_uint bytes_eqb (fun l => l) Some [] 
        {| fo_store := ((room, []) : @Store FT FBackend); fo_cache := ([] : @Cache FT FBackend); fo_log := [] |}).
Proof.
  assert (P : fbench_is 1000000 20 [5; 1] true = true /\ fbench_is 10 20 [] false = true /\ fbench_is 0 0 [0; 0] true = true)
    by (vm_compute; repeat split).
  assert (Q : forall room count ns good, fbench_is room count ns good = true ->
    exists r fo', fbench room count = (ns, r, fo') /\ small_branches fo' /\ (if good then r = Ok tt else r <> Ok tt)).
  { intros room count ns good. unfold fbench_is. destruct (fbench room count) as [[ns' r] fo]. intros H.
    apply andb_prop in H as [H H3]. apply andb_prop in H as [H1 H2]. destruct (list_eq_dec Nat.eq_dec ns ns') as [<-|]; [|discriminate].
    exists r, fo. split; [reflexivity|]. split; [now apply fsmall_ok|].
    destruct good, r as [[]|e|p|]; try discriminate H2; [reflexivity|discriminate..]. }
  destruct P as (P1 & P2 & P3). apply Q in P1 as (r1 & fo1 & P1 & S1 & ->), P2 as (r2 & fo2 & P2 & S2 & N2), P3 as (r3 & fo3 & P3 & S3 & ->).
  split; [exists fo1; auto|]. split; [exists r2, fo2; auto|]. split; [exists fo3; auto|].
  intros room. split; [intros l b H; discriminate|]. split; [intros l b H; exact H|reflexivity].
Qed.

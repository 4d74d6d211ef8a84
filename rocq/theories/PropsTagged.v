(** C78: streams of events with time and tags ([TT] of banyan-utils), end to end. *)
From Coq Require Import List NArith ZArith Arith Lia Bool String Sorted Eqdep_dec.
From Coq Require Import Strings.Byte.
From Verif Require Import Base BaseProofs Cbor CborProofs Types Seq SeqProofs Query QuerySpec World Read Write Api Iter IterFrame History Spec IterSpec Ghost Frame ReadProofs Packable WriteProofs QueryProofs PackProofs RetainProofs RepairProofs NoPurged ApiProofs SysProofs HistProofs IterProofs Instance Example PropsRead PropsQuery PropsIter Tags TagProofs PropsTags PropsKeyTags Compact PropsCompact TagTypes PropsNear.
Import ListNotations.
Open Scope list_scope.

(** * Specification *)

(** The key [k] carries every tag that the query mentions, it has a tag, and its
    time range is not upside down. *)
Definition plainly (q : list key) (k : key) : Prop :=
  (forall x t, In x q -> In t (k_tags x) -> In t (k_tags k))
  /\ k_tags k <> [] /\ (t_min (k_time k) <= t_max (k_time k))%N.

(** * Proofs *)

Lemma sortedb_ok {A} {O : Ord A} (l : list A) : sortedb l = true <-> vs_ok l.
Proof.
  induction l as [|a l IH]; [split; [constructor|reflexivity]|].
  destruct l as [|b l]; [split; [repeat constructor|reflexivity]|].
  change (sortedb (a :: b :: l)) with (match cmp a b with Lt => sortedb (b :: l) | _ => false end). split.
  - destruct (cmp a b) eqn:C; try discriminate. intros H. apply IH in H. constructor; [exact H|].
    constructor; [exact C|]. inversion H as [|? ? _ F]; subst. eapply Forall_impl; [|exact F].
    intros y Y. eapply cmp_trans; [exact C|exact Y].
  - intros H. inversion H as [|? ? S F]; subst. pose proof (Forall_inv F) as C. unfold lt_rel in C. rewrite C. now apply IH.
Qed.

Lemma in_matches {T : Types} (m : nat -> K -> bool) c : forall off o k v,
  In (o, k, v) (matches m off c) <-> off <= o /\ nth_error c (o - off) = Some (Some (k, v)) /\ m o k = true.
Proof.
  induction c as [|e c IH]; intros off o k v; cbn [matches].
  - split; [easy|]. intros (_ & H & _). now destruct (o - off).
  - assert (S1 : In (o, k, v) (matches m (S off) c) <-> off < o /\ nth_error (e :: c) (o - off) = Some (Some (k, v)) /\ m o k = true).
    { rewrite IH. split; intros (H & H1).
      - replace (o - off) with (S (o - S off)) by lia. split; [lia|exact H1].
      - replace (o - off) with (S (o - S off)) in H1 by lia. split; [lia|exact H1]. }
    assert (S0 : off <= o /\ nth_error (e :: c) (o - off) = Some (Some (k, v)) /\ m o k = true
                 <-> (o = off /\ e = Some (k, v) /\ m o k = true)
                     \/ (off < o /\ nth_error (e :: c) (o - off) = Some (Some (k, v)) /\ m o k = true)).
    { split.
      - intros (H & H1 & H2). destruct (Nat.eq_dec o off) as [->|]; [left|right; splits; auto; lia].
        rewrite Nat.sub_diag in H1. injection H1 as ->. auto.
      - intros [(-> & -> & H)|(H & H1)]; [rewrite Nat.sub_diag; auto|split; [lia|exact H1]]. }
    rewrite S0, <- S1. clear S0 S1. destruct e as [[k0 v0]|].
    + destruct (m off k0) eqn:E; cbn [In]; split.
      * intros [H|H]; [injection H as -> -> ->; auto|auto].
      * intros [(-> & H & H1)|H]; [injection H as -> ->; auto|auto].
      * auto.
      * intros [(-> & H & H1)|H]; [injection H as -> ->; congruence|auto].
    + split; [auto|]. intros [(_ & H & _)|H]; [discriminate|exact H].
Qed.

Section Tagged.
  Variable utf8 : bytes -> bool.
  Variable known : list tag.
  Hypothesis Hknown : (Nlen known <= two32)%N.

  Lemma tkey_eq (a b : tkey utf8 known) : tk _ _ a = tk _ _ b -> a = b.
  Proof.
    destruct a as [a pa], b as [b pb]. cbn. intros ->. f_equal. apply UIP_dec, bool_dec.
  Qed.
  Lemma tseq_eq (a b : tseq utf8 known) : ts _ _ a = ts _ _ b -> a = b.
  Proof.
    destruct a as [a pa], b as [b pb]. cbn. intros ->. f_equal. apply UIP_dec, bool_dec.
  Qed.
  Lemma tkey_of_ok k : keyb utf8 known k = true -> exists x, tkey_of utf8 known k = Some x /\ tk _ _ x = k.
  Proof. intros H. unfold tkey_of. destruct (bool_dec _ true) as [p|p]; [eexists; split; reflexivity|contradiction]. Qed.
  Lemma tseq_of_ok s : seqb utf8 known s = true -> exists x, tseq_of utf8 known s = Some x /\ ts _ _ x = s.
  Proof. intros H. unfold tseq_of. destruct (bool_dec _ true) as [p|p]; [eexists; split; reflexivity|contradiction]. Qed.
  Lemma tkey_of_tk x : tkey_of utf8 known (tk _ _ x) = Some x.
  Proof.
    destruct (tkey_of_ok _ (tk_ok _ _ x)) as (y & E & H). rewrite E. f_equal. now apply tkey_eq.
  Qed.
  Lemma tseq_of_ts x : tseq_of utf8 known (ts _ _ x) = Some x.
  Proof.
    destruct (tseq_of_ok _ (ts_ok _ _ x)) as (y & E & H). rewrite E. f_equal. now apply tseq_eq.
  Qed.

  Definition valid (l : list key) : Prop := Forall (fun k => keyb utf8 known k = true) l.

  Lemma valid_map l : valid (map (tk utf8 known) l).
  Proof. apply Forall_forall. intros k H. apply in_map_iff in H as (x & <- & _). apply tk_ok. Qed.

  Lemma valid_key k : keyb utf8 known k = true ->
    vs_ok (k_tags k) /\ forall t, In t (k_tags k) -> utf8 t = true /\ In t known.
  Proof.
    unfold keyb. rewrite andb_true_iff, forallb_forall. intros [H1 H2]. split; [now apply sortedb_ok|].
    intros t Ht. apply H2, andb_prop in Ht as [A C]. split; [exact A|now apply mem_in].
  Qed.
  Lemma valid_few l : valid l -> few_tags (map k_tags l).
  Proof.
    intros H tags N Hin. assert (incl tags known).
    { intros t Ht. apply Hin in Ht as (x & Hx & Ht). apply in_map_iff in Hx as (k & <- & Hk).
      unfold valid in H; rewrite Forall_forall in H. now apply (valid_key _ (H _ Hk)). }
    pose proof (NoDup_incl_length N H0). unfold Nlen in *. lia.
  Qed.
  Lemma valid_keys l : valid l -> keys_ok l.
  Proof.
    intros H. split; [|now apply valid_few]. eapply Forall_impl; [|exact H]. intros k Hk. now apply valid_key.
  Qed.

  (** What a sequence in a tree is. *)
  Definition holds (s : keyseq) (l : list key) : Prop :=
    valid l /\ kseq_from l = Ok s /\ c_to_vec keyseq_compact s = Ok l.

  Lemma from_holds l : valid l -> exists s, holds s l /\ seqb utf8 known s = true.
  Proof.
    intros H. destruct (C74_keyseq l (valid_keys _ H)) as (s & E & Sh). exists s.
    destruct (C74_defaults _ _ _ Sh) as (Tv & _).
    split; [repeat split; auto|]. unfold seqb. rewrite Tv, E.
    apply andb_true_intro. split; [apply forallb_forall; rewrite <- Forall_forall; exact H|]. now destruct (keyseq_eq_dec s s).
  Qed.
  Lemma tseq_holds s : exists l, holds (ts utf8 known s) l.
  Proof.
    destruct s as [s p]. cbn. unfold seqb in p. destruct (c_to_vec keyseq_compact s) as [l| | |] eqn:E; try discriminate.
    apply andb_prop in p as [p1 p2]. exists l. destruct (kseq_from l) as [s'| | |] eqn:E2; try discriminate.
    destruct (keyseq_eq_dec s' s) as [->|]; [|discriminate]. repeat split; auto.
    apply Forall_forall. rewrite <- forallb_forall. exact p1.
  Qed.
  Lemma tseq_from_holds l : holds (ts _ _ (tseq_from utf8 known l)) (map (tk utf8 known) l).
  Proof.
    destruct (from_holds _ (valid_map l)) as (s & H & Hs). unfold tseq_from. destruct H as (H1 & H2 & H3). rewrite H2.
    destruct (tseq_of_ok s Hs) as (x & E & Ex). rewrite E, Ex. repeat split; auto.
  Qed.
  Lemma omapM_tk l : omapM (tkey_of utf8 known) (map (tk utf8 known) l) = Some l.
  Proof. apply omapM_id. apply tkey_of_tk. Qed.
  Lemma tseq_to_holds s l : holds (ts utf8 known s) l -> map (tk utf8 known) (tseq_to utf8 known s) = l.
  Proof.
    intros (H1 & H2 & H3). unfold tseq_to. rewrite H3. assert (E : exists l', l = map (tk utf8 known) l').
    { clear -H1. induction H1 as [|k l Hk _ (l' & ->)]; [now exists []|]. destruct (tkey_of_ok _ Hk) as (x & _ & <-).
      now exists (x :: l'). }
    destruct E as (l' & ->). now rewrite omapM_tk.
  Qed.
  Lemma to_from l : tseq_to utf8 known (tseq_from utf8 known l) = l.
  Proof.
    unfold tseq_to. destruct (tseq_from_holds l) as (_ & _ & ->). now rewrite omapM_tk.
  Qed.
  Lemma to_holds s : holds (ts utf8 known s) (map (tk utf8 known) (tseq_to utf8 known s)).
  Proof. destruct (tseq_holds s) as (l & H). now rewrite (tseq_to_holds _ _ H). Qed.

  (** ** The codec *)

  Lemma dec_nums_id l : omapM dec_u64 (map CUint l) = Some l.
  Proof. now apply omapM_id. Qed.
  Lemma keyseq_codec s l : holds s l -> keyseq_of_cbor utf8 (keyseq_cbor s) = Some s.
  Proof.
    intros (Hv & Hf & _). destruct (kseq_from_eq l) as (s' & E & Hs). rewrite Hf in E. injection E as <-.
    assert (KO := from_ok (map k_tags l) _ (from_eq _)).
    assert (Tg : forall t, In t (all_tags (map k_tags l)) -> utf8 t = true).
    { intros t Ht. apply all_tags_in in Ht as (x & Hx & Ht). apply in_map_iff in Hx as (k & <- & Hk).
      unfold valid in Hv. rewrite Forall_forall in Hv. now apply (valid_key _ (Hv _ Hk)). }
    assert (Fw : (Nlen (all_tags (map k_tags l)) <= two32)%N) by (apply few_all, valid_few, Hv).
    destruct KO as [KT KE]. cbn [ti_tags ti_elements] in KT, KE.
    assert (Ti : ti_of_cbor utf8 (ti_cbor (ks_tags s)) = Some (ks_tags s)).
    { rewrite Hs. cbn [ks_tags]. unfold ti_cbor, ti_of_cbor. cbn [ti_tags ti_elements].
      assert (E1 : dec_vec (dec_string utf8) (cstrings (all_tags (map k_tags l))) = Some (all_tags (map k_tags l))).
      { cbn [cstrings dec_vec]. clear -Tg. induction (all_tags (map k_tags l)) as [|t tl IH]; [reflexivity|].
        cbn [map omapM dec_string]. rewrite Tg by now left. fold (omapM (dec_string utf8) (map CText tl)).
        rewrite IH; [reflexivity|]. intros u Hu. apply Tg. now right. }
      set (es := map (iset (all_tags (map k_tags l))) (map k_tags l)) in *.
      assert (E2 : dec_vec (dec_vec dec_u32) (CArr (map cu32s es)) = Some es).
      { cbn [dec_vec]. clear -KE Fw. induction KE as [|e es [_ He] _ IH]; [reflexivity|]. cbn [map omapM].
        assert (Ee : dec_vec dec_u32 (cu32s e) = Some e).
        { cbn [cu32s dec_vec]. clear -He Fw. induction e as [|n e IH]; [reflexivity|]. cbn [map omapM dec_u32].
          assert (H : (n < two32)%N) by (specialize (He n (or_introl eq_refl)); lia). apply N.ltb_lt in H. rewrite H.
          fold (omapM dec_u32 (map CUint e)). rewrite IH; [reflexivity|]. intros m Hm. apply He. now right. }
        rewrite Ee. fold (omapM (dec_vec dec_u32) (map cu32s es)). now rewrite IH. }
      rewrite E1, E2. cbn [obind]. cbv zeta. rewrite (of_id _ KT).
      assert (E3 : map vs_of es = es).
      { clear -KE. induction KE as [|e es [He _] _ IH]; [reflexivity|]. cbn [map]. now rewrite (of_id _ He), IH. }
      rewrite E3. assert (E4 : forallb (forallb (fun x => (x <? Nlen (all_tags (map k_tags l)))%N)) es = true).
      { apply forallb_forall. intros e He. apply forallb_forall. intros n Hn. apply N.ltb_lt.
        rewrite Forall_forall in KE. now apply (KE e He). }
      now rewrite E4. }
    unfold keyseq_cbor, keyseq_of_cbor, cmap. cbn [map fst snd].
    unfold field. cbn [lookup_field ctext].
    repeat match goal with |- context[bytes_eqb ?a ?b] => let r := eval vm_compute in (bytes_eqb a b) in change (bytes_eqb a b) with r end.
    cbn iota. cbn [obind]. rewrite Ti. cbn [obind dec_vec]. rewrite !dec_nums_id. cbn [obind]. now destruct s.
  Qed.

  (** ** Summaries *)

  Lemma sum_tk s : tseq_to utf8 known s <> [] ->
    kseq_summarize (ts _ _ s) = Ok (tk _ _ (tseq_sum utf8 known s)).
  Proof.
    intros Hne. destruct (to_holds s) as (Hv & Hf & _). set (l := map _ _) in *.
    assert (l <> []) by (unfold l; now destruct (tseq_to utf8 known s)).
    destruct (proj1 (C52_summarize l _ Hf) H) as (m & Em). unfold tseq_sum. rewrite Em.
    assert (Hm : keyb utf8 known m = true).
    { destruct (kseq_from_eq l) as (s' & E & Hs). rewrite Hf in E. injection E as <-.
      unfold kseq_summarize in Em. destruct (list_max _); [|discriminate..]. destruct (list_min _); [|discriminate..].
      destruct (list_min _); [|discriminate..]. cbn in Em. injection Em as <-. unfold keyb. cbn [k_tags]. rewrite Hs. cbn [ks_tags ti_tags].
      apply andb_true_intro. split; [apply sortedb_ok, all_tags_ok|]. apply forallb_forall. intros t Ht.
      apply all_tags_in in Ht as (x & Hx & Ht). apply in_map_iff in Hx as (k & <- & Hk).
      unfold valid in Hv. rewrite Forall_forall in Hv. destruct (proj2 (valid_key _ (Hv _ Hk)) t Ht) as [A C].
      rewrite A. cbn. now apply mem_in. }
    destruct (tkey_of_ok _ Hm) as (x & -> & <-). reflexivity.
  Qed.

  Context {V L : Type} (v_enc : V -> cbor) (v_dec : cbor -> option V)
    (l_eqb : L -> L -> bool) (l_cid : L -> bytes) (l_of : bytes -> option L) (nonce : bytes).
  Notation TT := (tag_types utf8 known v_enc v_dec l_eqb l_cid l_of nonce).
  Notation tkk := (tk utf8 known).

  (** Trees of tagged events meet banyan's requirements on types. *)
  Theorem C78_laws :
    (forall v, v_dec (v_enc v) = Some v) -> (forall l, l_of (l_cid l) = Some l) ->
    (forall a b, l_eqb a b = true <-> a = b) -> TypesLaws TT.
  Proof.
    intros HV HL HE. constructor; cbn -[tseq_to tseq_from keyseq_cbor keyseq_of_cbor]; intros; auto.
    - apply to_from.
    - apply to_from.
    - unfold key_eqb. rewrite !N.eqb_refl. cbn. apply eqb_refl.
    - destruct (tseq_holds k) as (l & H). rewrite (keyseq_codec _ _ H). cbn. apply tseq_of_ts.
    - destruct (tseq_holds s) as (l & H). rewrite (keyseq_codec _ _ H). cbn. apply tseq_of_ts.
  Qed.

  Lemma sums_summary :
    (forall (s : @Sm TT) ks, @sum_of TT s ks -> summary_of (tkk s) (map tkk ks))
    /\ (forall (ss : list (@Sm TT)) kss, @sums_of TT ss kss -> summaries_of (map tkk ss) (map (map tkk) kss)).
  Proof.
    assert (P : forall (s : @Sm TT) ks, @sum_of TT s ks -> summary_of (tkk s) (map tkk ks)).
    { apply (@sum_of_min TT (fun s ks => summary_of (tkk s) (map tkk ks))
               (fun ss kss => summaries_of (map tkk ss) (map (map tkk) kss))).
      - intros ks Hne. cbn in Hne |- *. destruct (to_holds ks) as (_ & Hf & _).
        eapply so_leaf; [|exact Hf|apply sum_tk; exact Hne]. now destruct (tseq_to utf8 known ks).
      - intros ss kss Hne _ IH. cbn in Hne, IH |- *. destruct (to_holds ss) as (_ & Hf & _).
        rewrite concat_map. eapply so_branch; [|exact IH|exact Hf|apply sum_tk; exact Hne]. now destruct (tseq_to utf8 known ss).
      - constructor.
      - intros. now constructor. }
    split; [exact P|]. induction 1; constructor; auto.
  Qed.

  (** ** The query *)

  Definition mayb (q : list key) (k : tkey utf8 known) : bool := existsb (fun x => k_contains x (tkk k)) q.
  Definition plainb (q : list key) (k : key) : bool :=
    forallb (fun x => is_subset (k_tags x) (k_tags k)) q
    && match k_tags k with [] => false | _ => true end && (t_min (k_time k) <=? t_max (k_time k))%N.
  Definition mustb (q : list key) (k : tkey utf8 known) : bool := mayb q k && plainb q (tkk k).

  Lemma plainb_iff q k : plainb q k = true <-> plainly q k.
  Proof.
    unfold plainb, plainly. rewrite !andb_true_iff, forallb_forall, N.leb_le. split.
    - intros ((H1 & H2) & H3). splits; [|now destruct (k_tags k)|exact H3].
      intros x t Hx Ht. apply H1 in Hx. apply subset_incl in Hx. auto.
    - intros (H1 & H2 & H3). splits; [|now destruct (k_tags k)|exact H3].
      intros x Hx. apply subset_incl. intros t Ht. eauto.
  Qed.

  Lemma contains_bits q (s : tseq utf8 known) m : exists r, dq_containing q (ts _ _ s) m = Ok r
    /\ List.length r = List.length m
    /\ forall i b, nth_error m i = Some b -> nth_error r i
         = Some (match nth_error (tseq_to utf8 known s) i with
                 | Some k => b && (if known_dec q (map tkk (tseq_to utf8 known s)) then mayb q k else false)
                 | None => b end).
  Proof.
    destruct (to_holds s) as (Hv & Hf & _). destruct (containing_eq q _ _ m (valid_few _ Hv) Hf) as (r & R & Hl & H).
    exists r. splits; auto. intros i b E. rewrite (H _ _ E), nth_error_map. now destruct (nth_error (tseq_to utf8 known s) i).
  Qed.
  Lemma intersects_bits q (s : tseq utf8 known) m : exists r, dq_intersecting q (ts _ _ s) m = Ok r
    /\ List.length r = List.length m
    /\ forall i b, nth_error m i = Some b -> nth_error r i
         = Some (match nth_error (tseq_to utf8 known s) i with
                 | Some k => b && (if known_dec q (map tkk (tseq_to utf8 known s)) then existsb (fun x => k_intersects x (tkk k)) q else false)
                 | None => b end).
  Proof.
    destruct (to_holds s) as (Hv & Hf & _). destruct (intersecting_eq q _ _ m (valid_few _ Hv) Hf) as (r & R & Hl & H).
    exists r. splits; auto. intros i b E. rewrite (H _ _ E), nth_error_map. now destruct (nth_error (tseq_to utf8 known s) i).
  Qed.

  Lemma dnf_near q : @query_near TT (dnf_query utf8 known v_enc v_dec l_eqb l_cid l_of nonce q)
    (fun _ k => mustb q k) (fun _ k => mayb q k).
  Proof.
    constructor.
    - constructor; cbn; intros off x mask _.
      + now destruct (contains_bits q (li_keys x) mask) as (r & -> & H & _).
      + now destruct (intersects_bits q (bi_sums x) mask) as (r & -> & H & _).
    - cbn [dnf_query q_containing]. intros off x mask i k Hl E1 E2. unfold leaf_keys in *. cbn in Hl, E2.
      destruct (contains_bits q (li_keys x) mask) as (r & R & Hr & H). rewrite R in E1.
      destruct (nth_error mask i) as [b|] eqn:Em.
      + rewrite (H _ _ Em), E2 in E1. injection E1 as E1. apply andb_prop in E1 as [_ E1].
        now destruct (known_dec q _).
      + apply nth_error_None in Em. assert (nth_error r i = None) by (apply nth_error_None; lia). congruence.
    - cbn [dnf_query q_containing]. intros off x mask i k Hl Em E2 Hm. unfold leaf_keys in *. cbn in Hl, E2.
      destruct (contains_bits q (li_keys x) mask) as (r & R & Hr & H). rewrite R.
      rewrite (H _ _ Em), E2. apply andb_prop in Hm as [Hm Hp]. apply plainb_iff in Hp as (Hp & _).
      destruct (known_dec q _) as [_|N]; [now rewrite Hm|]. exfalso. apply N. intros y t Hy Ht. exists (tkk k).
      split; [|eauto]. apply in_map. now apply nth_error_In in E2.
    - cbn [dnf_query q_intersecting]. intros off x mask kss i j ks k Hl Hne Hs _ Em Ek Ej Hm.
      unfold branch_sums in *. cbn in Hl, Hne, Hs.
      destruct (intersects_bits q (bi_sums x) mask) as (r & R & Hr & H). rewrite R.
      rewrite (H _ _ Em). clear R H r Hr.
      assert (Hsum : exists m, nth_error (tseq_to utf8 known (bi_sums x)) i = Some m /\ @sum_of TT m ks).
      { clear -Hs Ek. revert i Ek. induction Hs as [|s ss ks0 kss H _ IH]; intros [|i] E; try discriminate; [|now apply IH].
        injection E as ->. exists s. now split. }
      destruct Hsum as (m & E1 & Hsum). rewrite E1. apply (proj1 sums_summary) in Hsum.
      destruct (C52_covers _ _ Hsum) as (Cv & _). specialize (Cv (tkk k) ltac:(apply in_map; now apply nth_error_In in Ej)).
      destruct Cv as (_ & C1 & C2 & C3).
      apply andb_prop in Hm as [Hm Hp]. apply plainb_iff in Hp as (Hp1 & Hp2 & Hp3).
      destruct (known_dec q _) as [_|N].
      + cbn. f_equal. unfold mayb in Hm. apply existsb_exists in Hm as (y & Hy & Hc). apply existsb_exists. exists y.
        split; [exact Hy|]. unfold k_contains in Hc. apply andb_prop in Hc as [Hc1 Hc2]. apply superset_incl in Hc2.
        apply t_contains_iff in Hc1. unfold k_intersects. apply andb_true_intro. split; [apply t_intersects_iff; lia|].
        apply negb_true_iff, disjoint_false. destruct (k_tags (tkk k)) as [|t tl] eqn:Et; [contradiction|].
        exists t. split; [apply Hc2; now left|apply C3; now left].
      + exfalso. apply N. intros y t Hy Ht. exists (tkk m). split; [apply in_map; now apply nth_error_In in E1|].
        apply C3. eauto.
  Qed.
End Tagged.

(** The codec of the table of tags in a block is the one of C47. *)
Lemma ti_cbor_bytes ti : enc (ti_cbor ti) = ti_encode ti.
Proof.
  unfold ti_cbor, ti_encode. change (enc (CArr [?a; ?b])) with (enc (CArr [a; b])).
  set (a := cstrings (ti_tags ti)). set (b := CArr (map cu32s (ti_elements ti))).
  assert (E : enc (CArr [a; b]) = Byte.x82 :: (enc a ++ enc b ++ [])) by reflexivity. now rewrite E, app_nil_r.
Qed.

Lemma within_sorted {T : Types} m c : forall off a, within a (matches m off c) ->
  Forall (fun x => off <= fst (fst x)) a /\ StronglySorted lt (map (fun x => fst (fst x)) a).
Proof.
  assert (P : forall off, Forall (fun x => off <= fst (fst x)) (matches m off c)
             /\ StronglySorted lt (map (fun x => fst (fst x)) (matches m off c))).
  { induction c as [|e c IH]; intros off; cbn [matches]; [split; constructor|].
    destruct (IH (S off)) as (H1 & H2).
    assert (H3 : Forall (fun x : nat * K * V => off <= fst (fst x)) (matches m (S off) c)).
    { eapply Forall_impl; [|exact H1]. cbn. intros; lia. }
    destruct e as [[k v]|]; [|now split]. destruct (m off k); [|now split]. cbn [map]. split; constructor; auto.
    apply Forall_map. eapply Forall_impl; [|exact H1]. cbn. intros; lia. }
  intros off a H. destruct (P off) as (P1 & P2). clear P. split.
  - apply Forall_forall. intros x Hx. rewrite Forall_forall in P1. apply P1. eapply within_in; eauto.
  - revert P2. clear P1. induction H as [|x a b H IH|x a b H IH]; cbn [map]; intros S; [constructor| |]; inversion S as [|? ? S' F]; subst; auto.
    constructor; auto. apply Forall_forall. intros y Hy. rewrite Forall_forall in F. apply F.
    apply in_map_iff in Hy as (z & <- & Hz). apply (in_map (fun x => fst (fst x))). eapply within_in; eauto.
Qed.

Section Search.
  Variable utf8 : bytes -> bool.
  Variable tags : list tag.
  Hypothesis Htags : (Nlen tags <= two32)%N.
  Context {V L : Type} (v_enc : V -> cbor) (v_dec : cbor -> option V)
    (l_eqb : L -> L -> bool) (l_cid : L -> bytes) (l_of : bytes -> option L) (nonce : bytes).
  Notation TT := (tag_types utf8 tags v_enc v_dec l_eqb l_cid l_of nonce).
  #[local] Hint Extern 0 Types => exact TT : typeclass_instances.
  Notation dnf := (dnf_query utf8 tags v_enc v_dec l_eqb l_cid l_of nonce).
  Notation tkk := (tk utf8 tags).
  Context {TL : TypesLaws TT} {X : Ext} {XL : ExtLaws X} {B : Backend TT} {BL : BackendLaws TT B}.
  Variable cfg : Config.
  Variable sec : Secrets.
  Hypothesis Hcfg : config_ok cfg.

  Lemma found_ok q c a : within a (matches (fun _ k => mayb utf8 tags q k) 0 c) ->
    StronglySorted lt (map (fun x => fst (fst x)) a)
    /\ forall o k v, In (o, k, v) a -> nth_error c o = Some (Some (k, v)) /\ accepts q (tkk k).
  Proof.
    intros H. split; [now apply within_sorted in H|]. intros o k v Hi. eapply within_in in Hi; [|exact H].
    apply in_matches in Hi as (_ & H1 & H2). rewrite Nat.sub_0_r in H1. split; [exact H1|]. now apply accepts_existsb.
  Qed.

  (** Whatever a query finds, in any state of the store, is an entry that the query
      accepts, in order, forwards and backwards. *)
  Theorem C78_found {E} s t q (mk : node_info -> E) :
    reach anything cfg sec s -> known s t ->
    exists c cs, answers (sy_fo s) t c
      /\ StronglySorted lt (map (fun x => fst (fst x)) (flat_map c_data cs))
      /\ (forall o k v, In (o, k, v) (flat_map c_data cs) -> nth_error c o = Some (Some (k, v)) /\ accepts q (tkk k))
      /\ (forall rs s' it', pulls anything s (iter_filtered_chunked t (dnf q) mk) rs s' it' -> follows cs rs)
      /\ (forall rs s' it', pulls anything s (iter_filtered_chunked_reverse t (dnf q) mk) rs s' it' -> follows (rev cs) rs).
  Proof.
    intros R Kn. destruct (C77_near cfg sec Hcfg s t (dnf q) _ _ mk R Kn (dnf_near utf8 tags Htags _ _ _ _ _ _ q))
      as (c & cs & H1 & _ & H2 & H3 & H4).
    destruct (found_ok _ _ _ H2) as (H5 & H6). exists c, cs. splits; auto.
  Qed.

  (** Full statement: it finds all entries that it accepts. Not so: C78_refuted.
      It finds those that carry all the tags of the query. *)
  Theorem C78_exact_partial s t q (RR : ReliableReads TT B) :
    reach no_loss cfg sec s -> known s t -> small_branches (sy_fo s) ->
    exists c found enough, answers_all (sy_fo s) t c
      /\ StronglySorted lt (map (fun x => fst (fst x)) found)
      /\ (forall o k v, In (o, k, v) found -> nth_error c o = Some (Some (k, v)) /\ accepts q (tkk k))
      /\ (forall o k v, nth_error c o = Some (Some (k, v)) -> accepts q (tkk k) -> plainly q (tkk k) -> In (o, k, v) found)
      /\ forall n rs fo' it', enough <= n ->
           take_chunks n (sy_fo s) (iter_filtered_chunked t (dnf q) (fun _ => tt)) = (rs, fo', it') ->
           flatten_chunks rs = map Ok found.
  Proof.
    intros R Kn Hs. destruct (C77_total cfg sec Hcfg s t (dnf q) _ _ RR R Kn Hs (dnf_near utf8 tags Htags _ _ _ _ _ _ q))
      as (c & found & enough & H1 & H2 & H3 & H4).
    destruct (found_ok _ _ _ H3) as (H5 & H6). exists c, found, enough. splits; auto.
    intros o k v Ho Ha Hp. eapply within_in; [exact H2|]. apply in_matches. rewrite Nat.sub_0_r. splits; auto; [lia|].
    unfold mustb. apply andb_true_intro. split; [|now apply plainb_iff]. now apply accepts_existsb.
  Qed.
End Search.

(** * A concrete tagged stream *)

Definition tg1 : tag := [x61]. Definition tg2 : tag := [x62].
Definition ttags : list tag := [tg1; tg2].
Definition tutf8 (b : bytes) : bool := forallb (fun x => (Byte.to_N x <? 128)%N) b.
Definition GT : Types := tag_types tutf8 ttags CUint dec_uint bytes_eqb (fun l => l) Some [].
#[local] Hint Extern 0 Types => exact GT : typeclass_instances.

Lemma ttags_few : (Nlen ttags <= two32)%N.
Proof. vm_compute. discriminate. Qed.
#[export] Instance GTL : TypesLaws GT.
Proof. apply C78_laws; [exact ttags_few|reflexivity|reflexivity|apply bytes_eqb_eq]. Qed.

#[export] Instance GBackend : Backend GT := {
  Store := IStore;
  sblocks := fun s l => if existsb (bytes_eqb l) (snd s) then Some l else None;
  sget := fun s l => (if existsb (bytes_eqb l) (snd s) then Some l else None, s);
  sput := fun s d =>
    if (fst s <? Nlen d)%N then (None, s)
    else (Some d, ((fst s - Nlen d)%N, d :: snd s));
  digest := fun b => b;
  Cache := list (bytes * @Branch GT);
  cin := fun c l b => In (l, b) c;
  cget := fun c l =>
    (match find (fun p => bytes_eqb (fst p) l) c with Some (_, b) => Some b | None => None end, c);
  cput := fun c l b => (l, b) :: c
}.

#[export] Instance GBackendLaws : BackendLaws GT GBackend.
Proof.
  constructor; cbn; intros.
  - assumption.
  - injection H as <- <-. exact H0.
  - injection H as <- <-. auto.
  - injection H as H <-. exact H.
  - destruct (fst s <? Nlen d)%N; injection H as <- <-; [exact H0|]. cbn.
    destruct (bytes_eqb x d); [|exact H0]. cbn.
    destruct (existsb (bytes_eqb x) (snd s)); [exact H0|discriminate].
  - destruct (fst s <? Nlen d)%N; injection H as <- <-; [auto|]. cbn in H0.
    destruct (bytes_eqb x d); cbn in H0; [injection H0 as <-|]; auto.
  - destruct (fst s <? Nlen d)%N; [discriminate|]. injection H as <- <-. split; [reflexivity|].
    cbn. assert (bytes_eqb d d = true) by now apply bytes_eqb_eq. now rewrite H.
  - destruct (find (fun p => bytes_eqb (fst p) l) c) as [[l' b']|] eqn:F; [|discriminate].
    injection H as <- <-. apply find_some in F. cbn in F. destruct F as [F E].
    apply bytes_eqb_eq in E. now subst.
  - injection H as _ <-. assumption.
  - destruct H as [H|H]; [|auto]. injection H as <- <-. auto.
Qed.
#[export] Instance GReliable : ReliableReads GT GBackend.
Proof. constructor. now intros. Qed.

Notation gsys := (@sys GT GBackend).
Definition gfresh : gsys :=
  {| sy_fo := {| fo_store := ((1000000%N, []) : @Store GT GBackend); fo_cache := ([] : @Cache GT GBackend); fo_log := [] |};
     sy_se := {| se_b := builder_new ecfg esec; se_saved := [] |};
     sy_snaps := [] |}.
Definition gkey (t : N) (tags : list tag) : tkey tutf8 ttags :=
  match tkey_of tutf8 ttags (k_single t t tags) with Some k => k | None => tkey0 _ _ end.
Definition gentries (a n : nat) : list (@K GT * @V GT) :=
  map (fun i => (gkey (N.of_nat i) (match Nat.modulo i 3 with 0 => [tg1] | 1 => [tg2] | _ => [tg1; tg2] end),
                 N.of_nat (100 + i))) (seq a n).
Definition gstep (o : @op GT GBackend) (s : gsys) : gsys := snd (exec o s).
Definition gst : gsys := gstep OSnapshot (gstep (OExtendUnpacked (gentries 5 4)) (gstep (OExtend (gentries 0 5)) gfresh)).
Definition gtree : @Tree GT := snapshot (sy_b gst).
Definition gdnf (q : list key) : @Query GT := dnf_query tutf8 ttags CUint dec_uint bytes_eqb (fun l => l) Some [] q.
Definition gfound (q : list key) : list (res (nat * list tag * N)) :=
  map (fun r => match r with Ok (o, k, v) => Ok (o, k_tags (tk _ _ k), v) | Err e => Err e | Panic e => Panic e | NoFuel => NoFuel end)
    (flatten_chunks (fst (fst (take_chunks 100 (sy_fo gst) (iter_filtered_chunked gtree (gdnf q) (fun _ => tt)))))).

Lemma gstep_reach o s : match o with OExtend _ | OExtendUnpacked _ | OSnapshot => True | _ => False end ->
  reach no_loss ecfg esec s -> reach no_loss ecfg esec (gstep o s).
Proof.
  intros Ho (s0 & S0 & H). exists s0. split; [exact S0|]. unfold gstep. destruct (exec o s) as [r s1] eqn:Ex.
  eapply hist_step; [exact H| | |exact Ex]; destruct o; easy.
Qed.
Lemma gst_ok : reach no_loss ecfg esec gst.
Proof. repeat (apply gstep_reach; [exact Logic.I|]). exists gfresh. split; [splits; easy|constructor]. Qed.
Definition gsmallb (fo : @Forest GT GBackend) : bool :=
  forallb (fun e => ev_leaf e || (Nlen (ev_raw e) <=? max_capacity)%N) (fo_log fo).
Lemma gsmall_ok fo : gsmallb fo = true -> small_branches fo.
Proof.
  unfold gsmallb, small_branches. rewrite forallb_forall, Forall_forall. intros H e He.
  apply H, orb_prop in He as [He|He]; [now left|right]. now apply N.leb_le.
Qed.

(** Nine entries: a query for both tags, and one for a time range and one tag. *)
Example C78_case :
  reach no_loss ecfg esec gst /\ known gst gtree /\ small_branches (sy_fo gst)
  /\ (forall k v, nth_error (gentries 0 9) 5 = Some (k, v) -> plainly [k_filter [tg1; tg2]] (tk _ _ k))
  /\ gfound [k_filter [tg1; tg2]]
     = [Ok (0, [tg1], 100%N); Ok (1, [tg2], 101%N); Ok (2, [tg1; tg2], 102%N); Ok (3, [tg1], 103%N);
        Ok (5, [tg1; tg2], 105%N); Ok (6, [tg1], 106%N); Ok (7, [tg2], 107%N); Ok (8, [tg1; tg2], 108%N)]
  /\ gfound [k_range 3 8 [tg1]] = [Ok (3, [tg1], 103%N); Ok (6, [tg1], 106%N)].
Proof.
  splits; [exact gst_ok|now left|apply gsmall_ok; vm_compute; reflexivity| |vm_compute; reflexivity|vm_compute; reflexivity].
  intros k v E. apply plainb_iff. revert E. set (e := nth_error _ _). vm_compute in e. subst e. intros E. injection E as <- _. vm_compute. reflexivity.
Qed.

(** The entry 4 has the second tag and stands in a leaf where no entry has the
    first: the query for both tags accepts it and does not find it. The query
    has come to its end. *)
Theorem C78_refuted :
  exists c o k v rs fo' it',
    reach no_loss ecfg esec gst /\ known gst gtree /\ small_branches (sy_fo gst)
    /\ reads (sy_fo gst) gtree c /\ nth_error c o = Some (Some (k, v))
    /\ accepts [k_filter [tg1; tg2]] (tk _ _ k)
    /\ take_chunks 100 (sy_fo gst) (iter_filtered_chunked gtree (gdnf [k_filter [tg1; tg2]]) (fun _ => tt)) = (rs, fo', it')
    /\ List.length rs < 100 /\ ~ In (Ok (o, k, v)) (flatten_chunks rs).
Proof.
  set (k4 := gkey 4 [tg2]).
  destruct (take_chunks 100 (sy_fo gst) (iter_filtered_chunked gtree (gdnf [k_filter [tg1; tg2]]) (fun _ => tt)))
    as [[rs fo'] it'] eqn:E.
  exists (map Some (gentries 0 9)), 4, k4, 104%N, rs, fo', it'.
  splits; [exact gst_ok|now left|apply gsmall_ok; vm_compute; reflexivity| | | |reflexivity| |].
  - unfold reads. assert (H : fst (collect (sy_fo gst) gtree) = Ok (map Some (gentries 0 9))) by (vm_compute; reflexivity).
    destruct (collect (sy_fo gst) gtree) as [r fo1]. cbn in H. subst r. eauto.
  - vm_compute. reflexivity.
  - apply accepts_existsb. vm_compute. reflexivity.
  - apply (f_equal (fun x => List.length (fst (fst x)))) in E. cbn [fst] in E. rewrite <- E. apply Nat.ltb_lt. vm_compute. reflexivity.
  - intros H. apply (f_equal (fun x => map (fun r => match r with Ok (o, _, _) => o | _ => 0 end) (flatten_chunks (fst (fst x))))) in E.
    cbn [fst] in E. apply (in_map (fun r => match r with Ok (o, _, _) => o | _ => 0 end)) in H. rewrite <- E in H. clear E.
    set (l := map _ _) in H. vm_compute in l. subst l. cbn in H. lia.
Qed.

(** C95: the command filter finds the entries that build has given a tag. *)
From Coq Require Import List NArith ZArith Lia Bool String Arith Sorted.
From Coq Require Import Strings.Byte.
From Verif Require Import Base BaseProofs Cbor CborProofs Types Seq SeqProofs Query QuerySpec World Read Write Api Iter IterFrame History Spec IterSpec Ghost Frame ReadProofs Packable WriteProofs QueryProofs PackProofs RetainProofs RepairProofs NoPurged ApiProofs SysProofs HistProofs IterProofs Instance Example PropsRead PropsQuery PropsRefine PropsConfig PropsIter Tags TagProofs PropsTags PropsKeyTags Compact PropsCompact TagTypes PropsNear PropsTagged DumpTree Cli Commands PropsCommands ReadCommands PropsReadCommands TagCommands.
Import ListNotations.
Open Scope list_scope.

(** * Specification *)

(** The tag that build gives to its entry number [i]. *)
Definition carries (t : tag) (i : nat) : Prop :=
  t = fizzbuzz /\ Nat.divide 3 i /\ Nat.divide 5 i
  \/ t = fizz /\ Nat.divide 3 i /\ ~ Nat.divide 5 i
  \/ t = buzz /\ ~ Nat.divide 3 i /\ Nat.divide 5 i
  \/ t = other /\ ~ Nat.divide 3 i /\ ~ Nat.divide 5 i.

(** The numbers of the entries are u64. *)
Definition offsets_fit (tr : list (command * bool)) : Prop :=
  Forall (fun x => match fst x with Build _ batches count _ => (N.of_nat (batches * count) <= two64)%N | _ => True end) tr.

(** * Proofs *)
Lemma carries_iff t i : carries t i <-> tags_from_offset i = [t].
Proof.
  unfold carries, tags_from_offset, tagger_tags.
  assert (D : forall n, n <> 0 -> Nat.eqb (i mod n) 0 = true <-> Nat.divide n i)
    by (intros n Hn; rewrite Nat.eqb_eq; now apply Nat.mod_divide).
  pose proof (D 3 ltac:(lia)) as D3. pose proof (D 5 ltac:(lia)) as D5. clear D.
  rewrite <- D3, <- D5. clear D3 D5.
  assert (O : forall x : tag, vs_of [x] = [x]) by reflexivity. rewrite !O.
  assert (Inj : forall x : tag, [x] = [t] <-> t = x) by (intros x; split; [now intros [= ->]|now intros ->]).
  destruct (Nat.eqb (i mod 3) 0), (Nat.eqb (i mod 5) 0); cbn [andb]; rewrite Inj; intuition congruence.
Qed.

Lemma cli_few : (Nlen cli_tags <= two32)%N.
Proof. vm_compute. discriminate. Qed.

Section Filter.
  Variable utf8 : bytes -> bool.
  Hypothesis Hutf8 : forall t, In t cli_tags -> utf8 t = true.
  Context {V L : Type} (v_enc : V -> cbor) (v_dec : cbor -> option V)
    (l_eqb : L -> L -> bool) (l_cid : L -> bytes) (l_of : bytes -> option L) (nonce : bytes).
  Notation TT := (tag_types utf8 cli_tags v_enc v_dec l_eqb l_cid l_of nonce).
  Variable value : nat -> V.
  Notation built := (built utf8 v_enc v_dec l_eqb l_cid l_of nonce value).
  Notation tkk := (tk utf8 cli_tags).
  Notation dnf := (dnf_query utf8 cli_tags v_enc v_dec l_eqb l_cid l_of nonce).
  Notation filter_tags := (cmd_filter_tags utf8 v_enc v_dec l_eqb l_cid l_of nonce).

  Lemma tags_one i : exists t, tags_from_offset i = [t] /\ In t cli_tags.
  Proof.
    unfold tags_from_offset, tagger_tags, cli_tags. assert (O : forall x : tag, vs_of [x] = [x]) by reflexivity. rewrite !O.
    destruct (Nat.eqb (i mod 3) 0), (Nat.eqb (i mod 5) 0); cbn [andb]; eexists; (split; [reflexivity|cbn [In]; auto]).
  Qed.
  Lemma built_tk i : tkk (fst (built i)) = built_key i.
  Proof.
    unfold TagCommands.built. cbn [fst]. destruct (tkey_of_ok utf8 cli_tags (built_key i)) as (x & -> & E); [|exact E].
    unfold keyb, built_key. cbn [k_tags k_single]. destruct (tags_one i) as (t & -> & Ht). cbn [sortedb forallb andb].
    rewrite (Hutf8 _ Ht). cbn [andb]. rewrite andb_true_r. now apply mem_in.
  Qed.
  Lemma built_inj i j : built i = built j -> i = j.
  Proof.
    intros E. apply (f_equal (fun x => t_min (k_time (tkk (fst x))))) in E. rewrite !built_tk in E. cbn in E. lia.
  Qed.

  (** The entry number [i] of build: its time is [i], it has one tag, and its value
      is the one for [i]. *)
  Theorem C95_entry i : exists t, carries t i /\ k_tags (tkk (fst (built i))) = [t]
    /\ k_time (tkk (fst (built i))) = {| t_lamport := N.of_nat i; t_min := N.of_nat i; t_max := N.of_nat i |}
    /\ snd (built i) = value i.
  Proof.
    destruct (tags_one i) as (t & Et & _). exists t. rewrite built_tk. split; [now apply carries_iff|].
    split; [exact Et|]. split; reflexivity.
  Qed.

  Section Run.
    Context {TL : TypesLaws TT} {X : Ext} {XL : ExtLaws X} {B : Backend TT} {BL : BackendLaws TT B}.
    Notation session := (@session TT X B built).
    Notation entries := (list (option (@Types.K TT * @Types.V TT))).

    (** [found] are the entries of [c], with their offsets and in order, that carry
        one of the [tags]. *)
    Definition carrying (tags : list tag) (c : entries) (found : list (nat * @Types.K TT * @Types.V TT)) : Prop :=
      StronglySorted lt (map (fun x => fst (fst x)) found)
      /\ forall o e, In (o, fst e, snd e) found
           <-> exists i t, e = built i /\ nth_error c o = Some (Some (built i)) /\ In t tags /\ carries t i.

    Definition all_built (c : entries) : Prop := forall o e, nth_error c o = Some (Some e) -> exists i, e = built i /\ (N.of_nat i < two64)%N.

    Lemma fades_in keep (a b : entries) : @fades TT keep a b -> forall o e, nth_error b o = Some (Some e) -> nth_error a o = Some (Some e).
    Proof.
      intros (Hl & H) o e E. destruct (nth_error a o) as [x|] eqn:Ea.
      - destruct (H _ _ Ea) as [Hx|[Hx _]]; congruence.
      - apply nth_error_None in Ea. assert (o < List.length b) by (apply nth_error_Some; congruence). lia.
    Qed.

    Lemma explained_built tr cs rep : explained built tr cs rep -> rep = false -> offsets_fit tr ->
      forall n c p, nth_error cs n = Some (c, p) -> all_built c.
    Proof.
      induction 1 as [|tr cs rep c e X1 IH X2|tr cs rep c X1 IH]; intros Hr Hf n c0 p En.
      - now destruct n.
      - apply orb_false_elim in Hr as [-> Hc]. apply Forall_app in Hf as [Hf1 Hf2]. specialize (IH eq_refl Hf1).
        destruct (Nat.lt_ge_cases n (List.length cs)) as [Hn|Hn].
        + rewrite nth_error_app1 in En by exact Hn. eauto.
        + rewrite nth_error_app2 in En by exact Hn. destruct (n - List.length cs) as [|m]; [|now destruct m].
          cbn in En. injection En as En. apply Forall_inv in Hf2. cbn [fst] in Hf2. rewrite orb_false_l, Hc in X2.
          destruct c as [base batches count unb|m|m before|m]; cbn [effect] in X2; [| | |discriminate].
          * destruct X2 as (old & packed & Hold & ->). injection En as <- _. intros o x Ex.
            destruct (Nat.lt_ge_cases o (List.length old)) as [Ho|Ho].
            -- rewrite nth_error_app1 in Ex by exact Ho. destruct base as [m|]; [|destruct Hold as [-> _]; now destruct o].
               exact (IH _ _ _ Hold _ _ Ex).
            -- rewrite nth_error_app2 in Ex by exact Ho. rewrite nth_error_map in Ex.
               destruct (nth_error (seq 0 _) _) as [i|] eqn:Ei; [|discriminate]. cbn in Ex. injection Ex as <-.
               exists i. split; [reflexivity|]. apply nth_error_In, in_seq in Ei. lia.
          * destruct X2 as (old & packed & e0 & Hold & -> & _ & He). injection En as <- _. rewrite (He eq_refl). eauto.
          * destruct X2 as (old & packed & e0 & Hold & -> & Hfa). injection En as <- _. intros o x Ex.
            eapply IH; [exact Hold|]. eapply fades_in; eauto.
      - apply orb_false_elim in Hr as [-> _]. apply Forall_app in Hf as [Hf1 _]. eauto.
    Qed.

    Lemma accepts_built tags i : (N.of_nat i < two64)%N ->
      accepts (tag_query tags) (built_key i) <-> exists t, In t tags /\ carries t i.
    Proof.
      intros Hi. unfold accepts, tag_query. destruct (tags_one i) as (t0 & Et & _). split.
      - intros (x & Hx & _ & _ & Hin). apply in_map_iff in Hx as (t & <- & Ht). exists t. split; [exact Ht|].
        apply carries_iff. unfold built_key in Hin. cbn [k_single k_tags k_filter] in Hin. rewrite Et in *.
        specialize (Hin t0 (or_introl eq_refl)). destruct Hin as [<-|[]]. reflexivity.
      - intros (t & Ht & Hc). exists (k_filter (vs_of [t])). split; [apply in_map_iff; eauto|].
        cbn [k_filter k_time t_min t_max built_key k_single k_tags]. apply carries_iff in Hc. rewrite Hc.
        split; [lia|]. split; [lia|]. apply incl_refl.
    Qed.

    (** ** One tag *)

    Lemma carrying_of tags c found : all_built c ->
      (forall t t', In t tags -> In t' tags -> t = t') ->
      within (@matches TT (fun _ k => mustb utf8 cli_tags (tag_query tags) k) 0 c) found ->
      within found (@matches TT (fun _ k => mayb utf8 cli_tags (tag_query tags) k) 0 c) -> carrying tags c found.
    Proof.
      intros Hb Hs W1 W2. split; [now apply within_sorted in W2|]. intros o [k v]. cbn [fst snd]. split.
      - intros Hi. eapply within_in in Hi; [|exact W2]. apply in_matches in Hi as (_ & H1 & H2). rewrite Nat.sub_0_r in H1.
        destruct (Hb _ _ H1) as (i & Ei & Hi). rewrite Ei in H1. apply accepts_existsb in H2.
        apply (f_equal fst) in Ei as Ek. cbn [fst] in Ek. rewrite Ek, built_tk in H2.
        apply accepts_built in H2 as (t & Ht & Hc); [|exact Hi]. exists i, t. auto.
      - intros (i & t & Ei & H1 & Ht & Hc). eapply within_in; [exact W1|]. apply in_matches. rewrite Nat.sub_0_r, Ei.
        split; [lia|]. split; [exact H1|]. apply (f_equal fst) in Ei as Ek. cbn [fst] in Ek. subst k.
        destruct (Hb _ _ H1) as (i' & Ei' & Hi). apply built_inj in Ei'. subst i'.
        unfold mustb. apply andb_true_intro. split.
        + apply accepts_existsb. rewrite built_tk. apply accepts_built; eauto.
        + apply plainb_iff. rewrite built_tk. apply carries_iff in Hc. unfold plainly, built_key. cbn [k_single k_tags k_time t_min t_max]. rewrite Hc.
          split; [|split; [discriminate|lia]]. intros x t' Hx Ht'. apply in_map_iff in Hx as (t2 & <- & Ht2).
          cbn in Ht'. destruct Ht' as [<-|[]]. left. now apply Hs.
    Qed.

    (** filter with one tag [tg]: of the entries with that tag, in order, it prints
        the first, the thousand and first and so on, or it stops early; and if no
        block is lost it does not stop early. *)
    Theorem C95_filter_partial lossy tr d n t l cache tg ls is r fo' :
      session lossy tr d -> repaired tr = false -> offsets_fit tr -> given_tree d n t l -> (forall l b, ~ cin cache l b) ->
      filter_tags [tg] l (fresh d cache) = (ls, is, r, fo') ->
      exists c found k, entries_of built tr (fresh d cache) n t c
        /\ carrying [tg] c found
        /\ every 1000 (firstn k found) is
        /\ (r = Ok tt \/ exists e, r = Err e)
        /\ fo_log fo' = fo_log (d_fo d)
        /\ (ReliableReads TT B -> lossy = false -> small_branches (d_fo d) -> r = Ok tt /\ every 1000 found is).
    Proof.
      intros S Hr Hf G Hc E.
      destruct (C93_filter_partial built _ _ _ _ _ _ _ _ _ _ _ _ _ _ S G Hc (dnf_near utf8 cli_tags cli_few v_enc v_dec l_eqb l_cid l_of nonce (tag_query [tg])) E)
        as (c & found & k & (cs & p & X1 & X2 & X3) & W1 & W2 & H).
      exists c, found, k. split; [exists cs, p; auto|]. split; [|exact H].
      apply carrying_of; auto. - eapply explained_built; eauto. - intros t1 t2 [<-|[]] [<-|[]]. reflexivity.
    Qed.

    (** A new tree of [batches * count] entries: filter prints those with the tag,
        every thousandth of them. *)
    Theorem C95_new lossy d batches count unbalanced t l cache tg ls is r fo' :
      session lossy [(Build None batches count unbalanced, true)] d -> (N.of_nat (batches * count) <= two64)%N ->
      given_tree d 0 t l -> (forall l b, ~ cin cache l b) ->
      ReliableReads TT B -> lossy = false -> small_branches (d_fo d) ->
      filter_tags [tg] l (fresh d cache) = (ls, is, r, fo') ->
      r = Ok tt /\ exists nums, StronglySorted lt nums
        /\ (forall i, In i nums <-> i < batches * count /\ carries tg i)
        /\ every 1000 (map (fun i => (i, fst (built i), snd (built i))) nums) is.
    Proof.
      intros S Hn G Hc RR Hl Hs E.
      assert (Hf : offsets_fit [(Build None batches count unbalanced, true)]) by (repeat constructor; exact Hn).
      destruct (C95_filter_partial _ _ _ _ _ _ _ _ _ _ _ _ S eq_refl Hf G Hc E)
        as (c & found & k & (cs & p & X1 & X2 & _) & (C1 & C2) & _ & _ & _ & H).
      destruct (H RR Hl Hs) as [-> He]. split; [reflexivity|]. clear H.
      assert (Ec : c = map (fun i => Some (built i)) (seq 0 (batches * count))).
      { remember [(Build None batches count unbalanced, true)] as tr eqn:Etr. destruct X1 as [|tr cs rep c0 e X1 Xe|tr cs rep c0 X1]; [discriminate| |].
        - apply (app_inj_tail tr []) in Etr as [-> [= ->]]. inversion X1 as [|tr' cs' rep' c' e' Y1 Y2 Y3 Y4|tr' cs' rep' c' Y1 Y2 Y3]; subst.
          2,3: now destruct tr'.
          cbn in X2. injection X2 as ->. destruct Xe as (old & packed & [-> ->] & [= -> _]). reflexivity.
        - apply (app_inj_tail tr []) in Etr as [_ [=]]. }
      assert (Nth : forall o i, nth_error c o = Some (Some (built i)) <-> o = i /\ i < batches * count).
      { intros o i. rewrite Ec, nth_error_map. destruct (nth_error (seq 0 (batches * count)) o) as [j|] eqn:Ej; cbn.
        - assert (Ho : o < batches * count) by (rewrite <- (seq_length (batches * count) 0); apply nth_error_Some; congruence).
          apply (nth_error_nth _ _ 0) in Ej. rewrite seq_nth in Ej by exact Ho. cbn in Ej. subst j. split.
          + intros Ex. apply (f_equal (fun x => match x with Some (Some y) => Some y | _ => None end)) in Ex.
            assert (Ex2 : built o = built i) by (revert Ex; generalize (built o), (built i); intros ? ? [=]; assumption || congruence).
            apply built_inj in Ex2. lia.
          + intros [-> _]. reflexivity.
        - split; [discriminate|]. intros [-> Hi]. apply nth_error_None in Ej. rewrite seq_length in Ej. lia. }
      exists (map (fun x => fst (fst x)) found). split; [exact C1|]. split.
      - intros i. rewrite in_map_iff. split.
        + intros ([[o k0] v] & <- & Hx). destruct (proj1 (C2 o (k0, v)) Hx) as (j & t0 & Ej & Hj & [<-|[]] & Hcar).
          apply Nth in Hj as [-> Hj]. auto.
        + intros [Hi Hcar]. exists (i, fst (built i), snd (built i)). split; [reflexivity|]. apply C2.
          exists i, tg. split; [reflexivity|]. split; [now apply Nth|]. split; [now left|exact Hcar].
      - rewrite map_map. erewrite map_ext_in; [rewrite map_id; exact He|].
        intros [[o k0] v] Hx. cbn [fst]. destruct (proj1 (C2 o (k0, v)) Hx) as (j & t0 & Ej & Hj & _).
        apply Nth in Hj as [-> Hj]. now rewrite <- Ej.
    Qed.

    (** ** Several tags *)

    (** Whatever filter prints carries one of the tags. *)
    Theorem C95_sound lossy tr d n t l cache tags ls is r fo' :
      session lossy tr d -> repaired tr = false -> offsets_fit tr -> given_tree d n t l -> (forall l b, ~ cin cache l b) ->
      filter_tags tags l (fresh d cache) = (ls, is, r, fo') ->
      exists c, entries_of built tr (fresh d cache) n t c
        /\ forall o e, In (o, fst e, snd e) is ->
             exists i t, e = built i /\ nth_error c o = Some (Some (built i)) /\ In t tags /\ carries t i.
    Proof.
      intros S Hr Hf G Hc E.
      destruct (C93_filter_partial built _ _ _ _ _ _ _ _ _ _ _ _ _ _ S G Hc (dnf_near utf8 cli_tags cli_few v_enc v_dec l_eqb l_cid l_of nonce (tag_query tags)) E)
        as (c & found & k & (cs & p & X1 & X2 & X3) & _ & W2 & Hev & _).
      exists c. split; [exists cs, p; auto|]. intros o [k0 v] Hin. cbn [fst snd] in Hin.
      apply In_nth_error in Hin as (j & Hj). rewrite (Hev j) in Hj. apply nth_error_In in Hj.
      assert (Hi : In (o, k0, v) found) by (rewrite <- (firstn_skipn k found); apply in_or_app; now left).
      eapply within_in in Hi; [|exact W2]. apply in_matches in Hi as (_ & H1 & H2). rewrite Nat.sub_0_r in H1.
      destruct (explained_built _ _ _ X1 Hr Hf _ _ _ X2 _ _ H1) as (i & Ei & Hi). rewrite Ei in H1. apply accepts_existsb in H2.
      apply (f_equal fst) in Ei as Ek. cbn [fst] in Ek. rewrite Ek, built_tk in H2.
      apply accepts_built in H2 as (t0 & Ht & Hcar); [|exact Hi]. exists i, t0. auto.
    Qed.

    Lemma dnf_none q x t : In x q -> In t (k_tags x) -> ~ In t cli_tags ->
      @query_near TT (dnf q) (fun _ _ => false) (fun _ _ => false).
    Proof.
      intros Hx Ht Hn. constructor; [apply (dnf_near utf8 cli_tags cli_few)| |discriminate|discriminate].
      cbn [dnf_query q_containing]. intros off y mask i k Hl E1 E2. unfold leaf_keys in *. cbn in Hl, E2.
      destruct (contains_bits utf8 cli_tags cli_few q (li_keys y) mask) as (r & R & Hr & H). rewrite R in E1.
      destruct (nth_error mask i) as [b|] eqn:Em.
      - rewrite (H _ _ Em), E2 in E1. injection E1 as E1. apply andb_prop in E1 as [_ E1].
        destruct (known_dec q _) as [Kn|_]; [|discriminate]. exfalso. apply Hn.
        destruct (Kn _ _ Hx Ht) as (k1 & Hk1 & Ht1). apply in_map_iff in Hk1 as (k2 & <- & _).
        pose proof (tk_ok _ _ k2) as Ok2. unfold keyb in Ok2. apply andb_prop in Ok2 as [_ Ok2]. rewrite forallb_forall in Ok2.
        apply Ok2, andb_prop in Ht1 as [_ Hm]. now apply mem_in in Hm.
      - apply nth_error_None in Em. assert (nth_error r i = None) by (apply nth_error_None; lia). congruence.
    Qed.

    (** If one of the tags is none of those of build, nothing is printed, whatever
        the other tags are. *)
    Theorem C95_nothing lossy tr d n t l cache tags tg ls is r fo' :
      session lossy tr d -> given_tree d n t l -> (forall l b, ~ cin cache l b) ->
      In tg tags -> (forall i, ~ carries tg i) ->
      filter_tags tags l (fresh d cache) = (ls, is, r, fo') -> is = [].
    Proof.
      intros S G Hc Htg Hno E.
      assert (Hn : ~ In tg cli_tags).
      { intros [<-|[<-|[<-|[<-|[]]]]]; [apply (Hno 0)|apply (Hno 3)|apply (Hno 5)|apply (Hno 1)]; apply carries_iff; vm_compute; reflexivity. }
      assert (Q : @query_near TT (dnf (tag_query tags)) (fun _ _ => false) (fun _ _ => false)).
      { eapply (dnf_none _ (k_filter (vs_of [tg])) tg); [|now left|exact Hn]. unfold tag_query. apply in_map_iff. eauto. }
      destruct (C93_filter_partial built _ _ _ _ _ _ _ _ _ _ _ _ _ _ S G Hc Q E)
        as (c & found & k & _ & _ & W2 & Hev & _).
      assert (Hfd : found = []).
      { destruct found as [|[[o k0] v] f]; [reflexivity|]. exfalso.
        assert (Hi : In (o, k0, v) ((o, k0, v) :: f)) by now left. eapply within_in in Hi; [|exact W2].
        apply in_matches in Hi as (_ & _ & Hi). discriminate. }
      subst found. destruct is as [|x is]; [reflexivity|]. specialize (Hev 0). rewrite firstn_nil in Hev. discriminate.
    Qed.
  End Run.
End Filter.

(** * Cases *)

Definition FT : Types := tag_types tutf8 cli_tags CUint dec_uint bytes_eqb (fun l => l) Some [].
#[local] Hint Extern 0 Types => exact FT : typeclass_instances.
#[export] Instance FTL : TypesLaws FT.
Proof. apply C78_laws; [exact cli_few|reflexivity|reflexivity|apply bytes_eqb_eq]. Qed.
Lemma cli_utf8 t : In t cli_tags -> tutf8 t = true.
Proof. intros [<-|[<-|[<-|[<-|[]]]]]; vm_compute; reflexivity. Qed.

#[export] Instance FBackend : Backend FT := {
  Store := IStore;
  sblocks := fun s l => if existsb (bytes_eqb l) (snd s) then Some l else None;
  sget := fun s l => (if existsb (bytes_eqb l) (snd s) then Some l else None, s);
  sput := fun s d =>
    if (fst s <? Nlen d)%N then (None, s)
    else (Some d, ((fst s - Nlen d)%N, d :: snd s));
  digest := fun b => b;
  Cache := list (bytes * @Branch FT);
  cin := fun c l b => In (l, b) c;
  cget := fun c l =>
    (match find (fun p => bytes_eqb (fst p) l) c with Some (_, b) => Some b | None => None end, c);
  cput := fun c l b => (l, b) :: c
}.
#[export] Instance FBackendLaws : BackendLaws FT FBackend.
Proof.
  constructor; cbn; intros.
  - assumption.
  - injection H as <- <-. exact H0.
  - injection H as <- <-. auto.
  - injection H as H <-. exact H.
  - destruct (fst s <? Nlen d)%N; injection H as <- <-; [exact H0|]. cbn.
    destruct (bytes_eqb x d); [|exact H0]. cbn.
    destruct (existsb (bytes_eqb x) (snd s)); [exact H0|discriminate].
  - destruct (fst s <? Nlen d)%N; injection H as <- <-; [auto|]. cbn in H0.
    destruct (bytes_eqb x d); cbn in H0; [injection H0 as <-|]; auto.
  - destruct (fst s <? Nlen d)%N; [discriminate|]. injection H as <- <-. split; [reflexivity|].
    cbn. assert (bytes_eqb d d = true) by now apply bytes_eqb_eq. now rewrite H.
  - destruct (find (fun p => bytes_eqb (fst p) l) c) as [[l' b']|] eqn:F; [|discriminate].
    injection H as <- <-. apply find_some in F. cbn in F. destruct F as [F E].
    apply bytes_eqb_eq in E. now subst.
  - injection H as _ <-. assumption.
  - destruct H as [H|H]; [|auto]. injection H as <- <-. auto.
Qed.
#[export] Instance FReliable : ReliableReads FT FBackend.
Proof. constructor. now intros. Qed.

Definition fev (i : nat) : @K FT * @V FT := built tutf8 CUint dec_uint bytes_eqb (fun l => l) Some [] N.of_nat i.
Definition ffilter (tags : list tag) (l : @L FT) (fo : @Forest FT FBackend) :=
  cmd_filter_tags tutf8 CUint dec_uint bytes_eqb (fun l => l) Some [] tags l fo.
Definition fdesk0 : @desk FT FBackend :=
  {| d_fo := {| fo_store := ((1000000%N, []) : @Store FT FBackend); fo_cache := ([] : @Cache FT FBackend); fo_log := [] |}; d_trees := [] |}.
Definition fcache0 : @Cache FT FBackend := [].
Definition floadableb (d : @desk FT FBackend) (c : command) : bool :=
  match root_of c with
  | None => true
  | Some n => match nth_error (d_trees d) n with Some (Some (ILeaf _, _, _)) => false | _ => true end
  end.
Definition fplay1 (d : @desk FT FBackend) (c : command) : option (bool * @desk FT FBackend) :=
  if floadableb d c then
    option_map (fun p => let '(_, r, fo) := p (fresh d fcache0) in (match r with Ok _ => true | _ => false end, add_result d r fo))
      (program fev d c)
  else None.
Lemma fplay1_session d tr c ok d' : session fev false tr d -> fplay1 d c = Some (ok, d') -> session fev false (tr ++ [(c, ok)]) d'.
Proof.
  intros S E1. unfold fplay1 in E1. destruct (floadableb d c) eqn:El; [|discriminate]. destruct (program fev d c) as [p|] eqn:Ep; [|discriminate].
  cbn [option_map] in E1. destruct (p (fresh d fcache0)) as [[ls r] fo] eqn:Er. injection E1 as <- <-.
  eapply session_command; [exact S| |exact Ep| |exact Er].
  - intros n t Hn Ht. unfold floadableb in El. rewrite Hn, Ht in El. destruct t as [[[[] ?] ?]|]; cbn; auto. discriminate.
  - intros l b H. exact H.
Qed.
Lemma fdesk0_session : session fev false [] fdesk0.
Proof. apply session_new; [intros l d H; discriminate|intros l b H; exact H|reflexivity]. Qed.

(** What filter prints of a tree: offsets and values. *)
Definition fshown (d : @desk FT FBackend) (n : nat) (tags : list tag) : option (list (nat * N) * res unit) :=
  match nth_error (d_trees d) n with
  | Some (Some (IBranch x, _, _)) =>
      match bi_link x with
      | Some l => let '(_, is, r, _) := ffilter tags l (fresh d fcache0) in Some (map (fun x => (fst (fst x), snd x)) is, r)
      | None => None
      end
  | _ => None
  end.
Definition fsmallb (fo : @Forest FT FBackend) : bool :=
  forallb (fun e => ev_leaf e || (Nlen (ev_raw e) <=? max_capacity)%N) (fo_log fo).
Lemma fsmall_ok fo : fsmallb fo = true -> small_branches fo.
Proof.
  unfold fsmallb, small_branches. rewrite forallb_forall, Forall_forall. intros H e He.
  apply H, orb_prop in He as [He|He]; [now left|right]. now apply N.leb_le.
Qed.
Lemma fshown_tree d n tags x : fshown d n tags = Some x -> exists t l, given_tree d n t l
  /\ forall tags', fshown d n tags' = (let '(_, is, r, _) := ffilter tags' l (fresh d fcache0) in Some (map (fun x => (fst (fst x), snd x)) is, r)).
Proof.
  unfold fshown. destruct (nth_error (d_trees d) n) as [t|] eqn:Et; [|discriminate].
  destruct t as [[[[|y] sc] o]|]; try discriminate. destruct (bi_link y) as [l|] eqn:El; [|discriminate]. intros _.
  exists (Some (IBranch y, sc, o)), l. split; [|reflexivity]. split; [exact Et|]. split; [exact Logic.I|exact El].
Qed.

Definition fbuild : command := Build None 1 30 false.
Definition fforget : command := Forget 0 20.
Definition fplays (P : @desk FT FBackend -> @desk FT FBackend -> Prop) : Prop :=
  match fplay1 fdesk0 fbuild with
  | Some (true, d) => match fplay1 d fforget with Some (true, d') => P d d' | _ => False end
  | _ => False
  end.
Lemma fplayed P : fplays P -> exists d d', session fev false [(fbuild, true)] d /\ session fev false [(fbuild, true); (fforget, true)] d' /\ P d d'.
Proof.
  unfold fplays. destruct (fplay1 fdesk0 fbuild) as [[[] d]|] eqn:E1; [|intros []..].
  destruct (fplay1 d fforget) as [[[] d']|] eqn:E2; [|intros []..]. intros H. exists d, d'.
  pose proof (fplay1_session _ _ _ _ _ fdesk0_session E1) as S1. split; [exact S1|].
  split; [exact (fplay1_session _ _ _ _ _ S1 E2)|exact H].
Qed.

(** What is printed, as offsets and values. *)
Definition prints_of (tags : list tag) (l : @L FT) (d : @desk FT FBackend) (xs : list (nat * N)) : Prop :=
  exists ls is fo, ffilter tags l (fresh d fcache0) = (ls, is, Ok tt, fo) /\ map (fun x => (fst (fst x), snd x)) is = xs.

Lemma fboth : exists d d' t l t' l', session fev false [(fbuild, true)] d /\ given_tree d 0 t l /\ small_branches (d_fo d)
  /\ session fev false [(fbuild, true); (fforget, true)] d' /\ given_tree d' 1 t' l' /\ small_branches (d_fo d')
  /\ prints_of [fizz] l d [(3, 3%N)] /\ prints_of [fizz] l' d' [(21, 21%N)] /\ prints_of [fizz; fizzbuzz] l' d' [].
Proof.
  destruct (fplayed (fun d d' => fsmallb (d_fo d) = true /\ fsmallb (d_fo d') = true
      /\ fshown d 0 [fizz] = Some ([(3, 3%N)], Ok tt)
      /\ fshown d' 1 [fizz] = Some ([(21, 21%N)], Ok tt)
      /\ fshown d' 1 [fizz; fizzbuzz] = Some ([], Ok tt))) as (d & d' & S1 & S2 & P0 & P1 & P2 & P3 & P4).
  { vm_compute. repeat split. }
  destruct (fshown_tree _ _ _ _ P2) as (t & l & G & H). destruct (fshown_tree _ _ _ _ P3) as (t' & l' & G' & H').
  exists d, d', t, l, t', l'. rewrite H in P2. rewrite H' in P3, P4.
  assert (Pr : forall tags l d xs, (let '(_, is, r, _) := ffilter tags l (fresh d fcache0) in
      Some (map (fun x => (fst (fst x), snd x)) is, r)) = Some (xs, Ok tt) -> prints_of tags l d xs).
  { intros tags l0 d0 xs. unfold prints_of. destruct (ffilter tags l0 (fresh d0 fcache0)) as [[[ls is] r] fo].
    intros [= E1 E2]. subst r. exists ls, is, fo. split; [reflexivity|exact E1]. }
  split; [exact S1|]. split; [exact G|]. split; [now apply fsmall_ok|]. split; [exact S2|]. split; [exact G'|].
  split; [now apply fsmall_ok|]. split; [now apply Pr|]. split; now apply Pr.
Qed.

(** 30 entries are built; then the first 20 are forgotten. The first entry with the
    tag fizz is the third, then it is the 21st. *)
Example C95_case : exists d d' t l t' l', session fev false [(fbuild, true)] d /\ given_tree d 0 t l /\ small_branches (d_fo d)
  /\ session fev false [(fbuild, true); (fforget, true)] d' /\ given_tree d' 1 t' l' /\ small_branches (d_fo d')
  /\ offsets_fit [(fbuild, true); (fforget, true)] /\ repaired [(fbuild, true); (fforget, true)] = false
  /\ carries fizz 3 /\ carries fizz 21 /\ (forall i, ~ carries [x61] i)
  /\ prints_of [fizz] l d [(3, 3%N)] /\ prints_of [fizz] l' d' [(21, 21%N)].
Proof.
  destruct fboth as (d & d' & t & l & t' & l' & S1 & G & Sm & S2 & G' & Sm' & P1 & P2 & _).
  exists d, d', t, l, t', l'. split; [exact S1|]. split; [exact G|]. split; [exact Sm|]. split; [exact S2|]. split; [exact G'|].
  split; [exact Sm'|]. split; [repeat constructor; vm_compute; discriminate|]. split; [reflexivity|].
  split; [apply carries_iff; reflexivity|]. split; [apply carries_iff; reflexivity|]. split; [|split; [exact P1|exact P2]].
  intros i [(H & _)|[(H & _)|[(H & _)|(H & _)]]]; discriminate H.
Qed.

(** The second tree again. The query for fizz and fizzbuzz prints nothing, although
    an entry has the tag fizz. *)
Theorem C95_refuted : exists d t l, session fev false [(fbuild, true); (fforget, true)] d /\ given_tree d 1 t l /\ small_branches (d_fo d)
  /\ carries fizz 21 /\ prints_of [fizz] l d [(21, 21%N)] /\ prints_of [fizz; fizzbuzz] l d [].
Proof.
  destruct fboth as (_ & d' & _ & _ & t' & l' & _ & _ & _ & S2 & G' & Sm' & _ & P2 & P3).
  exists d', t', l'. split; [exact S2|]. split; [exact G'|]. split; [exact Sm'|]. split; [apply carries_iff; reflexivity|]. split; assumption.
Qed.

(** The entry number 9 of build. *)
Example C95_entry_case : (forall t, In t cli_tags -> (fun _ : bytes => true) t = true)
  /\ carries fizz 9 /\ ~ carries fizzbuzz 9 /\ carries fizzbuzz 30 /\ carries buzz 10 /\ carries other 7.
Proof.
  split; [reflexivity|]. split; [apply carries_iff; reflexivity|]. split; [intros H; apply carries_iff in H; discriminate|].
  repeat split; apply carries_iff; reflexivity.
Qed.

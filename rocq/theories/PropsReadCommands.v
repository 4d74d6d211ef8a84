(** C93: what the commands dump-values, stream, filter and graph print. *)
From Coq Require Import List NArith ZArith Lia Bool String Arith.
From Verif Require Import Base BaseProofs Cbor Types Seq SeqProofs Query QuerySpec World Read Write Api Iter IterFrame History Spec IterSpec Ghost Frame ReadProofs Packable WriteProofs QueryProofs PackProofs RetainProofs RepairProofs NoPurged ApiProofs SysProofs HistProofs IterProofs Instance Example PropsRead PropsQuery PropsRefine PropsConfig PropsIter PropsNear DumpTree Cli Commands PropsCommands ReadCommands.
From Verif Require PropsDumpTree PropsProgress PropsCli.
From Verif Require Import PropsRefuted.
Import ListNotations.

(** * Specification *)

(** [every m l ls]: [ls] are the elements 0, m, 2m, ... of [l]. *)
Definition every {A} (m : nat) (l ls : list A) : Prop := forall j, nth_error ls j = nth_error l (m * j).

(** * Proofs *)
Lemma every_nil {A} m : @every A m [] [].
Proof. intros j. now destruct j, (m * _). Qed.
Lemma sampled_every {A} m (l : list A) : m <> 0 -> forall i k, k < m -> (i + k) mod m = 0 ->
  forall j, nth_error (sampled m i l) j = nth_error l (k + m * j).
Proof.
  intros Hm. induction l as [|x l IH]; intros i k Hk Hi j; cbn [sampled].
  - now rewrite !(proj2 (nth_error_None _ _)) by (cbn; lia).
  - destruct (Nat.eqb_spec (i mod m) 0) as [E|E].
    + assert (k = 0).
      { destruct k; [easy|]. exfalso. rewrite Nat.add_mod in Hi by exact Hm. rewrite E, Nat.add_0_l, Nat.mod_mod in Hi by exact Hm.
        rewrite Nat.mod_small in Hi; lia. }
      subst k. destruct j as [|j]; cbn [nth_error]; [now rewrite Nat.mul_0_r|].
      rewrite (IH (S i) (m - 1)); [|lia|].
      * replace (0 + m * S j) with (S (m - 1 + m * j)) by lia. reflexivity.
      * replace (S i + (m - 1)) with (i + 1 * m) by lia. rewrite Nat.mod_add by exact Hm. exact E.
    + destruct k as [|k]; [now rewrite Nat.add_0_r in Hi|]. rewrite (IH (S i) k); [reflexivity|lia|]. now replace (S i + k) with (i + S k) by lia.
Qed.

Section Proofs.
  Context {T : Types} {TL : TypesLaws T} {X : Ext} {XL : ExtLaws X}
          {B : Backend T} {BL : BackendLaws T B}.
  Variable sec : Secrets.
  Notation key := (index_key sec).

  Lemma keyed_of (set : Setting) t : forall lim, repr sec lim t -> inv set t -> keyed t.
  Proof.
    induction t as [x vs|x|x cs IH|x] using tree_ind'; intros lim R I; try exact Logic.I.
    apply keyed_branch_iff. split; [eapply branch_keys; eauto|].
    apply repr_branch in R as (_ & _ & _ & _ & blk & r & _ & _ & _ & Hch).
    rewrite Forall_forall in *. intros c Hc. eapply IH; eauto. eapply sub_inv; [exact I|]. eapply sub_step; [apply sub_refl|exact Hc].
  Qed.
  Lemma full_of (set : Setting) t lim : repr sec lim t -> inv set t -> fullt t.
  Proof. intros R I t' Hs. eapply tree_nonempty; [eapply sub_repr; eauto|eapply sub_inv; eauto]. Qed.

  Lemma snap_shape (set : Setting) Av Ps fo i lim t : snap_tree set sec Av Ps fo i lim t -> repr sec lim t /\ keyed t /\ fullt t.
  Proof.
    intros (E & t0 & ((R & I & _) & _) & Hr). split; [eapply relabel_repr; eauto|]. split.
    - eapply relabel_keyed; [exact Hr|]. eapply keyed_of; eauto.
    - eapply relabel_full; [exact Hr|]. eapply full_of; eauto.
  Qed.

  Lemma tiles_length lo hi rs : tiles lo hi rs -> List.length rs <= hi - lo /\ lo <= hi.
  Proof.
    revert lo. induction rs as [|[a b] rs IH]; intros lo H; cbn [tiles List.length] in *; [lia|].
    destruct H as (-> & H1 & H2). apply IH in H2. lia.
  Qed.

  Section Each.
    Variable q : Query.
    Hypothesis Hq : q_sized q.
    Variable g : tree.
    Variable lim : N.
    Hypothesis Rg : repr sec lim g.
    Notation mk := (fun _ : node_info => tt).

    Lemma each_ok fuel : forall fo it w ls r fo', fok sec fo -> it_ok sec q mk g Forward it w ->
      List.length (remains q mk Forward it w) < fuel -> each fuel fo (Some it) = (ls, r, fo') ->
      fsame sec fo fo'
      /\ ((r = Ok tt /\ ls = flat_map c_data (remains q mk Forward it w))
          \/ exists e n, r = Err e /\ ls = flat_map c_data (firstn n (remains q mk Forward it w)))
      /\ (ReliableReads T B -> avail (fo_store fo) g -> r = Ok tt).
    Proof.
      induction fuel as [|fuel IH]; intros fo it w ls r fo' F Ho Hn E; [lia|]. cbn [each] in E.
      destruct (next_chunk fo (Some it)) as [[r1 fo1] it1] eqn:En. pose proof En as En'.
      apply (next_chunk_rext sec) in En' as [W _]; [|apply Ho]. change (fsame sec fo fo1) in W.
      cbn [next_chunk] in En. destruct (tnext it _) as [[r2 it2] w2] eqn:Et. injection En as <- <- <-.
      apply (tnext_ok sec q mk Hq g lim Rg Forward it w) in Et; [|exact Ho|exact F].
      destruct Et as [[(c & w' & -> & H1 & H2)|[(-> & H1 & H2)|(e & -> & H1)]] Hrel].
      - destruct (each fuel _ _) as [[ls1 r3] fo3] eqn:Ee. injection E as <- <- <-. rewrite H2 in *. cbn [List.length] in Hn.
        destruct (IH _ _ _ _ _ _ (fext_fok sec _ 0%N _ 0%N (fsame_fext sec _ _ 0%N W) F) H1 ltac:(lia) Ee) as (I1 & I2 & I3).
        split; [eapply fsame_trans; eauto|]. split.
        + destruct I2 as [[-> ->]|(e & n & -> & ->)]; [left; easy|right; exists e, (S n)]. easy.
        + intros Re A. apply I3; [exact Re|]. eapply avail_mono; [|exact A]. apply W.
      - injection E as <- <- <-. split; [exact W|]. rewrite H1. auto.
      - injection E as <- <- <-. split; [exact W|]. split; [right; exists e, 0; easy|]. intros Re A. now destruct (Hrel Re A e).
    Qed.
  End Each.

  Lemma firstn_flat {A C} (f : A -> list C) n l : exists k, flat_map f (firstn n l) = firstn k (flat_map f l).
  Proof.
    exists (List.length (flat_map f (firstn n l))). rewrite <- (firstn_skipn n l) at 3. rewrite flat_map_app.
    rewrite firstn_app, Nat.sub_diag, firstn_all. cbn. now rewrite app_nil_r.
  Qed.

  Lemma items_ok (set : Setting) Av Ps fo i lim t o q must may ls r fo' :
    fok sec fo -> snap_tree set sec Av Ps fo i lim t -> query_near q must may -> items fo (Some (i, sec, o)) q = (ls, r, fo') ->
    fsame sec fo fo' /\ exists found, within (matches must 0 (content t)) found /\ within found (matches may 0 (content t))
      /\ ((r = Ok tt /\ ls = found) \/ exists e n, r = Err e /\ ls = firstn n found)
      /\ (ReliableReads T B -> avail (fo_store fo) t -> r = Ok tt).
  Proof.
    intros F Sn Q E. destruct (snap_shape _ _ _ _ _ _ _ Sn) as (R & Kt & Ft). destruct Sn as (<- & _).
    unfold items in E. cbn [tree_count iter_filtered_chunked] in E.
    destruct (start_fw sec q (fun _ => tt) t) as [S1 S2].
    apply (each_ok q (qn_sized _ _ _ Q) t lim R _ _ _ _ _ _ _ F S1) in E.
    2: { rewrite S2. pose proof (tiles_length _ _ _ (chunks_tile sec q (fun _ => tt) (qn_sized _ _ _ Q) t lim 0 R Ft)) as H. rewrite map_length in H. unfold cnt in H. lia. }
    rewrite S2 in E. destruct E as (W & H1 & H2). split; [exact W|]. exists (flat_map c_data (chunks q (fun _ => tt) 0 t)).
    destruct (chunks_near sec q must may Q (fun _ => tt) t lim 0 R Kt) as [N1 N2]. split; [exact N1|]. split; [exact N2|]. split; [|exact H2].
    destruct H1 as [H1|(e & n & -> & ->)]; [now left|]. right. destruct (firstn_flat c_data n (chunks q (fun _ => tt) 0 t)) as (k & ->). eauto.
  Qed.

  Lemma within_length {A} (a b : list A) : within a b -> List.length a <= List.length b.
  Proof. induction 1; cbn; lia. Qed.
  Lemma within_eq {A} (a b : list A) : within a b -> List.length b <= List.length a -> a = b.
  Proof.
    induction 1 as [|x a b H IH|x a b H IH]; cbn; intros L; [easy|f_equal; apply IH; lia|]. apply within_length in H. lia.
  Qed.
  Lemma within_both {A} (a b : list A) : within a b -> within b a -> a = b.
  Proof. intros H1 H2. apply within_eq; [exact H1|now apply within_length]. Qed.

End Proofs.
Section Opened.
  Context {T : Types} {TL : TypesLaws T} {X : Ext} {XL : ExtLaws X}
          {B : Backend T} {BL : BackendLaws T B}.
  Notation sec := default_secrets.
  Notation entries := (list (option (K * V))).
  Notation item := (nat * K * V)%type.
  Variable ev : nat -> K * V.

  (** The tree of a session, and what it is loaded as. *)
  Lemma opened lossy tr d n t l cache : session ev lossy tr d -> nth_error (d_trees d) n = Some t -> branch_root t -> tree_link t = Some l ->
    (forall l b, ~ cin cache l b) ->
    exists cs c p (set : Setting) i o lim g b, explained ev tr cs (repaired tr) /\ nth_error cs n = Some (c, p)
      /\ answers (fresh d cache) t c /\ setting_ok set /\ fok sec (fresh d cache) /\ t = Some (i, sec, o)
      /\ snap_tree set sec (lossy = false) (true = false) (fresh d cache) i lim g /\ content g = c
      /\ exists e, St lossy set (fresh d cache) b (d_trees d) e (map fst cs) (repaired tr).
  Proof.
    intros S Et Hb El Hc. destruct (session_inv ev _ _ _ S) as (cps & rep & X1 & X2 & X3 & _). pose proof (explained_rep ev _ _ _ X1) as Er.
    fold (repaired tr) in Er. rewrite Er in X1, X2. clear Er X3.
    apply (fresh_ended _ _ _ _ d cache) in X2; [|intros l0 b0 H0; now destruct (Hc l0 b0)|reflexivity].
    destruct X2 as (b & e & set & Hs & A). pose proof A as (G & Gu & S1 & S2 & S3).
    pose proof (abs_agrees _ _ _ _ _ A) as Ag. destruct Ag as (_ & _ & Ag).
    destruct (Forall2_nth1 _ _ _ _ _ Ag Et) as (c & Ec & Hans). apply nth_fst in Ec as (p & Ec).
    destruct t as [[[i sec'] o]|]; [|discriminate].
    pose proof G as ((n0 & I) & _ & Hs2). pose proof I as (F & _). cbn [sy_fo sy_snaps at_] in *.
    pose proof (nth_error_Forall _ _ _ _ Hs2 Et) as Hsn. destruct (Forall2_nth1 _ _ _ _ _ S3 Et) as (ct & Ect & nc & Hct & <-).
    destruct Hsn as (-> & lim & g & Hsn).
    assert (Eg : nc = Some g).
    { eapply behind_det; [exact Hct|]. cbn. splits; auto; [apply Hsn|]. pose proof (snap_repr _ _ _ _ _ _ _ _ Hsn). eauto. }
    subst nc. cbn [seen v_snaps ocontent] in *. rewrite nth_error_map, Ec in Ect. injection Ect as Ect. cbn [fst] in Ect.
    exists cps, c, p, set, i, o, lim, g, b. splits; auto. apply Hs.
    exists e. exact A.
  Qed.

  Lemma opened_load lossy tr d n t l cache r fo' : session ev lossy tr d -> nth_error (d_trees d) n = Some t -> branch_root t -> tree_link t = Some l ->
    (forall l b, ~ cin cache l b) -> load_tree (fresh d cache) sec l = (r, fo') ->
    exists cs c p, explained ev tr cs (repaired tr) /\ nth_error cs n = Some (c, p) /\ answers (fresh d cache) t c
      /\ fok sec fo' /\ fsame sec (fresh d cache) fo'
      /\ ((exists e, r = Err e) \/ exists (set : Setting) i o lim g, r = Ok (Some (i, sec, o))
           /\ snap_tree set sec (lossy = false) (true = false) fo' i lim g /\ content g = c)
      /\ (ReliableReads T B -> lossy = false -> small_branches (d_fo d) -> exists t', r = Ok t').
  Proof.
    intros S Et Hb El Hc E. destruct (opened _ _ _ _ _ _ _ S Et Hb El Hc) as (cs & c & p & set & i & o & lim & g & b & X1 & X2 & X3 & X4 & F & -> & Sn & Ec & _).
    exists cs, c, p. split; [exact X1|]. split; [exact X2|]. split; [exact X3|].
    destruct (load_tree_ok _ _ _ _ _ _ _ _ _ _ _ F Sn Hb El E) as (W & H1 & H2 & H3).
    split; [exact (fext_fok sec _ 0%N _ 0%N (fsame_fext sec _ _ 0%N W) F)|]. split; [exact W|]. split.
    - destruct H2 as [(t' & ->)|H2]; [right|now left]. destruct (H1 _ eq_refl) as (i' & o' & g' & -> & Sn' & Hr & _).
      exists set, i', o', lim, g'. split; [reflexivity|]. split; [exact Sn'|]. now rewrite (relabel_content _ _ Hr).
    - intros RR Hl Hs. apply (H3 RR). apply avail_avail_branches. eapply snap_avail; [exact Sn|exact Hl|]. apply small_fits. exact Hs.
  Qed.
End Opened.

(** * C93 *)
Section Theorems.
  Context {T : Types} {TL : TypesLaws T} {X : Ext} {XL : ExtLaws X}
          {B : Backend T} {BL : BackendLaws T B}.
  Notation entries := (list (option (K * V))).
  Notation item := (nat * K * V)%type.
  Variable ev : nat -> K * V.

  (** The tree [n] of a session, given to the program by its link [l]. *)
  Definition given_tree (d : desk) (n : nat) (t : Tree) (l : L) : Prop :=
    nth_error (d_trees d) n = Some t /\ branch_root t /\ tree_link t = Some l.
  (** [c] are its entries: those that the commands explain, and that all reads show. *)
  Definition entries_of (tr : list (command * bool)) (fo : Forest) (n : nat) (t : Tree) (c : entries) : Prop :=
    exists cs packed, explained ev tr cs (repaired tr) /\ nth_error cs n = Some (c, packed) /\ answers fo t c.
  Definition present (c : entries) : list item := matches (fun _ _ => true) 0 c.

  (** dump-values prints the entries that are not purged, with their offsets and
      in order, or it reports an error after some of them. It changes nothing. *)
  Theorem C93_dump_values lossy tr d n t l cache ls r fo' :
    session ev lossy tr d -> given_tree d n t l -> (forall l b, ~ cin cache l b) ->
    cmd_dump_values (cli_secrets None None) l (fresh d cache) = (ls, r, fo') ->
    exists c, entries_of tr (fresh d cache) n t c
      /\ ((r = Ok tt /\ ls = present c) \/ exists e k, r = Err e /\ ls = firstn k (present c))
      /\ fo_log fo' = fo_log (d_fo d)
      /\ (ReliableReads T B -> lossy = false -> small_branches (d_fo d) -> r = Ok tt).
  Proof.
    intros S (Et & Hb & El) Hc E. change (cli_secrets None None) with default_secrets in E. unfold cmd_dump_values in E.
    destruct (load_tree _ _ l) as [r1 fo1] eqn:E1.
    destruct (opened_load ev _ _ _ _ _ _ _ _ _ S Et Hb El Hc E1) as (cs & c & p & X1 & X2 & X3 & F & W & H1 & H2).
    exists c. split; [exists cs, p; auto|]. destruct H1 as [(e & ->)|(set & i & o & lim & g & -> & Sn & <-)].
    - injection E as <- <- <-. split; [right; exists e, 0; easy|]. split; [exact (same_log _ _ W)|].
      intros RR Hl Hs. destruct (H2 RR Hl Hs). discriminate.
    - destruct (items_ok _ set _ _ _ _ _ _ _ _ _ _ _ _ _ F Sn (C77_exact _ _ C36_all) E) as (W2 & found & N1 & N2 & H3 & H4).
      pose proof (within_both _ _ N1 N2) as En. subst found. split; [exact H3|].
      split; [rewrite (same_log _ _ W2); exact (same_log _ _ W)|].
      intros RR Hl Hs. apply (H4 RR). eapply snap_avail; [exact Sn|exact Hl|]. apply small_fits. unfold small_branches in *.
      rewrite (same_log _ _ W). exact Hs.
  Qed.

  (** stream prints every thousandth of them, as long as blocks can be read. That
      it reports an error when they cannot is missing: it does not, see below. *)
  Theorem C93_stream_partial lossy tr d n t l cache ls r fo' :
    session ev lossy tr d -> given_tree d n t l -> (forall l b, ~ cin cache l b) ->
    cmd_stream (cli_secrets None None) l (fresh d cache) = (ls, r, fo') ->
    exists c k, entries_of tr (fresh d cache) n t c
      /\ every 1000 (firstn k (present c)) ls
      /\ (r = Ok tt \/ exists e, r = Err e)
      /\ fo_log fo' = fo_log (d_fo d)
      /\ (ReliableReads T B -> lossy = false -> small_branches (d_fo d) -> r = Ok tt /\ every 1000 (present c) ls).
  Proof.
    intros S (Et & Hb & El) Hc E. change (cli_secrets None None) with default_secrets in E. unfold cmd_stream in E.
    destruct (load_tree _ _ l) as [r1 fo1] eqn:E1.
    destruct (opened_load ev _ _ _ _ _ _ _ _ _ S Et Hb El Hc E1) as (cs & c & p & X1 & X2 & X3 & F & W & H1 & H2).
    exists c. assert (Z : entries_of tr (fresh d cache) n t c) by (exists cs, p; auto).
    destruct H1 as [(e & ->)|(set & i & o & lim & g & -> & Sn & <-)].
    - injection E as <- <- <-. exists 0. split; [exact Z|]. split; [apply every_nil|].
      split; [right; cbn; eauto|]. split; [exact (same_log _ _ W)|].
      intros RR Hl Hs. destruct (H2 RR Hl Hs). discriminate.
    - unfold print_stream in E. destruct (items _ _ _) as [[is r2] fo2] eqn:E2. injection E as <- <- <-.
      destruct (items_ok _ set _ _ _ _ _ _ _ _ _ _ _ _ _ F Sn (C77_exact _ _ C36_all) E2) as (W2 & found & N1 & N2 & H3 & H4).
      pose proof (within_both _ _ N1 N2) as En. subst found. fold (present (content g)) in *.
      assert (Ev : forall l : list item, every 1000 l (sampled 1000 0 l)).
      { intros l0 j. apply (sampled_every 1000 l0 ltac:(lia) 0 0); [lia|reflexivity]. }
      exists (List.length is). split; [exact Z|]. split; [|split; [|split]].
      + destruct H3 as [[_ ->]|(e & n0 & _ & ->)]; [rewrite firstn_all; apply Ev|]. rewrite firstn_length.
        destruct (Nat.min_spec n0 (List.length (present (content g)))) as [[_ ->]|[Hlen ->]]; [apply Ev|].
        rewrite firstn_all, firstn_all2 by lia. apply Ev.
      + destruct H3 as [[-> _]|(e & n0 & -> & _)]; auto.
      + rewrite (same_log _ _ W2). exact (same_log _ _ W).
      + intros RR Hl Hs. assert (r2 = Ok tt).
        { apply (H4 RR). eapply snap_avail; [exact Sn|exact Hl|]. apply small_fits. unfold small_branches in *.
          rewrite (same_log _ _ W). exact Hs. }
        subst r2. split; [reflexivity|]. destruct H3 as [[_ ->]|(e & n0 & ? & _)]; [apply Ev|discriminate].
  Qed.

  (** filter prints every thousandth of the entries that the query finds. A query
      for tags finds all entries that have the tags, and only those that the
      summaries do not exclude: [must] and [may], see C77 and C78. Errors are missing
      as for stream. *)
  Theorem C93_filter_partial lossy tr d n t l cache q must may ls is r fo' :
    session ev lossy tr d -> given_tree d n t l -> (forall l b, ~ cin cache l b) -> query_near q must may ->
    cmd_filter q l (fresh d cache) = (ls, is, r, fo') ->
    exists c found k, entries_of tr (fresh d cache) n t c
      /\ within (matches must 0 c) found /\ within found (matches may 0 c)
      /\ every 1000 (firstn k found) is
      /\ (r = Ok tt \/ exists e, r = Err e)
      /\ fo_log fo' = fo_log (d_fo d)
      /\ (ReliableReads T B -> lossy = false -> small_branches (d_fo d) -> r = Ok tt /\ every 1000 found is).
  Proof.
    intros S (Et & Hb & El) Hc Q E. unfold cmd_filter in E.
    destruct (opened ev _ _ _ _ _ _ _ S Et Hb El Hc) as (cs & c & p & set & i & o & lim & g & b & X1 & X2 & X3 & X4 & F & Ht & Sn & Ec & e & A).
    exists c. assert (Z : entries_of tr (fresh d cache) n t c) by (exists cs, p; auto).
    assert (Hdef : exists found, within (matches must 0 c) found /\ within found (matches may 0 c)).
    { exists (flat_map c_data (chunks q (fun _ => tt) 0 g)). subst c. destruct (snap_shape _ _ _ _ _ _ _ _ Sn) as (R & Kt & _).
      exact (chunks_near default_secrets q must may Q (fun _ => tt) g lim 0 R Kt). }
    destruct (load_stream_builder _ _ _ l) as [r1 fo1] eqn:E1.
    destruct (st_load _ _ _ _ _ _ _ _ _ _ _ _ _ _ X4 debug_ok A Et Hb El E1) as (A1 & H1 & H2 & H3).
    assert (W : fsame default_secrets (fresh d cache) fo1).
    { unfold load_stream_builder in E1. destruct (read _ _) as [rr f] eqn:E0. injection E1 as _ <-.
      eapply read_fsame; [|exact E0]. apply rf_create_index. }
    assert (L1 : fo_log fo1 = fo_log (d_fo d)) by exact (same_log _ _ W).
    destruct H2 as [(b' & ->)|(x & ->)].
    2: { destruct Hdef as (found & D1 & D2). injection E as <- <- <- <-. exists found, 0.
         split; [exact Z|]. split; [exact D1|]. split; [exact D2|]. split; [apply every_nil|].
         split; [right; cbn; eauto|]. split; [exact L1|]. intros RR Hl Hs. destruct (H3 RR Hl Hs). discriminate. }
    destruct (H1 _ eq_refl) as (old & Ho & A2 & _). rewrite nth_error_map, X2 in Ho. injection Ho as <-. cbn [fst] in A2.
    destruct A2 as (((m & I) & _) & _ & S1 & _). cbn [at_ sy_fo sy_b sy_se se_b] in I, S1.
    pose proof (stands_eq default_secrets _ _ _ S1 (binv_behind _ _ _ _ _ _ _ I)) as Em. cbn [seen v_now] in Em.
    assert (Ev : forall l : list item, every 1000 l (sampled 1000 0 l)).
    { intros l0 j. apply (sampled_every 1000 l0 ltac:(lia) 0 0); [lia|reflexivity]. }
    destruct m as [g'|].
    2: { apply binv_none in I as (_ & En). rewrite En in E. cbn [dump] in E. unfold print_stream, items in E. cbn in E.
         injection E as <- <- <- <-. cbn in Em. exists [], 0. rewrite Em. cbn [matches].
         split; [now rewrite <- Em|]. split; [constructor|]. split; [constructor|]. split; [apply every_nil|]. split; [now left|].
         split; [exact L1|]. intros _ _ _. split; [reflexivity|apply every_nil]. }
    apply binv_snap in I as (F1 & En & G). rewrite En in E. pose proof (snap_repr _ _ _ _ _ _ _ _ G) as Rg. cbn in Em. rewrite Em in *.
    unfold dump in E. destruct (dump0 _ (depth (root_ix g')) 0 (root_ix g') _) as [[ls1 r2] w1] eqn:Ed.
    destruct (PropsDumpTree.dump0_prints default_secrets _ _ g' 0 Rg (depth_ok (root_ix g')) _ _ _ _ F1 Ed) as (W1 & _ & P3 & P4).
    set (fo2 := {| fo_store := w_store w1; fo_cache := w_cache w1; fo_log := w_log w1 |}) in *.
    assert (W2 : fsame default_secrets fo1 fo2).
    { unfold fo2. destruct w1 as [s1 c1 o1 l1]. pose proof (proj1 (proj2 (proj2 W1))) as Eo. cbn in Eo. subst o1. exact W1. }
    assert (Av : lossy = false -> small_branches (d_fo d) -> avail (fo_store fo1) g').
    { intros Hl Hs. eapply snap_avail; [exact G|exact Hl|]. apply small_fits. unfold small_branches in *. now rewrite L1. }
    destruct P3 as [->|(x & ->)].
    2: { destruct Hdef as (found & D1 & D2). injection E as <- <- <- <-. exists found, 0.
         split; [exact Z|]. split; [exact D1|]. split; [exact D2|]. split; [apply every_nil|].
         split; [right; cbn; eauto|]. split; [rewrite (same_log _ _ W2); exact L1|]. intros RR Hl Hs.
         enough (Err x = Ok tt) by discriminate. apply (P4 RR). apply avail_avail_branches. exact (Av Hl Hs). }
    assert (G2 : snap_tree (next set config_debug) default_secrets (k_lose (kk lossy) = false) (k_repair (kk lossy) = false) fo2 (root_ix g') (b_off b') g').
    { destruct G as (G0 & t0 & G & Hr). split; [exact G0|]. exists t0. split; [|exact Hr]. eapply gt_keep; [|exact G].
      apply (fsame_fext default_secrets _ _ 0%N W2). }
    unfold print_stream in E. destruct (items _ _ _) as [[is2 r3] fo3] eqn:E2. injection E as <- <- <- <-.
    destruct (items_ok _ (next set config_debug) _ _ _ _ _ _ _ _ _ _ _ _ _ (fext_fok default_secrets _ 0%N _ 0%N (fsame_fext default_secrets _ _ 0%N W2) F1) G2 Q E2)
      as (W3 & found & N1 & N2 & H4 & H5).
    exists found, (List.length is2). split; [exact Z|]. split; [exact N1|]. split; [exact N2|]. split; [|split; [|split]].
    - destruct H4 as [[_ ->]|(y & n0 & _ & ->)]; [rewrite firstn_all; apply Ev|]. rewrite firstn_length.
      destruct (Nat.min_spec n0 (List.length found)) as [[_ ->]|[Hlen ->]]; [apply Ev|].
      rewrite firstn_all, firstn_all2 by lia. apply Ev.
    - destruct H4 as [[-> _]|(y & n0 & -> & _)]; auto.
    - rewrite (same_log _ _ W3), (same_log _ _ W2). exact L1.
    - intros RR Hl Hs. assert (r3 = Ok tt).
      { apply (H5 RR). eapply avail_mono; [|exact (Av Hl Hs)]. apply W2. }
      subst r3. split; [reflexivity|]. destruct H4 as [[_ ->]|(y & n0 & ? & _)]; [apply Ev|discriminate].
  Qed.

  (** graph prints a graph of the nodes of the tree, numbered in depth first order
      from 0: one statement for each node, one edge from its parent to each node
      but the root. It does not panic. *)
  Definition node_statement (n : nat * Index) : statement :=
    match snd n with
    | IBranch x => Node (fst n) (fst n) Box (bi_sealed x)
    | ILeaf x => Node (fst n) (List.length (leaf_keys x)) Circle (li_sealed x)
    end.
  Theorem C93_graph lossy tr d n t l cache ls r fo' :
    session ev lossy tr d -> given_tree d n t l -> (forall l b, ~ cin cache l b) ->
    cmd_graph (cli_secrets None None) l (fresh d cache) = (ls, r, fo') ->
    ((exists e, r = Err e /\ ls = [])
     \/ (r = Ok tt /\ exists i is es, icount i = tree_count t /\ graph_ok default_secrets 0 es ((0, i) :: is)
           /\ ls = map node_statement ((0, i) :: is) ++ map (fun e => Edge (fst e) (snd e)) es))
    /\ fo_log fo' = fo_log (d_fo d)
    /\ (ReliableReads T B -> lossy = false -> small_branches (d_fo d) -> r = Ok tt).
  Proof.
    intros S (Et & Hb & El) Hc E. change (cli_secrets None None) with default_secrets in E. unfold cmd_graph in E.
    destruct (load_tree _ _ l) as [r1 fo1] eqn:E1.
    destruct (opened ev _ _ _ _ _ _ _ S Et Hb El Hc) as (cs & c & p & set & i & o & lim & g & b & _ & _ & _ & X4 & F & -> & Sn & Ec & _).
    destruct (load_tree_ok _ _ _ _ _ _ _ _ _ _ _ F Sn Hb El E1) as (W & H1 & H2 & H3).
    assert (Av : lossy = false -> small_branches (d_fo d) -> avail (fo_store (fresh d cache)) g).
    { intros Hl Hs. eapply snap_avail; [exact Sn|exact Hl|]. apply small_fits. exact Hs. }
    destruct H2 as [(t' & ->)|(e & ->)].
    2: { injection E as <- <- <-. split; [left; eauto|]. split; [exact (same_log _ _ W)|]. intros RR Hl Hs.
         destruct (H3 RR (avail_avail_branches _ _ (Av Hl Hs))). discriminate. }
    destruct (H1 _ eq_refl) as (i' & o' & g' & -> & Sn' & Hr & _).
    destruct (dump_graph fo1 _ describe) as [r2 fo2] eqn:E2.
    destruct (dump_graph_snap _ _ _ _ _ _ _ _ _ _ _ _ (fext_fok default_secrets _ 0%N _ 0%N (fsame_fext default_secrets _ _ 0%N W) F) Sn' E2) as (W2 & H4 & H5).
    pose proof (snap_repr _ _ _ _ _ _ _ _ Sn') as Rg'. pose proof Sn' as (Ei' & _). pose proof Sn as (Ei & _).
    destruct H4 as [->|(e & ->)].
    2: { injection E as <- <- <-. split; [left; eauto|]. split; [rewrite (same_log _ _ W2); exact (same_log _ _ W)|]. intros RR Hl Hs.
         enough (Err e = Ok (gdump describe None 0 g')) by discriminate. apply (H5 RR). eapply avail_mono; [apply W|].
         eapply relabel_avail; [exact Hr|exact (Av Hl Hs)]. }
    rewrite gdump_map in E. destruct (gdump_ok default_secrets g' lim 0 Rg') as (es & is & Eg & Gok). rewrite Eg in E. cbn [fst snd] in E.
    unfold render in E. destruct (render_edges _ es) as [ls2 r3] eqn:E3. injection E as <- <- <-.
    set (ns := (0, root_ix g') :: is) in *.
    assert (Hre : forall es', (forall e, In e es' -> fst e < List.length ns /\ snd e < List.length ns) ->
              render_edges (map (fun n => (fst n, describe (fst n) (snd n))) ns) es' = (map (fun e => Edge (fst e) (snd e)) es', Ok tt)).
    { assert (At : forall id, id < List.length ns -> exists x, node_at (map (fun n => (fst n, describe (fst n) (snd n))) ns) id = Ok x /\ node_id x = id).
      { intros id Hid. unfold node_at. destruct (find _ _) as [[id' x]|] eqn:Ef.
        - apply find_some in Ef as [Hin He]. cbn [fst] in He. apply Nat.eqb_eq in He. subst id'.
          apply in_map_iff in Hin as ([id2 i2] & [= -> <-] & _). cbn [fst snd]. eexists. split; [reflexivity|]. now destruct i2.
        - exfalso. assert (Hin : In id (map fst ns)) by (rewrite (proj1 Gok); apply in_seq; lia).
          apply in_map_iff in Hin as ([id2 i2] & <- & Hin). pose proof (find_none _ _ Ef (id2, describe id2 i2)) as Hn.
          cbn [fst] in Hn. rewrite Nat.eqb_refl in Hn. discriminate Hn. apply in_map_iff. now exists (id2, i2). }
      induction es' as [|[x y] es' IH]; intros He; [reflexivity|]. cbn [render_edges].
      destruct (He (x, y) (or_introl eq_refl)) as [He1 He2]. cbn [fst snd] in He1, He2.
      destruct (At x He1) as (nx & -> & <-). destruct (At y He2) as (ny & -> & <-).
      rewrite IH by (intros e0 H0; apply He; now right). reflexivity. }
    rewrite Hre in E3.
    2: { intros e He. destruct Gok as (_ & Q2 & Q3 & _). assert (Hs : In (snd e) (map snd es)) by now apply in_map.
         rewrite Q2 in Hs. apply in_seq in Hs. rewrite Forall_forall in Q3. apply Q3 in He. lia. }
    injection E3 as <- <-. split; [|split; [rewrite (same_log _ _ W2); exact (same_log _ _ W)|reflexivity]].
    right. split; [reflexivity|]. exists (root_ix g'), is, es. split; [|split; [exact Gok|]].
    - cbn [tree_count]. rewrite <- Ei. apply (relabel_count _ _ Hr).
    - unfold ns. cbn [map app]. rewrite map_map. f_equal; [unfold node_statement; cbn [fst snd]; now destruct (root_ix g')|].
      f_equal. apply map_ext. intros [id2 [x|x]]; reflexivity.
  Qed.
End Theorems.

(** * Cases *)

(** A tree of 24 entries, of which the first ten are forgotten: dump-values prints
    the others, stream the first of them; graph prints a statement for every
    node, and the edges. *)
Definition shown (d : @desk ITypes IBackend) (n : nat) :=
  match nth_error (d_trees d) n with
  | Some t => match tree_link t with
              | Some l => Some (cmd_dump_values (cli_secrets None None) l (fresh d cache0), cmd_stream (cli_secrets None None) l (fresh d cache0),
                                cmd_graph (cli_secrets None None) l (fresh d cache0))
              | None => None
              end
  | None => None
  end.
Example C93_case : exists tr d t l, session cev false tr d /\ given_tree d 2 t l /\ small_branches (d_fo d)
  /\ match shown d 2 with
     | Some ((ls, r, _), (ls', r', _), (ss, r'', _)) =>
         r = Ok tt /\ ls = map (fun i => (i, N.of_nat i, N.of_nat i)) (seq 10 14)
         /\ r' = Ok tt /\ ls' = [(10, 10%N, 10%N)]
         /\ r'' = Ok tt /\ Nat.ltb 4 (List.length ss) = true
     | None => False
     end.
Proof.
  destruct (played [Build None 2 12 true; Pack 0; Forget 1 12] (fun tr d => smallb (d_fo d) = true
      /\ match nth_error (d_trees d) 2 with Some (Some (IBranch x, _, _)) => match bi_link x with Some _ => True | None => False end | _ => False end
      /\ match shown d 2 with
         | Some ((ls, r, _), (ls', r', _), (ss, r'', _)) =>
             r = Ok tt /\ ls = map (fun i => (i, N.of_nat i, N.of_nat i)) (seq 10 14)
             /\ r' = Ok tt /\ ls' = [(10, 10%N, 10%N)]
             /\ r'' = Ok tt /\ Nat.ltb 4 (List.length ss) = true
         | None => False
         end)) as (tr & d & _ & S & P1 & P2 & P3).
  { vm_compute. repeat split. }
  destruct (nth_error (d_trees d) 2) as [t|] eqn:Et; [|destruct P2]. destruct t as [[[[|x] sc] o]|]; try destruct P2.
  destruct (bi_link x) as [l|] eqn:El; [|destruct P2].
  exists tr, d, (Some (IBranch x, sc, o)), l. split; [exact S|]. split; [|split; [now apply smallb_ok|exact P3]].
  split; [exact Et|]. split; [exact Logic.I|exact El].
Qed.

(** The program stream does not report that blocks are missing: it ends with
    success, although none of the 24 entries was printed. Dump-values reports an
    error. *)
Lemma session_lossy {T : Types} {X : Ext} {B : Backend T} (ev : nat -> K * V) lossy tr d : session ev lossy tr d -> session ev true tr d.
Proof.
  induction 1; [now constructor|eapply session_command; eauto|now apply session_others|now apply session_lose].
Qed.
Definition store_lost (d : @desk ITypes IBackend) (n : nat) : IStore :=
  (fst (fo_store (d_fo d)), without n (snd (fo_store (d_fo d)))).
Definition subsetb (a b : IStore) : bool := forallb (fun x => existsb (bytes_eqb x) (snd b)) (snd a).
Lemma subset_in d n : subsetb (store_lost d n) (fo_store (d_fo d)) = true ->
  forall l x, sblocks (store_lost d n : @Store ITypes IBackend) l = Some x -> sblocks (fo_store (d_fo d)) l = Some x.
Proof. intros H. exact (op_okb_ok (OLose (store_lost d n)) (at_ (d_fo d) (builder_new config_debug default_secrets) []) H). Qed.

Theorem C93_stream_refuted : exists tr d t l st, session cev false tr d /\ given_tree d 0 t l
  /\ fst (cmd_dump_values (cli_secrets None None) l (fresh d cache0)) = (map (fun i => (i, N.of_nat i, N.of_nat i)) (seq 0 24), Ok tt)
  /\ session cev true tr (with_store d st) /\ given_tree (with_store d st) 0 t l
  /\ fst (cmd_stream (cli_secrets None None) l (fresh (with_store d st) cache0)) = ([], Ok tt)
  /\ fst (cmd_dump_values (cli_secrets None None) l (fresh (with_store d st) cache0)) = ([], Err EMissing).
Proof.
  destruct (played [Build None 1 24 true] (fun tr d =>
      subsetb (store_lost d 3) (fo_store (d_fo d)) = true
      /\ match nth_error (d_trees d) 0 with Some (Some (IBranch x, _, _)) => match bi_link x with Some l => 
           fst (cmd_dump_values (cli_secrets None None) l (fresh d cache0)) = (map (fun i => (i, N.of_nat i, N.of_nat i)) (seq 0 24), Ok tt)
           /\ fst (cmd_stream (cli_secrets None None) l (fresh (with_store d (store_lost d 3)) cache0)) = ([], Ok tt)
           /\ fst (cmd_dump_values (cli_secrets None None) l (fresh (with_store d (store_lost d 3)) cache0)) = ([], Err EMissing)
         | None => False end | _ => False end)) as (tr & d & _ & S & P0 & P2).
  { vm_compute. repeat split. }
  destruct (nth_error (d_trees d) 0) as [t|] eqn:Et; [|destruct P2]. destruct t as [[[[|x] sc] o]|]; try destruct P2.
  destruct (bi_link x) as [l|] eqn:El; [|destruct P2]. destruct P2 as (P2 & P3 & P4).
  exists tr, d, (Some (IBranch x, sc, o)), l, (store_lost d 3). split; [exact S|].
  split; [split; [exact Et|split; [exact Logic.I|exact El]]|]. split; [exact P2|].
  split; [|split; [split; [exact Et|split; [exact Logic.I|exact El]]|split; [exact P3|exact P4]]].
  apply session_lose; [eapply session_lossy; exact S|reflexivity|now apply subset_in].
Qed.

(** filter: the entries from 15 on, of which the first is printed. *)
Example C93_filter_case : exists tr d t l, session cev false tr d /\ given_tree d 2 t l /\ small_branches (d_fo d)
  /\ (exists m, query_near (@offset_range_query ITypes (range_incl_opt 15 None)) m m)
  /\ match cmd_filter (offset_range_query (range_incl_opt 15 None)) l (fresh d cache0) with
     | (ls, is, r, _) => is = [(15, 15%N, 15%N)] /\ r = Ok tt /\ Nat.ltb 2 (List.length ls) = true
     end.
Proof.
  destruct (played [Build None 2 12 true; Pack 0; Forget 1 12] (fun tr d => smallb (d_fo d) = true
      /\ match nth_error (d_trees d) 2 with Some (Some (IBranch x, _, _)) => match bi_link x with Some l =>
           match cmd_filter (offset_range_query (range_incl_opt 15 None)) l (fresh d cache0) with
           | (ls, is, r, _) => is = [(15, 15%N, 15%N)] /\ r = Ok tt /\ Nat.ltb 2 (List.length ls) = true
           end | None => False end | _ => False end)) as (tr & d & _ & S & P1 & P2).
  { vm_compute. repeat split. }
  destruct (nth_error (d_trees d) 2) as [t|] eqn:Et; [|destruct P2]. destruct t as [[[[|x] sc] o]|]; try destruct P2.
  destruct (bi_link x) as [l|] eqn:El; [|destruct P2].
  exists tr, d, (Some (IBranch x, sc, o)), l. split; [exact S|].
  split; [split; [exact Et|split; [exact Logic.I|exact El]]|]. split; [now apply smallb_ok|]. split; [|exact P2].
  eexists. apply C77_exact. apply C37_offset_range.
Qed.

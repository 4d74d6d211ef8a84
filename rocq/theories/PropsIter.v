(** Properties of iteration: C06, C07, C08, C09. Every theorem ranges over all
    histories of a stream, and over everything that may happen between two
    calls of [next]. *)
From Coq Require Import List NArith ZArith Lia Bool String Arith.
From Verif Require Import Base BaseProofs Cbor Types Seq SeqProofs Query QuerySpec World Read Write Api Iter IterFrame History Spec IterSpec Ghost Frame ReadProofs Packable WriteProofs QueryProofs PackProofs RetainProofs RepairProofs NoPurged ApiProofs SysProofs HistProofs IterProofs Instance Example PropsRead PropsQuery.
Import ListNotations.

Section Props.
  Context {T : Types} {TL : TypesLaws T} {X : Ext} {XL : ExtLaws X}
          {B : Backend T} {BL : BackendLaws T B}.
  Variable cfg : Config.
  Variable sec : Secrets.
  Hypothesis Hcfg : config_ok cfg.

  Lemma inv_keyed t : forall lim, repr sec lim t -> inv cfg t -> keyed t.
  Proof.
    induction t as [x vs|x|x cs IH|x] using tree_ind'; intros lim R I; try exact Logic.I.
    apply keyed_branch_iff. split; [eapply branch_keys; eauto|].
    apply repr_branch in R as (_ & _ & _ & _ & blk & r & _ & _ & _ & Hch). apply inv_branch in I as (_ & _ & _ & _ & I).
    rewrite Forall_forall in *. intros c Hc. eapply IH; eauto.
  Qed.
  Lemma sub_children g t : sub g t -> t = g \/ exists x cs c, g = TBranch x cs /\ In c cs /\ sub c t.
  Proof.
    induction 1 as [|x cs c H IH Hin]; [now left|]. right. destruct IH as [<-|(x' & cs' & c' & E & Hin' & Hs)].
    - exists x, cs, c. splits; auto. apply sub_refl.
    - exists x', cs', c'. splits; auto. eapply sub_step; eauto.
  Qed.
  Lemma inv_full t lim : repr sec lim t -> inv cfg t -> fullt t.
  Proof.
    intros R I t' Hs. eapply tree_nonempty; [eapply sub_repr; eauto|eapply sub_inv; eauto].
  Qed.

  Lemma relabel_keyed t t' : relabel t t' -> keyed t -> keyed t'.
  Proof.
    destruct t, t'; cbn -[keyed]; try discriminate; try (now intros [= -> ->]); try now intros [= ->].
    intros [(H1 & H2 & H3 & H4 & H5) ->] K. apply keyed_branch_iff in K as [K1 K2]. apply keyed_branch_iff. split; [|easy].
    unfold keyed_branch in *. now rewrite H3, H4.
  Qed.
  Lemma relabel_full t t' : relabel t t' -> fullt t -> fullt t'.
  Proof.
    intros Hr F u Hs. apply sub_children in Hs as [->|(x & cs & c & -> & Hin & Hs)].
    - unfold cnt. rewrite (relabel_count _ _ Hr). apply F, sub_refl.
    - destruct t; cbn in Hr; try discriminate; try (injection Hr as -> ->).
      destruct Hr as [_ ->]. apply full_child in F. rewrite Forall_forall in F. now apply (F c).
  Qed.

  (** What iteration needs to know of a snapshot. *)
  Lemma snap_iter Av Ps fo t i sec' o : snap_good cfg sec Av Ps fo t -> t = Some (i, sec', o) ->
    sec' = sec /\ exists lim g, root_ix g = i /\ repr sec lim g /\ keyed g /\ fullt g.
  Proof.
    intros G ->. destruct G as (-> & lim & g & E & t0 & ((R & I & _) & _) & Hr). split; [easy|]. exists lim, g.
    splits; [exact E|eapply relabel_repr; eauto| |].
    - eapply relabel_keyed; [exact Hr|]. eapply inv_keyed; eauto.
    - eapply relabel_full; [exact Hr|]. eapply inv_full; eauto.
  Qed.

  Section Run.
    Context {E : Type}.
    Variable k : kind.
    Notation sys_ok := (sys_good cfg sec (k_lose k = false) (k_repair k = false)).

    Lemma next_sys s (it : chunk_iter E) r fo it' : sys_ok s -> it_sec sec it -> next_chunk (sy_fo s) it = (r, fo, it') ->
      sys_ok (with_fo s fo) /\ grows k s (with_fo s fo) /\ it_sec sec it'.
    Proof.
      intros S Hs En. apply (next_chunk_rext sec) in En as [W Hs']; [|exact Hs]. change (fsame sec (sy_fo s) fo) in W.
      split; [now apply step_with_fo|]. split; [|exact Hs']. eapply (fext_grows sec k); [apply (fsame_fext sec _ _ 0%N W)|reflexivity|reflexivity].
    Qed.

    Lemma pulls_sys s (it : chunk_iter E) rs s' it' : pulls k s it rs s' it' -> sys_ok s -> it_sec sec it ->
      sys_ok s' /\ grows k s s' /\ it_sec sec it'.
    Proof.
      induction 1 as [s it|s it r fo it1 rs s' it' En _ IH|s it o r s1 rs s' it' O1 O2 Ex _ IH]; intros S Hs.
      - splits; auto. apply grows_refl.
      - apply next_sys in En as (S1 & G1 & H1); auto. destruct (IH S1 H1) as (S2 & G2 & H2). splits; auto. eapply grows_trans; eauto.
      - destruct (step_ok cfg sec Hcfg k _ _ _ _ S O1 O2 Ex) as [S1 G1]. destruct (IH S1 Hs) as (S2 & G2 & H2). splits; auto.
        eapply grows_trans; eauto.
    Qed.

    Lemma pulls_none s rs s' it' : pulls k s (@None (titer E)) rs s' it' -> Forall (eq None) rs.
    Proof.
      intros H. remember (@None (titer E)) as it. induction H as [s it|s it r fo it1 rs s' it' En _ IH|s it o r s1 rs s' it' O1 O2 Ex _ IH]; subst; auto.
      cbn in En. injection En as <- <- <-. constructor; auto.
    Qed.
    Lemma pulls_over s (it : titer E) rs s' it' : pulls k s (Some it) rs s' it' -> over it -> Forall (eq None) rs.
    Proof.
      intros H. remember (Some it) as oit. revert it Heqoit.
      induction H as [s it|s it r fo it1 rs s' it' En _ IH|s it o r s1 rs s' it' O1 O2 Ex _ IH]; intros it0 -> Ho; eauto.
      cbn in En. destruct (tnext_over it0 {| w_store := fo_store (sy_fo s); w_cache := fo_cache (sy_fo s); w_off := 0; w_log := fo_log (sy_fo s) |} Ho) as (it2 & E2 & Ho2).
      rewrite E2 in En. injection En as <- <- <-. constructor; eauto.
    Qed.

    Variable q : Query.
    Variable mk : node_info -> E.
    Hypothesis Hq : q_sized q.
    Variable g : tree.
    Variable lim : N.
    Hypothesis Rg : repr sec lim g.

    Lemma pulls_follow m s (it : titer E) w rs s' it' : sys_ok s -> it_ok sec q mk g m it w ->
      pulls k s (Some it) rs s' it' ->
      follows (remains q mk m it w) rs
      /\ (ReliableReads T B -> k_lose k = false -> avail (fo_store (sy_fo s)) g -> follows_ok (remains q mk m it w) rs).
    Proof.
      intros S Ho H. remember (Some it) as oit. revert it w Heqoit S Ho.
      induction H as [s it|s it r fo it1 rs s' it' En Hp IH|s it o r s1 rs s' it' O1 O2 Ex _ IH]; intros it0 w -> S Ho.
      - split; [constructor|]. constructor.
      - pose proof En as En'. apply next_sys in En' as (S1 & G1 & _); [|exact S|apply Ho]. cbn [next_chunk] in En.
        destruct (tnext it0 _) as [[r2 it2] wd2] eqn:Et. injection En as <- <- <-.
        apply (tnext_ok sec q mk Hq g lim Rg m it0 w) in Et; [|exact Ho|apply (sys_fok cfg sec k _ S)].
        destruct Et as [[(c & w' & -> & H1 & H2)|[(-> & H1 & H2)|(e & -> & H1)]] Hrel].
        + destruct (IH _ _ eq_refl S1 H1) as [IH1 IH2]. rewrite H2. split; [now constructor|]. intros Re Hl A.
          constructor. apply IH2; auto. eapply avail_mono; [|exact A]. destruct G1 as (_ & _ & G1). exact (G1 Hl).
        + apply (pulls_over _ _ _ _ _ Hp) in H2. rewrite H1. split; [|intros _ _ _]; constructor; constructor; auto.
        + apply (pulls_over _ _ _ _ _ Hp) in H1. split; [now constructor|]. intros Re Hl A. now destruct (Hrel Re A e).
      - destruct (step_ok cfg sec Hcfg k _ _ _ _ S O1 O2 Ex) as [S1 G1]. destruct (IH _ _ eq_refl S1 Ho) as [IH1 IH2].
        split; [exact IH1|]. intros Re Hl A. apply IH2; auto. eapply avail_mono; [|exact A]. destruct G1 as (_ & _ & G1). exact (G1 Hl).
    Qed.
  End Run.

  (** What a chunk iterator over [t] is expected to return. *)
  Definition expected {E} (q : Query) (mk : node_info -> E) (n : option tree) : list (chunk E) :=
    match n with Some g => chunks q mk 0 g | None => [] end.

  Lemma iter_follow {E} k s t q (mk : node_info -> E) : reach k cfg sec s -> known s t -> q_sized q ->
    exists n, behind sec t n
      /\ (match n with Some g => keyed g /\ fullt g | None => True end)
      /\ (forall rs s' it', pulls k s (iter_filtered_chunked t q mk) rs s' it' -> follows (expected q mk n) rs)
      /\ (forall rs s' it', pulls k s (iter_filtered_chunked_reverse t q mk) rs s' it' -> follows (rev (expected q mk n)) rs)
      /\ (ReliableReads T B -> k_lose k = false -> forall rs s' it',
            (pulls k s (iter_filtered_chunked t q mk) rs s' it' -> small_branches (sy_fo s') -> follows_ok (expected q mk n) rs)
            /\ (pulls k s (iter_filtered_chunked_reverse t q mk) rs s' it' -> small_branches (sy_fo s') -> follows_ok (rev (expected q mk n)) rs)).
  Proof.
    intros R K Hq. destruct (known_good cfg sec Hcfg _ _ _ R K) as [F G]. apply (reach_ok cfg sec Hcfg) in R as S.
    destruct t as [[[i sec'] o]|].
    - destruct (snap_iter _ _ _ _ _ _ _ G eq_refl) as (-> & lim & g & <- & Rg & Kg & Fg). exists (Some g).
      assert (Bh : behind sec (Some (root_ix g, sec, o)) (Some g)) by (cbn; eauto).
      split; [exact Bh|]. split; [easy|]. cbn [iter_filtered_chunked iter_filtered_chunked_reverse expected].
      pose proof (start_fw sec q mk g) as [Hf1 Hf2]. pose proof (start_bw sec q mk g) as [Hb1 Hb2].
      splits.
      + intros rs s' it' H. eapply pulls_follow in H as [H _]; eauto. now rewrite Hf2 in H.
      + intros rs s' it' H. eapply pulls_follow in H as [H _]; eauto. now rewrite Hb2 in H.
      + intros Re Hl rs s' it'.
        assert (A : forall (it : chunk_iter E), it_sec sec it -> pulls k s it rs s' it' -> small_branches (sy_fo s') -> avail (fo_store (sy_fo s)) g).
        { intros it Hit H Hs. apply (pulls_sys k) in H as (_ & (_ & (new & Hn) & _) & _); auto.
          apply (behind_avail cfg sec _ _ _ _ (Some g) G Bh Hl). unfold small_branches in *. rewrite Hn in Hs. now apply Forall_app in Hs. }
        split; intros H Hs.
        * assert (avail (fo_store (sy_fo s)) g) by (eapply A; [|exact H|exact Hs]; reflexivity). eapply pulls_follow in H as [_ H]; eauto. rewrite Hf2 in H. auto.
        * assert (avail (fo_store (sy_fo s)) g) by (eapply A; [|exact H|exact Hs]; reflexivity). eapply pulls_follow in H as [_ H]; eauto. rewrite Hb2 in H. auto.
    - exists None. cbn [iter_filtered_chunked iter_filtered_chunked_reverse expected rev]. splits; try exact Logic.I.
      + intros rs s' it' H. constructor. eapply pulls_none; eauto.
      + intros rs s' it' H. constructor. eapply pulls_none; eauto.
      + intros _ _ rs s' it'. split; intros H _; constructor; eapply pulls_none; eauto.
  Qed.

  Lemma query_sized q m : query_ok q m -> q_sized q.
  Proof. intros Q. constructor; [apply (qo_leaf_length _ _ Q)|apply (qo_branch_length _ _ Q)]. Qed.

  Lemma expected_matches {E} q m (mk : node_info -> E) n t : query_ok q m -> behind sec t n ->
    (match n with Some g => keyed g /\ fullt g | None => True end) ->
    flat_map c_data (expected q mk n) = matches m 0 (ocontent n).
  Proof.
    intros Q Bh Hk. destruct n as [g|]; [|easy]. destruct t as [[[i sec'] o]|]; [|easy].
    destruct Bh as (_ & _ & lim & Rg). cbn. eapply chunks_matches; eauto; [now apply (query_sized _ m)|apply Hk].
  Qed.

  (** ** C06: filtered iteration returns exactly the matching entries *)

  (** [c] are the entries of the tree. The iterator yields [cs] in order, and
      then ends; or it fails, once, and then ends. The data of [cs] are the
      matching entries with their offsets, in order. *)
  Theorem C06_filtered {E} s t q m (mk : node_info -> E) :
    reach anything cfg sec s -> known s t -> query_ok q m ->
    exists c cs, answers (sy_fo s) t c
      /\ flat_map c_data cs = matches m 0 c
      /\ forall rs s' it', pulls anything s (iter_filtered_chunked t q mk) rs s' it' -> follows cs rs.
  Proof.
    intros R K Q. destruct (iter_follow _ _ _ q mk R K (query_sized _ _ Q)) as (n & Bh & Hk & H & _).
    destruct (known_good cfg sec Hcfg _ _ _ R K) as [F _].
    exists (ocontent n), (expected q mk n). splits; [now apply (behind_answers sec)|eapply expected_matches; eauto|exact H].
  Qed.

  (** While the store keeps its blocks there is no error. *)
  Theorem C06_total {E} s t q m (mk : node_info -> E) (RR : ReliableReads T B) :
    reach no_loss cfg sec s -> known s t -> small_branches (sy_fo s) -> query_ok q m ->
    exists c cs, answers_all (sy_fo s) t c
      /\ flat_map c_data cs = matches m 0 c
      /\ forall rs s' it', pulls no_loss s (iter_filtered_chunked t q mk) rs s' it' -> small_branches (sy_fo s') ->
           follows_ok cs rs.
  Proof.
    intros R K Hs Q. destruct (iter_follow _ _ _ q mk R K (query_sized _ _ Q)) as (n & Bh & Hk & _ & _ & H).
    destruct (known_good cfg sec Hcfg _ _ _ R K) as [F G].
    exists (ocontent n), (expected q mk n).
    splits; [apply (behind_answers_all sec); auto; eapply behind_avail; eauto|eapply expected_matches; eauto|].
    intros rs s' it'. apply (H RR eq_refl).
  Qed.

  (** The first [n] calls of [next], as a pull. *)
  Lemma take_pulls {E} k n : forall s (it : chunk_iter E) rs fo it', take_chunks n (sy_fo s) it = (rs, fo, it') ->
    exists tl, (tl = [] \/ tl = [None]) /\ (tl = [] -> List.length rs = n) /\ pulls k s it (map Some rs ++ tl) (with_fo s fo) it'.
  Proof.
    induction n as [|n IH]; intros s it rs fo it' H; cbn [take_chunks] in H.
    - injection H as <- <- <-. exists []. splits; auto. destruct s. constructor.
    - destruct (next_chunk (sy_fo s) it) as [[[r|] fo1] it1] eqn:En.
      + destruct (take_chunks n fo1 it1) as [[rs1 fo2] it2] eqn:Et. injection H as <- <- <-.
        destruct (IH (with_fo s fo1) _ _ _ _ Et) as (tl & H1 & H2 & H3). exists tl. splits; auto.
        * intros H. cbn. now rewrite H2.
        * cbn [map app]. eapply pulls_next; [exact En|exact H3].
      + injection H as <- <- <-. exists [None]. splits; auto; [discriminate|]. cbn. eapply pulls_next; [exact En|constructor].
  Qed.

  Lemma follows_ok_all {A} (cs : list A) rs : follows_ok cs (map Some rs ++ [None]) -> rs = map Ok cs.
  Proof.
    intros H. remember (map Some rs ++ [None]) as l. revert rs Heql.
    induction H as [cs|c cs l H IH|l H]; intros rs El.
    - symmetry in El. apply app_eq_nil in El as [_ El]. discriminate.
    - destruct rs as [|r rs]; [discriminate|]. cbn in El. injection El as <- El. cbn. f_equal. auto.
    - destruct rs as [|r rs]; [easy|]. rewrite El in H. inversion H. discriminate.
  Qed.
  Lemma follows_ok_some {A} (cs : list A) rs : follows_ok cs (map Some rs) -> List.length cs <= List.length rs -> rs = map Ok cs.
  Proof.
    intros H. remember (map Some rs) as l. revert rs Heql.
    induction H as [cs|c cs l H IH|l H]; intros rs El Hl.
    - destruct rs; [|discriminate]. destruct cs; [easy|cbn in Hl; lia].
    - destruct rs as [|r rs]; [discriminate|]. cbn in El, Hl. injection El as <- El. cbn. f_equal. apply IH; auto. lia.
    - destruct rs as [|r rs]; [easy|]. rewrite El in H. inversion H. discriminate.
  Qed.
  Lemma follows_ok_firstn {A} (cs : list A) : forall rs n tl, follows_ok cs (map Some rs ++ tl) -> (tl = [] \/ tl = [None]) ->
    (tl = [] -> List.length rs = n) -> List.length rs <= n -> rs = map Ok (firstn n cs).
  Proof.
    induction cs as [|c cs IH]; intros rs n tl H Ht Hl Hn.
    - destruct rs as [|r rs]; [now destruct n|]. inversion H; subst. now inversion H0.
    - destruct rs as [|r rs].
      + destruct Ht as [->| ->]; [specialize (Hl eq_refl); cbn in Hl; now subst n|]. inversion H.
      + cbn in H. inversion H; subst. destruct n as [|n]; cbn in Hn; [lia|]. cbn. f_equal. eapply IH; eauto; [|lia].
        intros Z. specialize (Hl Z). cbn in Hl. lia.
  Qed.
  Lemma take_len {E} m : forall fo (it : chunk_iter E) rs fo' it', take_chunks m fo it = (rs, fo', it') -> List.length rs <= m.
  Proof.
    induction m as [|m IH]; intros f it rs fo it' E1; cbn [take_chunks] in E1.
    - injection E1 as <- <- <-. cbn. lia.
    - destruct (next_chunk f it) as [[[r|] fo1] it1]; [|injection E1 as <- <- <-; cbn; lia].
      destruct (take_chunks m fo1 it1) as [[rs1 fo2] it2] eqn:E2. injection E1 as <- <- <-. apply IH in E2. cbn. lia.
  Qed.
  Lemma take_all {E} n s (it : chunk_iter E) rs fo it' cs :
    (forall rs s' it', pulls no_loss s it rs s' it' -> small_branches (sy_fo s') -> follows_ok cs rs) ->
    small_branches (sy_fo s) -> fo_log fo = fo_log (sy_fo s) ->
    take_chunks n (sy_fo s) it = (rs, fo, it') -> List.length cs <= n -> rs = map Ok cs.
  Proof.
    intros H Hs El Et Hn. destruct (take_pulls no_loss _ _ _ _ _ _ Et) as (tl & [->| ->] & H1 & H2).
    - rewrite app_nil_r in H2. apply H in H2; [|unfold small_branches in *; cbn; now rewrite El]. apply follows_ok_some; [exact H2|]. rewrite H1; auto.
    - apply H in H2; [|unfold small_branches in *; cbn; now rewrite El]. now apply follows_ok_all.
  Qed.
  Lemma take_log {E} n fo (it : chunk_iter E) rs fo' it' : it_sec sec it -> take_chunks n fo it = (rs, fo', it') -> fo_log fo' = fo_log fo.
  Proof. intros Hs H. apply (take_chunks_rext sec) in H as [(_ & _ & _ & H) _]; [|exact Hs]. exact H. Qed.
  Lemma known_sec k s t : reach k cfg sec s -> known s t -> match t with Some (_, sec', _) => sec' = sec | None => True end.
  Proof.
    intros R K. destruct (known_good cfg sec Hcfg _ _ _ R K) as [_ G]. destruct t as [[[i sec'] o]|]; [apply G|easy].
  Qed.

  (** The items of [iter_filtered], when enough of them are asked for. *)
  Theorem C06_items s t q m (RR : ReliableReads T B) :
    reach no_loss cfg sec s -> known s t -> small_branches (sy_fo s) -> query_ok q m ->
    exists c enough, answers_all (sy_fo s) t c
      /\ forall n rs fo' it', enough <= n ->
           take_chunks n (sy_fo s) (iter_filtered_chunked t q (fun _ => tt)) = (rs, fo', it') ->
           flatten_chunks rs = map Ok (matches m 0 c).
  Proof.
    intros R K Hs Q. pose proof (known_sec _ _ _ R K) as Hsec. destruct (C06_total s t q m (fun _ => tt) RR R K Hs Q) as (c & cs & H1 & H2 & H3).
    exists c, (List.length cs). split; [exact H1|]. intros n rs fo' it' Hn Et.
    assert (El : fo_log fo' = fo_log (sy_fo s)) by (eapply take_log; [|exact Et]; destruct t as [[[i sec'] o]|]; [exact Hsec|exact Logic.I]).
    rewrite (take_all _ _ _ _ _ _ _ H3 Hs El Et Hn). rewrite <- H2. clear. unfold flatten_chunks.
    induction cs as [|x cs IH]; cbn; [easy|]. now rewrite map_app, IH.
  Qed.

  (** [iter_from] yields every entry that is not purged. *)
  Theorem C06_iter_from s t (RR : ReliableReads T B) :
    reach no_loss cfg sec s -> known s t -> small_branches (sy_fo s) ->
    exists c enough, answers_all (sy_fo s) t c
      /\ forall n rs fo' it', enough <= n ->
           take_chunks n (sy_fo s) (iter_filtered_chunked t all_query (fun _ => tt)) = (rs, fo', it') ->
           flatten_chunks rs = map Ok (matches (fun _ _ => true) 0 c).
  Proof. intros R K Hs. apply C06_items; auto. apply C36_all. Qed.

  (** ** C07: reverse iteration is the mirror image *)

  Theorem C07_reverse {E} s t q (mk : node_info -> E) :
    reach anything cfg sec s -> known s t -> q_sized q ->
    exists cs,
      (forall rs s' it', pulls anything s (iter_filtered_chunked t q mk) rs s' it' -> follows cs rs)
      /\ (forall rs s' it', pulls anything s (iter_filtered_chunked_reverse t q mk) rs s' it' -> follows (rev cs) rs).
  Proof.
    intros R K Hq. destruct (iter_follow _ _ _ q mk R K Hq) as (n & _ & _ & H1 & H2 & _). exists (expected q mk n). auto.
  Qed.
  Theorem C07_total {E} s t q (mk : node_info -> E) (RR : ReliableReads T B) :
    reach no_loss cfg sec s -> known s t -> small_branches (sy_fo s) -> q_sized q ->
    exists enough, forall n rs rs' fo fo' it it', enough <= n ->
      take_chunks n (sy_fo s) (iter_filtered_chunked t q mk) = (rs, fo, it) ->
      take_chunks n (sy_fo s) (iter_filtered_chunked_reverse t q mk) = (rs', fo', it') ->
      rs' = rev rs /\ Forall (fun r => exists c, r = Ok c) rs.
  Proof.
    intros R K Hs Hq. pose proof (known_sec _ _ _ R K) as Hsec.
    destruct (iter_follow _ _ _ q mk R K Hq) as (n & _ & _ & _ & _ & H). specialize (H RR eq_refl).
    exists (List.length (expected q mk n)). intros n' rs rs' fo fo' it it' Hn E1 E2.
    assert (L1 : fo_log fo = fo_log (sy_fo s)) by (eapply take_log; [|exact E1]; destruct t as [[[i sec'] o]|]; [exact Hsec|exact Logic.I]).
    assert (L2 : fo_log fo' = fo_log (sy_fo s)) by (eapply take_log; [|exact E2]; destruct t as [[[i sec'] o]|]; [exact Hsec|exact Logic.I]).
    rewrite (take_all _ _ _ _ _ _ (expected q mk n) ltac:(intros r x y; apply H) Hs L1 E1 Hn).
    rewrite (take_all _ _ _ _ _ _ (rev (expected q mk n)) ltac:(intros r x y; apply H) Hs L2 E2 ltac:(now rewrite rev_length)).
    split; [apply map_rev|]. apply Forall_map. apply Forall_forall. eauto.
  Qed.

  (** ** C08: the ranges of the chunks tile the tree *)

  Theorem C08_tile {E} s t q (mk : node_info -> E) :
    reach anything cfg sec s -> known s t -> q_sized q ->
    exists cs, tiles 0 (tree_count t) (map c_range cs)
      /\ Forall (fun c => offsets_in (fst (c_range c)) (snd (c_range c)) (c_data c)) cs
      /\ (forall rs s' it', pulls anything s (iter_filtered_chunked t q mk) rs s' it' -> follows cs rs)
      /\ (forall rs s' it', pulls anything s (iter_filtered_chunked_reverse t q mk) rs s' it' -> follows (rev cs) rs).
  Proof.
    intros R K Hq. destruct (iter_follow _ _ _ q mk R K Hq) as (n & Bh & Hk & H1 & H2 & _).
    exists (expected q mk n). splits; auto.
    - destruct n as [g|], t as [[[i sec'] o]|]; try easy. destruct Bh as (_ & <- & lim & Rg). destruct Hk as [_ Hf].
      cbn [expected tree_count]. exact (chunks_tile sec q mk Hq g lim 0 Rg Hf).
    - destruct n as [g|]; [|constructor]. now apply chunks_within.
  Qed.

  (** ** C09: traversal ends after the first error *)

  Lemma hist_more k k' (s0 s : sys) : (forall o, op_in k o -> op_in k' o) -> hist k s0 s -> hist k' s0 s.
  Proof. intros H. induction 1; [constructor|eapply hist_step; eauto]. Qed.
  Lemma reach_more k k' s : (forall o, op_in k o -> op_in k' o) -> reach k cfg sec s -> reach k' cfg sec s.
  Proof. intros H (s0 & S & R). exists s0. split; [exact S|]. eapply hist_more; eauto. Qed.

  Lemma follows_split {A} (cs : list A) rs : follows cs rs ->
    exists n rest, rs = map (fun c => Some (Ok c)) (firstn n cs) ++ rest
      /\ (Forall (eq None) rest \/ exists e rest', rest = Some (Err e) :: rest' /\ Forall (eq None) rest').
  Proof.
    induction 1 as [cs|c cs rs H (n & rest & -> & Hr)|cs e rs H|rs H].
    - exists 0, []. auto.
    - exists (S n), rest. auto.
    - exists 0, (Some (Err e) :: rs). split; [easy|]. right. eauto.
    - exists 0, rs. auto.
  Qed.

  (** [cs] is what the iterator returns while nothing is lost. If blocks are
      lost, even while it runs, it returns the first of them; then it may fail
      once; then it has ended. *)
  Theorem C09_error_ends {E} s t q (mk : node_info -> E) (RR : ReliableReads T B) :
    reach no_loss cfg sec s -> known s t -> small_branches (sy_fo s) -> q_sized q ->
    exists cs,
      (forall n rs fo it, List.length cs <= n -> take_chunks n (sy_fo s) (iter_filtered_chunked t q mk) = (rs, fo, it) -> rs = map Ok cs)
      /\ (forall rs s' it', pulls anything s (iter_filtered_chunked t q mk) rs s' it' ->
            exists n rest, rs = map (fun c => Some (Ok c)) (firstn n cs) ++ rest
              /\ (Forall (eq None) rest \/ exists e rest', rest = Some (Err e) :: rest' /\ Forall (eq None) rest'))
      /\ (forall rs s' it', pulls anything s (iter_filtered_chunked_reverse t q mk) rs s' it' ->
            exists n rest, rs = map (fun c => Some (Ok c)) (firstn n (rev cs)) ++ rest
              /\ (Forall (eq None) rest \/ exists e rest', rest = Some (Err e) :: rest' /\ Forall (eq None) rest')).
  Proof.
    intros R K Hs Hq. pose proof (known_sec _ _ _ R K) as Hsec.
    assert (R' : reach anything cfg sec s) by (eapply reach_more; [|exact R]; intros []; cbn; easy).
    destruct (iter_follow _ _ _ q mk R K Hq) as (n & Bh & _ & _ & _ & H). specialize (H RR eq_refl).
    destruct (iter_follow _ _ _ q mk R' K Hq) as (n' & Bh' & _ & H1 & H2 & _).
    assert (n' = n) as ->.
    { destruct t as [[[i sec'] o]|], n as [g|], n' as [g'|]; try easy. destruct Bh as (_ & E1 & l1 & R1). destruct Bh' as (_ & E2 & l2 & R2).
      f_equal. eapply repr_det; eauto. congruence. }
    exists (expected q mk n). splits.
    - intros n' rs fo it Hn Et.
      assert (L1 : fo_log fo = fo_log (sy_fo s)) by (eapply take_log; [|exact Et]; destruct t as [[[i sec'] o]|]; [exact Hsec|exact Logic.I]).
      eapply take_all; eauto. intros r x y. apply H.
    - intros rs s' it' Hp. apply follows_split. eauto.
    - intros rs s' it' Hp. apply follows_split. eauto.
  Qed.

  (** ** C26 and C27 for iterators *)

  (** What a damaged store yields is the beginning of what the undamaged one
      does, and then possibly an error. *)
  Theorem C26_iter {E} s t q (mk : node_info -> E) :
    reach anything cfg sec s -> known s t -> q_sized q ->
    exists cs,
      (forall rs s' it', pulls anything s (iter_filtered_chunked t q mk) rs s' it' -> follows cs rs)
      /\ forall st ca rs s' it',
        (forall l d, sblocks st l = Some d -> sblocks (fo_store (sy_fo s)) l = Some d) ->
        (forall l b, cin ca l b -> cin (fo_cache (sy_fo s)) l b) ->
        pulls anything (with_fo s (damaged (sy_fo s) st ca)) (iter_filtered_chunked t q mk) rs s' it' -> follows cs rs.
  Proof.
    intros R K Hq. destruct (iter_follow _ _ _ q mk R K Hq) as (n & _ & _ & H1 & _). exists (expected q mk n). split; [exact H1|].
    intros st ca rs s' it' Hst Hca Hp.
    eapply H1. eapply (pulls_op anything s _ (OLose st)); [exact Hst|easy|reflexivity|].
    eapply (pulls_op anything _ _ (OEvict ca)); [exact Hca|easy|reflexivity|]. exact Hp.
  Qed.

  Theorem C27_iter {E} s t q (mk : node_info -> E) ca n (RR : ReliableReads T B) :
    reach no_loss cfg sec s -> known s t -> small_branches (sy_fo s) -> q_sized q ->
    (forall l b, cin ca l b -> cin (fo_cache (sy_fo s)) l b) ->
    fst (fst (take_chunks n (recached (sy_fo s) ca) (iter_filtered_chunked t q mk)))
    = fst (fst (take_chunks n (sy_fo s) (iter_filtered_chunked t q mk)))
    /\ fst (fst (take_chunks n (recached (sy_fo s) ca) (iter_filtered_chunked_reverse t q mk)))
    = fst (fst (take_chunks n (sy_fo s) (iter_filtered_chunked_reverse t q mk))).
  Proof.
    intros R K Hs Hq Hca. pose proof (known_sec _ _ _ R K) as Hsec.
    destruct (iter_follow _ _ _ q mk R K Hq) as (n0 & Bh & _ & _ & _ & H). specialize (H RR eq_refl).
    assert (Hn : forall (it : chunk_iter E) s' cs, it_sec sec it -> small_branches (sy_fo s') ->
      (forall rs s2 it', pulls no_loss s' it rs s2 it' -> small_branches (sy_fo s2) -> follows_ok cs rs) ->
      fst (fst (take_chunks n (sy_fo s') it)) = map Ok (firstn n cs)).
    { intros it s' cs Hi Hs' H'. destruct (take_chunks n (sy_fo s') it) as [[rs fo] it'] eqn:Et. cbn [fst].
      pose proof (take_log _ _ _ _ _ _ Hi Et) as El. destruct (take_pulls no_loss _ _ _ _ _ _ Et) as (tl & Htl & Hl & Hp).
      apply H' in Hp; [|unfold small_branches in *; cbn; now rewrite El]. pose proof (take_len _ _ _ _ _ _ Et). eapply follows_ok_firstn; eauto. }
    set (s' := with_fo s (recached (sy_fo s) ca)).
    change (recached (sy_fo s) ca) with (sy_fo s').
    assert (Hp : forall (it : chunk_iter E) rs s2 it', pulls no_loss s' it rs s2 it' -> pulls no_loss s it rs s2 it').
    { intros it rs s2 it' Hp. eapply (pulls_op no_loss s _ (OEvict ca)); [exact Hca|easy|reflexivity|exact Hp]. }
    assert (Hi : it_sec sec (iter_filtered_chunked t q mk) /\ it_sec sec (iter_filtered_chunked_reverse t q mk)).
    { split; destruct t as [[[i sec'] o]|]; first [exact Hsec|exact Logic.I]. }
    split.
    - rewrite (Hn _ s' (expected q mk n0)), (Hn _ s (expected q mk n0)); auto; try apply Hi; intros rs s2 it' Hp'; apply (H rs s2 it'); auto.
    - rewrite (Hn _ s' (rev (expected q mk n0))), (Hn _ s (rev (expected q mk n0))); auto; try apply Hi; intros rs s2 it' Hp'; apply (H rs s2 it'); auto.
  Qed.
End Props.

(** * Concrete cases *)

(** Eleven entries in an unpacked tree; offsets 3 to 8 are asked for. *)
Definition t3 : @Tree ITypes := snapshot (sy_b st3).
Definition q38 : @Query ITypes := offset_range_query (range_incl 3 8).
Definition items {E} (n : nat) (fo : @Forest ITypes IBackend) (it : @chunk_iter ITypes E) := fst (fst (take_chunks n fo it)).
Definition unit_of (_ : @node_info ITypes) := tt.
Definition ranges_of (rs : list (res (@chunk ITypes unit))) : list (option (nat * nat)) :=
  map (fun r => match r with Ok c => Some (c_range c) | _ => None end) rs.

Example C06_case :
  reach no_loss ecfg esec st3 /\ known st3 t3 /\ small_branches (sy_fo st3)
  /\ query_ok q38 (fun o _ => range_contains (range_incl 3 8) o)
  /\ flatten_chunks (items 100 (sy_fo st3) (iter_filtered_chunked t3 q38 unit_of))
     = map Ok (map (fun i => (i, N.of_nat i, N.of_nat (100 + i))) [3; 4; 5; 6; 7; 8]).
Proof.
  splits; [exact st3_ok|now left|apply smallb_ok; vm_compute; reflexivity|apply C37_offset_range|vm_compute; reflexivity].
Qed.
Example C07_C08_case :
  q_sized q38
  /\ ranges_of (items 100 (sy_fo st3) (iter_filtered_chunked t3 q38 unit_of))
     = map Some [(0, 2); (2, 4); (4, 6); (6, 8); (8, 9); (9, 11)]
  /\ ranges_of (items 100 (sy_fo st3) (iter_filtered_chunked_reverse t3 q38 unit_of))
     = map Some [(9, 11); (8, 9); (6, 8); (4, 6); (2, 4); (0, 2)].
Proof. splits; [eapply query_sized, C37_offset_range|vm_compute; reflexivity|vm_compute; reflexivity]. Qed.
(** With most blocks lost, the forward iterator fails at once and the backward
    one after three chunks; both then end. *)
Example C09_case :
  ranges_of (items 100 (damaged (sy_fo st3) part3 []) (iter_filtered_chunked t3 q38 unit_of)) = [None]
  /\ ranges_of (items 100 (damaged (sy_fo st3) part3 []) (iter_filtered_chunked_reverse t3 q38 unit_of))
     = [Some (9, 11); Some (8, 9); Some (6, 8); None].
Proof. split; vm_compute; reflexivity. Qed.

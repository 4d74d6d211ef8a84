(** Properties of reading: C05, C16, C18, C26, C27, C53, C54. Every theorem
    ranges over all histories of a stream (History.v). *)
From Coq Require Import List NArith ZArith Lia Bool String Arith.
From Verif Require Import Base BaseProofs Cbor Types Seq SeqProofs Query QuerySpec World Read Write Api History Spec Ghost Frame ReadProofs Packable WriteProofs QueryProofs PackProofs RetainProofs RepairProofs NoPurged ApiProofs SysProofs HistProofs Instance Example.
Import ListNotations.

Section Props.
  Context {T : Types} {TL : TypesLaws T} {X : Ext} {XL : ExtLaws X}
          {B : Backend T} {BL : BackendLaws T B}.
  Variable cfg : Config.
  Variable sec : Secrets.
  Hypothesis Hcfg : config_ok cfg.

  (** The trees a history knows: the snapshot of the builder, the snapshots
      taken before and the trees loaded from links. *)
  Definition known (s : sys) (t : Tree) : Prop := t = snapshot (sy_b s) \/ In t (sy_snaps s).

  Lemma known_good k s t : reach k cfg sec s -> known s t ->
    fok sec (sy_fo s) /\ snap_good cfg sec (k_lose k = false) (k_repair k = false) (sy_fo s) t.
  Proof.
    intros R K. apply (reach_ok cfg sec Hcfg) in R as S. pose proof S as ((n & I) & _ & Hs).
    split; [apply I|]. destruct K as [->|K]; [eapply snapshot_good; eauto|].
    rewrite Forall_forall in Hs. auto.
  Qed.

  (** [c] is the content of [t] as far as all reads can tell: no read of [t]
      panics, gives anything else, or fails when all blocks are there. *)
  Definition answers (fo : Forest) (t : Tree) (c : list (option (K * V))) : Prop :=
    (forall r fo', collect fo t = (r, fo') -> r = Ok c \/ exists e, r = Err e)
    /\ (forall off r fo', collect_from fo t off = (r, fo') -> r = Ok (skipn off c) \/ exists e, r = Err e)
    /\ (forall i r fo', get fo t i = (r, fo') -> r = Ok (entry c i) \/ exists e, r = Err e).
  Definition answers_all (fo : Forest) (t : Tree) (c : list (option (K * V))) : Prop :=
    (exists fo', collect fo t = (Ok c, fo'))
    /\ (forall off, exists fo', collect_from fo t off = (Ok (skipn off c), fo'))
    /\ (forall i, exists fo', get fo t i = (Ok (entry c i), fo')).

  (** The tree behind a snapshot. *)
  Definition behind (t : Tree) (n : option tree) : Prop :=
    match t, n with
    | None, None => True
    | Some (i, sec', _), Some g => sec' = sec /\ root_ix g = i /\ exists lim, repr sec lim g
    | _, _ => False
    end.

  Lemma snap_behind Av Ps fo t : snap_good cfg sec Av Ps fo t -> exists n, behind t n.
  Proof.
    destruct t as [[[i sec'] o]|]; [|exists None; exact I]. intros (-> & lim & g & G). exists (Some g). cbn.
    split; [easy|]. pose proof (snap_repr cfg sec Av Ps _ _ _ _ G) as R. destruct G as (<- & _). eauto.
  Qed.

  Lemma behind_count t n : behind t n -> tree_count t = List.length (ocontent n).
  Proof.
    destruct t as [[[i sec'] o]|], n as [g|]; cbn [behind]; try easy. intros (_ & <- & lim & R).
    cbn. symmetry. eapply length_content; eauto.
  Qed.

  Lemma behind_collect fo t n off r fo' : fok sec fo -> behind t n -> collect_from fo t off = (r, fo') ->
    (r = Ok (skipn off (ocontent n)) \/ exists e, r = Err e)
    /\ (ReliableReads T B -> oavail (fo_store fo) n -> r = Ok (skipn off (ocontent n))).
  Proof.
    intros F Bh E. destruct t as [[[i sec'] o]|], n as [g|]; cbn [behind] in Bh; try easy.
    - destruct Bh as (-> & <- & lim & R). unfold collect_from in E.
      eapply (read_rd sec) with (P := fun s => avail s g) in E; [apply E|exact F|apply rf_collect0|eapply collect0_rd; [exact R|apply depth_ok]].
    - cbn in E. injection E as <- <-. cbn. destruct off; auto.
  Qed.
  Lemma behind_get fo t n i r fo' : fok sec fo -> behind t n -> get fo t i = (r, fo') ->
    (r = Ok (entry (ocontent n) i) \/ exists e, r = Err e)
    /\ (ReliableReads T B -> oavail (fo_store fo) n -> r = Ok (entry (ocontent n) i)).
  Proof.
    intros F Bh E. destruct t as [[[ix sec'] o]|], n as [g|]; cbn [behind] in Bh; try easy.
    - destruct Bh as (-> & <- & lim & R). unfold get in E.
      eapply (read_rd sec) with (P := fun s => avail s g) in E as (_ & E); [|exact F|apply rf_get0|eapply get0_rd; [exact R|apply depth_ok]].
      rewrite join_entry in E. exact E.
    - cbn in E. injection E as <- <-. unfold entry. cbn. destruct i; auto.
  Qed.

  Lemma behind_answers fo t n : fok sec fo -> behind t n -> answers fo t (ocontent n).
  Proof.
    intros F Bh. unfold answers. splits.
    - intros r fo' E. now apply (behind_collect _ _ n) in E as [E _].
    - intros off r fo' E. now apply (behind_collect _ _ n) in E as [E _].
    - intros i r fo' E. now apply (behind_get _ _ n) in E as [E _].
  Qed.
  Lemma behind_answers_all fo t n : ReliableReads T B -> oavail (fo_store fo) n -> fok sec fo -> behind t n ->
    answers_all fo t (ocontent n).
  Proof.
    intros Re A F Bh. assert (H : forall off, exists fo', collect_from fo t off = (Ok (skipn off (ocontent n)), fo')).
    { intros off. destruct (collect_from fo t off) as [r fo'] eqn:E. exists fo'.
      apply (behind_collect _ _ n) in E as [_ E]; auto. now rewrite E. }
    unfold answers_all. splits; [exact (H 0)|exact H|].
    intros i. destruct (get fo t i) as [r fo'] eqn:E. exists fo'.
    apply (behind_get _ _ n) in E as [_ E]; auto. now rewrite E.
  Qed.

  Lemma behind_avail (Av Ps : Prop) fo t n : snap_good cfg sec Av Ps fo t -> behind t n -> Av -> small_branches fo ->
    oavail (fo_store fo) n.
  Proof.
    destruct t as [[[i sec'] o]|], n as [g|]; cbn [behind]; try easy.
    intros (-> & lim & g' & G) (_ & E & lim' & R) av Hs.
    assert (g' = g) as <-. { eapply repr_det; [eapply snap_repr; eauto|exact R|]. destruct G as [-> _]. congruence. }
    eapply snap_avail; eauto. now apply small_fits.
  Qed.

  Lemma snap_grow (Av Ps : Prop) fo fo' t :
    (exists new, fo_log fo' = fo_log fo ++ new) ->
    (Av -> forall l d, sblocks (fo_store fo) l = Some d -> sblocks (fo_store fo') l = Some d) ->
    snap_good cfg sec Av Ps fo t -> snap_good cfg sec Av Ps fo' t.
  Proof.
    intros (new & Hl) Hb. destruct t as [[[i sec'] o]|]; [|easy].
    intros (-> & lim & g & E & g0 & ((R & I & A & P) & K) & Hr). split; [easy|]. exists lim, g. split; [exact E|].
    exists g0. split; [|exact Hr]. split; [|exact K]. split; [exact R|]. split; [exact I|]. split; [|exact P]. intros av Hf. eapply avail_mono; [apply (Hb av)|].
    apply (A av). unfold log_fits in *. cbn [w_log wof] in *. rewrite Hl in Hf. now apply Forall_app in Hf.
  Qed.

  Lemma known_later k s s' t : reach k cfg sec s -> hist k s s' -> known s t ->
    fok sec (sy_fo s') /\ snap_good cfg sec (k_lose k = false) (k_repair k = false) (sy_fo s') t.
  Proof.
    intros R H K. destruct (known_good _ _ _ R K) as [F G]. apply (reach_ok cfg sec Hcfg) in R as S.
    destruct (hist_ok cfg sec Hcfg k _ _ S H) as (S' & _ & Hlog & Hb).
    split; [eapply sys_fok; exact S'|]. eapply snap_grow; eauto.
  Qed.

  (** ** C05: count, random access and collect agree *)

  (** There is one list of entries that every read of the tree is a view of. *)
  Theorem C05_views s t :
    reach anything cfg sec s -> known s t ->
    exists c, tree_count t = List.length c /\ answers (sy_fo s) t c.
  Proof.
    intros R K. destruct (known_good _ _ _ R K) as [F G]. destruct (snap_behind _ _ _ _ G) as (n & Bh).
    exists (ocontent n). split; [now apply behind_count|now apply behind_answers].
  Qed.

  Theorem C05_agree s t c :
    reach anything cfg sec s -> known s t -> reads (sy_fo s) t c ->
    tree_count t = List.length c
    /\ (forall i v, gets (sy_fo s) t i v -> v = if Nat.ltb i (tree_count t) then entry c i else None)
    /\ (forall off d, reads_from (sy_fo s) t off d -> d = skipn off c).
  Proof.
    intros R K (fo1 & E1). destruct (C05_views _ _ R K) as (c' & H1 & H2 & H3 & H4).
    destruct (H2 _ _ E1) as [[= <-]|[e [= ]]]. splits; [exact H1| |].
    - intros i v (fo2 & E2). destruct (H4 _ _ _ E2) as [[= ->]|[e [= ]]].
      destruct (Nat.ltb_spec i (tree_count t)); [easy|]. unfold entry. apply nth_overflow. lia.
    - intros off d (fo2 & E2). now destruct (H3 _ _ _ E2) as [[= ->]|[e [= ]]].
  Qed.

  Theorem C05_total s t (RR : ReliableReads T B) :
    reach no_loss cfg sec s -> known s t -> small_branches (sy_fo s) ->
    exists c, tree_count t = List.length c /\ answers_all (sy_fo s) t c.
  Proof.
    intros R K Hs. destruct (known_good _ _ _ R K) as [F G]. destruct (snap_behind _ _ _ _ G) as (n & Bh).
    exists (ocontent n). split; [now apply behind_count|]. apply behind_answers_all; auto. eapply behind_avail; eauto.
  Qed.

  (** ** C18: snapshots are immutable *)

  (** The entries [c] of the tree are fixed when the history knows it: no later
      operation, success or failure, loss of blocks or eviction from the cache
      makes any read of it return anything else, or panic. *)
  Theorem C18_immutable s t :
    reach anything cfg sec s -> known s t ->
    exists c, tree_count t = List.length c /\ forall s', hist anything s s' -> answers (sy_fo s') t c.
  Proof.
    intros R K. destruct (known_good _ _ _ R K) as [F G]. destruct (snap_behind _ _ _ _ G) as (n & Bh).
    exists (ocontent n). split; [now apply behind_count|]. intros s' H.
    destruct (known_later _ _ _ _ R H K) as (F' & _). now apply behind_answers.
  Qed.

  (** If the store keeps its blocks, all later reads succeed. *)
  Theorem C18_total s t (RR : ReliableReads T B) :
    reach no_loss cfg sec s -> known s t ->
    exists c, tree_count t = List.length c
      /\ forall s', hist no_loss s s' -> small_branches (sy_fo s') -> answers_all (sy_fo s') t c.
  Proof.
    intros R K. destruct (known_good _ _ _ R K) as [F G]. destruct (snap_behind _ _ _ _ G) as (n & Bh).
    exists (ocontent n). split; [now apply behind_count|]. intros s' H Hs.
    destruct (known_later _ _ _ _ R H K) as (F' & G'). apply behind_answers_all; auto. eapply behind_avail; eauto.
  Qed.

  (** The same for the structural reads. *)
  Theorem C18_structure s t :
    reach anything cfg sec s -> known s t ->
    exists p roots g, forall s', hist anything s s' ->
      (forall r fo', is_packed (sy_fo s') t = (r, fo') -> r = Ok p \/ exists e, r = Err e)
      /\ (forall r fo', left_roots (sy_fo s') t = (r, fo') -> r = Ok roots \/ exists e, r = Err e)
      /\ (forall r fo', dump_graph (sy_fo s') t (fun _ i => i) = (r, fo') -> r = Ok g \/ exists e, r = Err e).
  Proof.
    intros R K. destruct (known_good _ _ _ R K) as [F G]. destruct t as [[[i sec'] o]|].
    - destruct G as (-> & lim & g & G).
      exists (packed g), (map (fun x => Some (root_ix x, sec, (two64 - 1)%N)) (gleft_roots g)), (gdump (fun _ i => i) None 0 g).
      intros s' H. destruct (known_later _ _ _ _ R H K) as (F' & _ & lim' & g' & G').
      assert (g' = g) as ->.
      { eapply repr_det; [eapply snap_repr; exact G'|eapply snap_repr; exact G|]. destruct G, G'. congruence. }
      splits; intros r fo' E.
      + eapply is_packed_snap in E as (_ & E & _); eauto.
      + eapply left_roots_snap in E as (_ & E & _); eauto.
      + eapply dump_graph_snap in E as (_ & E & _); eauto.
    - exists true, [], ([], []). intros s' H. splits; intros r fo' E; cbn in E; injection E as <- <-; eauto.
  Qed.

  (** ** C26: damaged stores give errors, never wrong data *)

  Definition damaged (fo : Forest) (st : Store) (ca : Cache) : Forest :=
    {| fo_store := st; fo_cache := ca; fo_log := fo_log fo |}.

  (** [c] is what the store gives before the damage. Then some blocks are lost,
      and some entries of the cache. *)
  Theorem C26_damage s t c st ca :
    reach anything cfg sec s -> known s t -> reads (sy_fo s) t c ->
    (forall l d, sblocks st l = Some d -> sblocks (fo_store (sy_fo s)) l = Some d) ->
    (forall l b, cin ca l b -> cin (fo_cache (sy_fo s)) l b) ->
    answers (damaged (sy_fo s) st ca) t c.
  Proof.
    intros R K (fo1 & E1) Hst Hca. destruct (C18_immutable _ _ R K) as (c' & _ & H).
    destruct (H s (hist_start _ _)) as (H1 & _). destruct (H1 _ _ E1) as [[= <-]|[e [= ]]].
    apply (H (with_fo s (damaged (sy_fo s) st ca))).
    eapply (hist_step _ _ (with_fo s {| fo_store := st; fo_cache := fo_cache (sy_fo s); fo_log := fo_log (sy_fo s) |}) (OEvict ca)); [|exact Hca|easy|reflexivity].
    eapply (hist_step _ _ s (OLose st)); [constructor|exact Hst|easy|reflexivity].
  Qed.

  (** ** C27: the branch cache is transparent *)

  Definition recached (fo : Forest) (ca : Cache) : Forest :=
    {| fo_store := fo_store fo; fo_cache := ca; fo_log := fo_log fo |}.

  (** Every read gives the same result for every part [ca] of what earlier
      calls left in the cache; in particular for a cache that kept nothing. *)
  Theorem C27_cache_transparent s t ca (RR : ReliableReads T B) :
    reach no_loss cfg sec s -> known s t -> small_branches (sy_fo s) ->
    (forall l b, cin ca l b -> cin (fo_cache (sy_fo s)) l b) ->
    (forall off, fst (collect_from (recached (sy_fo s) ca) t off) = fst (collect_from (sy_fo s) t off))
    /\ (forall i, fst (get (recached (sy_fo s) ca) t i) = fst (get (sy_fo s) t i))
    /\ fst (is_packed (recached (sy_fo s) ca) t) = fst (is_packed (sy_fo s) t)
    /\ fst (left_roots (recached (sy_fo s) ca) t) = fst (left_roots (sy_fo s) t)
    /\ (forall A (f : nat -> Index -> A), fst (dump_graph (recached (sy_fo s) ca) t f) = fst (dump_graph (sy_fo s) t f)).
  Proof.
    intros R K Hs Hca. destruct (known_good _ _ _ R K) as [F G].
    assert (H : hist no_loss s (with_fo s (recached (sy_fo s) ca))).
    { eapply (hist_step _ _ s (OEvict ca)); [constructor|exact Hca|easy|reflexivity]. }
    destruct (known_later _ _ _ _ R H K) as (F' & G'). cbn [sy_fo with_fo] in F', G'.
    set (fo' := recached (sy_fo s) ca) in *. assert (Hs' : small_branches fo') by exact Hs.
    destruct (snap_behind _ _ _ _ G) as (n & Bh).
    pose proof (behind_avail _ _ _ _ _ G Bh eq_refl Hs) as A. pose proof (behind_avail _ _ _ _ _ G' Bh eq_refl Hs') as A'.
    pose proof (behind_answers_all _ _ _ RR A F Bh) as (_ & H1 & H2).
    pose proof (behind_answers_all _ _ _ RR A' F' Bh) as (_ & H1' & H2'). splits.
    - intros off. destruct (H1 off) as [? ->]. destruct (H1' off) as [? ->]. reflexivity.
    - intros i. destruct (H2 i) as [? ->]. destruct (H2' i) as [? ->]. reflexivity.
    - destruct t as [[[i sec'] o]|]; [|reflexivity]. destruct n as [g|]; [|easy]. cbn in A, A'.
      destruct Bh as (-> & E & lim0 & R0). destruct G as (_ & lim & g1 & G). destruct G' as (_ & lim' & g2 & G').
      assert (g1 = g) as ->. { eapply repr_det; [eapply snap_repr; exact G|exact R0|]. destruct G. congruence. }
      assert (g2 = g) as ->. { eapply repr_det; [eapply snap_repr; exact G'|exact R0|]. destruct G'. congruence. }
      destruct (is_packed (sy_fo s) _) as [r1 f1] eqn:E1. destruct (is_packed fo' _) as [r2 f2] eqn:E2.
      eapply is_packed_snap in E1 as (_ & _ & E1); eauto. eapply is_packed_snap in E2 as (_ & _ & E2); eauto.
      cbn. rewrite E1, E2; auto.
    - destruct t as [[[i sec'] o]|]; [|reflexivity]. destruct n as [g|]; [|easy]. cbn in A, A'.
      destruct Bh as (-> & E & lim0 & R0). destruct G as (_ & lim & g1 & G). destruct G' as (_ & lim' & g2 & G').
      assert (g1 = g) as ->. { eapply repr_det; [eapply snap_repr; exact G|exact R0|]. destruct G. congruence. }
      assert (g2 = g) as ->. { eapply repr_det; [eapply snap_repr; exact G'|exact R0|]. destruct G'. congruence. }
      destruct (left_roots (sy_fo s) _) as [r1 f1] eqn:E1. destruct (left_roots fo' _) as [r2 f2] eqn:E2.
      eapply left_roots_snap in E1 as (_ & _ & E1); eauto. eapply left_roots_snap in E2 as (_ & _ & E2); eauto.
      cbn. rewrite E1, E2; auto.
    - intros A0 f. destruct t as [[[i sec'] o]|]; [|reflexivity]. destruct n as [g|]; [|easy]. cbn in A, A'.
      destruct Bh as (-> & E & lim0 & R0). destruct G as (_ & lim & g1 & G). destruct G' as (_ & lim' & g2 & G').
      assert (g1 = g) as ->. { eapply repr_det; [eapply snap_repr; exact G|exact R0|]. destruct G. congruence. }
      assert (g2 = g) as ->. { eapply repr_det; [eapply snap_repr; exact G'|exact R0|]. destruct G'. congruence. }
      destruct (dump_graph (sy_fo s) _ _) as [r1 f1] eqn:E1. destruct (dump_graph fo' _ _) as [r2 f2] eqn:E2.
      eapply dump_graph_snap in E1 as (_ & _ & E1); eauto. eapply dump_graph_snap in E2 as (_ & _ & E2); eauto.
      cbn. rewrite E1, E2; auto.
  Qed.

  (** ** C16: the root link can be reloaded *)

  Theorem C16_load_tree s t x o l r fo' :
    reach anything cfg sec s -> known s t ->
    t = Some (IBranch x, sec, o) -> bi_link x = Some l ->
    load_tree (sy_fo s) sec l = (r, fo') ->
    (exists e, r = Err e)
    \/ exists t' c, r = Ok t' /\ tree_count t' = tree_count t /\ tree_link t' = Some l
                    /\ answers (sy_fo s) t c /\ answers fo' t' c.
  Proof.
    intros R K -> El E. destruct (known_good _ _ _ R K) as [F (_ & lim & g & G)].
    pose proof (snap_repr _ _ _ _ _ _ _ _ G) as Rg.
    destruct (load_tree_ok _ _ _ _ _ _ _ _ _ _ _ F G Logic.I El E) as (E1 & E2 & E3 & _).
    destruct E3 as [(t' & ->)|E3]; [right|now left].
    destruct (E2 _ eq_refl) as (i' & o' & g' & -> & G' & Hr & _). exists (Some (i', sec, o')), (content g).
    destruct G as [Ei _]. assert (F' : fok sec fo') by (eapply fext_fok; [apply (fsame_fext sec _ _ 0%N E1)|exact F]).
    pose proof (snap_repr _ _ _ _ _ _ _ _ G') as Rg'. destruct G' as [<- _]. splits; auto.
    - cbn. rewrite (relabel_count _ _ Hr). now rewrite Ei.
    - cbn. rewrite (relabel_link _ _ Hr). rewrite Ei. exact El.
    - apply (behind_answers _ _ (Some g)); [exact F|]. cbn. eauto.
    - rewrite <- (relabel_content _ _ Hr). apply (behind_answers _ _ (Some g')); [exact F'|]. cbn. eauto.
  Qed.

  (** Loading succeeds when the store has its blocks, and so do all reads. *)
  Theorem C16_load_tree_total s t x o l (RR : ReliableReads T B) :
    reach no_loss cfg sec s -> known s t -> small_branches (sy_fo s) ->
    t = Some (IBranch x, sec, o) -> bi_link x = Some l ->
    exists t' fo' c, load_tree (sy_fo s) sec l = (Ok t', fo') /\ tree_count t' = tree_count t
                     /\ answers_all (sy_fo s) t c /\ answers_all fo' t' c.
  Proof.
    intros R K Hs -> El. destruct (known_good _ _ _ R K) as [F (_ & lim & g & G)].
    pose proof (snap_repr _ _ _ _ _ _ _ _ G) as Rg.
    assert (A : avail (fo_store (sy_fo s)) g) by (eapply snap_avail; [exact G|easy|now apply small_fits]).
    destruct (load_tree (sy_fo s) sec l) as [r fo'] eqn:E.
    destruct (load_tree_ok _ _ _ _ _ _ _ _ _ _ _ F G Logic.I El E) as (E1 & E2 & _ & E4).
    destruct E4 as (t' & ->); [exact RR|now apply avail_avail_branches|].
    destruct (E2 _ eq_refl) as (i' & o' & g' & -> & G' & Hr & _). exists (Some (i', sec, o')), fo', (content g).
    destruct G as [Ei _]. assert (F' : fok sec fo') by (eapply fext_fok; [apply (fsame_fext sec _ _ 0%N E1)|exact F]).
    pose proof (snap_repr _ _ _ _ _ _ _ _ G') as Rg'. destruct G' as [<- _]. splits; auto.
    - cbn. rewrite (relabel_count _ _ Hr). now rewrite Ei.
    - apply (behind_answers_all _ _ (Some g)); [exact RR|exact A|exact F|]. cbn. eauto.
    - rewrite <- (relabel_content _ _ Hr). apply (behind_answers_all _ _ (Some g')); [exact RR| |exact F'|cbn; eauto].
      cbn. eapply avail_mono; [|eapply relabel_avail; eauto]. intros b d. apply (wext_blocks _ _ _ _ _ (fsame_fext sec _ _ 0%N E1)).
  Qed.

  (** A stream builder loaded from the link of the live one has the same
      content and the same root record, key size apart. *)
  Theorem C16_load_builder s x l r fo' :
    reach anything cfg sec s ->
    b_root (sy_b s) = Some (IBranch x) -> bi_link x = Some l ->
    load_stream_builder (sy_fo s) sec cfg l = (r, fo') ->
    (exists e, r = Err e)
    \/ exists b' x' c, r = Ok b' /\ b_root b' = Some (IBranch x')
          /\ bi_link x' = bi_link x /\ bi_level x' = bi_level x /\ bi_count x' = bi_count x
          /\ bi_sealed x' = bi_sealed x /\ branch_sums x' = branch_sums x /\ bi_vbytes x' = bi_vbytes x
          /\ answers (sy_fo s) (snapshot (sy_b s)) c /\ answers fo' (snapshot b') c.
  Proof.
    intros R Er El E. destruct (reach_b cfg sec Hcfg _ _ R) as (n & I). pose proof I as (F & Es & Ec & Er' & Gn).
    destruct n as [g|]; [|rewrite Er in Er'; discriminate]. apply binv_snap in I as (_ & Esn & G).
    rewrite Er in Er'. injection Er' as Ei. rewrite <- Ei in G.
    destruct (load_builder cfg sec Hcfg _ _ _ _ _ _ _ _ _ F G Logic.I El E) as (E1 & E2 & E3 & _).
    destruct E3 as [(b' & ->)|E3]; [right|now left].
    destruct (E2 _ eq_refl) as (g' & I' & Hr & _).
    pose proof I' as (F' & Es' & Ec' & Er'' & Gn').
    destruct g as [| |x0 cs|]; try discriminate Ei; injection Ei as <-.
    2: { destruct Gn as ((Rg & _) & _). cbn in Rg. congruence. }
    destruct g' as [| |x' cs'|]; try discriminate Hr. pose proof Hr as [(H1 & H2 & H3 & H4 & H5) ->].
    exists b', x', (content (TBranch x cs)). splits; auto.
    - destruct Gn as ((_ & Iv & _) & _). destruct Gn' as ((_ & Iv' & _) & _).
      apply inv_branch in Iv as (_ & Iv & _). apply inv_branch in Iv' as (_ & Iv' & _). now rewrite Iv, Iv', H2.
    - apply (behind_answers _ _ (Some (TBranch x cs))); [exact F|]. rewrite Esn. cbn [behind]. splits; auto.
      destruct Gn as ((Rg & _) & _). eauto.
    - apply (behind_answers _ _ (Some (TBranch x' cs))); [exact F'|]. unfold snapshot. rewrite Er'', Es'. cbn [behind option_map]. splits; auto.
      destruct Gn' as ((Rg & _) & _). eauto.
  Qed.

  Theorem C16_load_builder_total s x l (RR : ReliableReads T B) :
    reach no_loss cfg sec s -> small_branches (sy_fo s) ->
    b_root (sy_b s) = Some (IBranch x) -> bi_link x = Some l ->
    exists b' fo', load_stream_builder (sy_fo s) sec cfg l = (Ok b', fo').
  Proof.
    intros R Hs Er El. destruct (reach_b cfg sec Hcfg _ _ R) as (n & I). pose proof I as (F & Es & Ec & Er' & Gn).
    pose proof (binv_avail _ _ _ _ _ _ _ I eq_refl Hs) as A.
    destruct n as [g|]; [|rewrite Er in Er'; discriminate]. apply binv_snap in I as (_ & Esn & G).
    rewrite Er in Er'. injection Er' as Ei. rewrite <- Ei in G.
    destruct (load_stream_builder (sy_fo s) sec cfg l) as [r fo'] eqn:E.
    destruct (load_builder cfg sec Hcfg _ _ _ _ _ _ _ _ _ F G Logic.I El E) as (_ & _ & _ & E4).
    destruct E4 as (b' & ->); [exact RR|now apply avail_avail_branches|eauto].
  Qed.

  (** ** C54: left roots are prefixes *)

  Lemma gleft_prefix t : forall lim, repr sec lim t ->
    Forall (fun g => (exists lim', repr sec lim' g) /\ exists rest, content t = content g ++ rest) (gleft_roots t).
  Proof.
    induction t using tree_ind'; intros lim R; cbn [gleft_roots].
    1, 2, 4: repeat constructor; [eauto|exists []; now rewrite app_nil_r].
    destruct cs as [|c cs]; [repeat constructor; [eauto|exists []; now rewrite app_nil_r]|].
    apply Forall_app. split; [|repeat constructor; [eauto|exists []; now rewrite app_nil_r]].
    apply repr_branch in R as (_ & _ & _ & _ & blk & r & _ & _ & _ & R).
    apply Forall_inv in H. apply Forall_inv in R. eapply Forall_impl; [|eapply H; exact R].
    cbn beta. intros g (H1 & rest & H2). split; [exact H1|]. cbn [content flat_map]. rewrite H2, <- app_assoc. eauto.
  Qed.

  (** Each is a prefix of the next one. *)
  Fixpoint prefix_chain {A} (l : list (list A)) : Prop :=
    match l with
    | a :: (b :: _) as l' => (exists rest, b = a ++ rest) /\ prefix_chain l'
    | _ => True
    end.

  Lemma prefix_chain_snoc {A} (l : list (list A)) a : prefix_chain l ->
    (forall b, last (map Some l) None = Some b -> exists rest, a = b ++ rest) -> prefix_chain (l ++ [a]).
  Proof.
    induction l as [|b l IH]; [easy|]. intros H1 H2. destruct l as [|c l].
    - cbn. split; [|easy]. now apply H2.
    - destruct H1 as [H0 H1]. split; [exact H0|]. apply IH; [exact H1|]. intros d Hd. now apply H2.
  Qed.

  Lemma last_some {A C} (f : A -> C) (l : list A) a : last (map Some (map f (l ++ [a]))) None = Some (f a).
  Proof. rewrite !map_app. cbn. now rewrite last_last. Qed.

  Lemma gleft_last t : exists l, gleft_roots t = l ++ [t].
  Proof. destruct t as [| |x [|c cs]|]; cbn [gleft_roots]; try (now exists []). eauto. Qed.

  Lemma gleft_chain t : prefix_chain (map content (gleft_roots t)).
  Proof.
    induction t using tree_ind'; cbn; auto. destruct cs as [|c cs]; [easy|].
    apply Forall_inv in H. rewrite map_app. apply prefix_chain_snoc; [exact H|].
    intros b. destruct (gleft_last c) as (l & ->). rewrite last_some. intros [= <-]. cbn. eauto.
  Qed.

  (** The trees returned, with their contents: each one a prefix of the next,
      the last one the tree itself. *)
  Theorem C54_left_roots s t ts fo' :
    reach anything cfg sec s -> known s t -> t <> None ->
    left_roots (sy_fo s) t = (Ok ts, fo') ->
    exists cs c, answers (sy_fo s) t c
      /\ Forall2 (answers fo') ts cs /\ Forall2 (fun t' c' => tree_count t' = List.length c') ts cs
      /\ prefix_chain cs /\ last cs [] = c /\ ts <> [].
  Proof.
    intros R K Hne E. destruct (known_good _ _ _ R K) as [F G]. destruct t as [[[i sec'] o]|]; [|easy].
    destruct G as (-> & lim & g & G). pose proof (snap_repr _ _ _ _ _ _ _ _ G) as Rg. destruct (left_roots_snap _ _ _ _ _ _ _ _ _ _ _ F G E) as (W & [H|[e H]] & _); [|discriminate].
    injection H as ->. assert (F' : fok sec fo') by (eapply fext_fok; [apply (fsame_fext sec _ _ 0%N W)|exact F]).
    exists (map content (gleft_roots g)), (content g). splits.
    - apply (behind_answers _ _ (Some g)); [exact F|]. destruct G as [<- _]. cbn. eauto.
    - pose proof (gleft_prefix _ _ Rg) as Hp. clear E. induction Hp as [|g1 l ((lim1 & H1) & _) _ IH]; cbn; constructor; auto.
      apply (behind_answers _ _ (Some g1)); [exact F'|]. cbn. eauto.
    - pose proof (gleft_prefix _ _ Rg) as Hp. clear E. induction Hp as [|g1 l ((lim1 & H1) & _) _ IH]; cbn; constructor; auto.
      cbn. symmetry. eapply length_content; eauto.
    - apply gleft_chain.
    - destruct (gleft_last g) as (l & ->). rewrite map_app. cbn. apply last_last.
    - destruct (gleft_last g) as (l & ->). rewrite map_app. now destruct (map _ l).
  Qed.

  (** ** C53: the graph dump is the tree *)

  (** The children recorded in the block whose digest is the link of a branch. *)
  Definition block_children (i : Index) (cs : list Index) : Prop :=
    match i with
    | IBranch x =>
        match bi_link x with
        | Some l => exists blk rg, l = digest blk /\ branch_block (index_key sec) blk cs rg
        | None => cs = []
        end
    | ILeaf _ => cs = []
    end.

  Definition targets (es : list (nat * nat)) (p : nat) : list nat :=
    map snd (filter (fun e => Nat.eqb (fst e) p) es).

  (** A graph with nodes [a .. a+n-1], one edge into each but the first, and for
      each node edges to its children, in order. *)
  Definition graph_ok (a : nat) (es : list (nat * nat)) (ns : list (nat * Index)) : Prop :=
    map fst ns = seq a (List.length ns)
    /\ map snd es = seq (S a) (List.length ns - 1)
    /\ Forall (fun e => a <= fst e < snd e) es
    /\ forall p i, In (p, i) ns -> exists cs, block_children i cs
         /\ Forall2 (fun j c => In (j, c) ns) (targets es p) cs.

  Lemma Forall2_weaken {A C} (P Q : A -> C -> Prop) l l' : (forall a c, P a c -> Q a c) -> Forall2 P l l' -> Forall2 Q l l'.
  Proof. intros H. induction 1; constructor; auto. Qed.
  Lemma targets_app a b p : targets (a ++ b) p = targets a p ++ targets b p.
  Proof. unfold targets. now rewrite filter_app, map_app. Qed.
  Lemma targets_none es p : Forall (fun e => fst e <> p) es -> targets es p = [].
  Proof.
    unfold targets. induction 1 as [|e es H _ IH]; [easy|]. cbn. apply Nat.eqb_neq in H. now rewrite H.
  Qed.
  Lemma seq_in ns a p (i : Index) : map fst ns = seq a (List.length ns) -> In (p, i) ns -> a <= p < a + List.length ns.
  Proof. intros E H. apply (in_map fst) in H. rewrite E in H. now apply in_seq in H. Qed.

  Notation gd := (gdump (fun _ i => i)).

  Lemma gdump_parent p id t : gd (Some p) id t = ((p, id) :: fst (gd None id t), snd (gd None id t)).
  Proof.
    destruct t as [| |x cs|]; cbn [gdump]; try reflexivity.
    assert (L : forall cs cur es ns,
      (fix go (cs : list tree) (cur : nat) edges nodes {struct cs} :=
           match cs with
           | [] => (edges, nodes)
           | c :: cs' =>
               let '(e, n) := gd (Some id) (cur + 1) c in
               go cs' (cur + List.length n) (edges ++ e) (nodes ++ n)
           end) cs cur ((p, id) :: es) ns =
      let g := (fix go (cs : list tree) (cur : nat) edges nodes {struct cs} :=
           match cs with
           | [] => (edges, nodes)
           | c :: cs' =>
               let '(e, n) := gd (Some id) (cur + 1) c in
               go cs' (cur + List.length n) (edges ++ e) (nodes ++ n)
           end) cs cur es ns in ((p, id) :: fst g, snd g)).
    { clear. induction cs as [|c cs IH]; intros cur es ns; [reflexivity|].
      destruct (gd (Some id) (cur + 1) c) as [e n]. apply (IH _ (es ++ e)). }
    apply L.
  Qed.

  Lemma gdump_ok t : forall lim id, repr sec lim t ->
    exists es ns, gd None id t = (es, (id, root_ix t) :: ns) /\ graph_ok id es ((id, root_ix t) :: ns).
  Proof.
    assert (H0 : forall id i, block_children i [] -> graph_ok id [] [(id, i)]).
    { intros id i Hb. red. split; [reflexivity|]. split; [reflexivity|]. split; [constructor|].
      intros p j [Ej|[]]. injection Ej as <- <-. exists []. split; [exact Hb|constructor]. }
    induction t using tree_ind'; intros lim id R; cbn [gdump root_ix].
    1, 2: exists [], []; split; [easy|now apply H0].
    2: { exists [], []. split; [easy|]. apply H0. cbn. cbn in R. now rewrite R. }
    apply repr_branch in R as (_ & _ & _ & _ & blk & r & Hl & Hb & _ & R).
    assert (Hc : block_children (IBranch x) (map root_ix cs)) by (cbn; rewrite Hl; eauto). clear Hl Hb H0.
    set (root := IBranch x) in *.
    (* the loop *)
    assert (L : forall rest done es ns, cs = done ++ rest ->
      map fst ((id, root) :: ns) = seq id (S (List.length ns)) ->
      map snd es = seq (S id) (List.length ns) ->
      Forall (fun e => id <= fst e < snd e) es ->
      (forall p i, In (p, i) ns -> exists cs, block_children i cs /\ Forall2 (fun j c => In (j, c) ((id, root) :: ns)) (targets es p) cs) ->
      Forall2 (fun j c => In (j, c) ((id, root) :: ns)) (targets es id) (map root_ix done) ->
      exists es' ns',
        (fix go (cs : list tree) (cur : nat) edges nodes {struct cs} :=
           match cs with
           | [] => (edges, nodes)
           | c :: cs' =>
               let '(e, n) := gd (Some id) (cur + 1) c in
               go cs' (cur + List.length n) (edges ++ e) (nodes ++ n)
           end) rest (id + List.length ns) es ((id, root) :: ns) = (es', (id, root) :: ns')
        /\ graph_ok id es' ((id, root) :: ns')).
    { induction rest as [|c rest IH]; intros done es ns Ed I1 I2 I3 I4 I5.
      - exists es, ns. split; [reflexivity|]. unfold graph_ok. splits; auto.
        + cbn [List.length]. now rewrite Nat.sub_succ, Nat.sub_0_r.
        + intros p i [[= <- <-]|Hin]; [|now apply I4]. exists (map root_ix cs). split; [exact Hc|].
          rewrite app_nil_r in Ed. now rewrite Ed.
      - rewrite gdump_parent. rewrite Ed in H, R. apply Forall_app in H as [_ H]. apply Forall_app in R as [_ R].
        apply Forall_inv in H. apply Forall_inv in R. replace (id + List.length ns + 1) with (id + S (List.length ns)) by lia.
        set (a := id + S (List.length ns)) in *. destruct (H _ a R) as (e' & n' & E1 & G1 & G2 & G3 & G4).
        rewrite E1. cbn [fst snd List.length] in *.
        assert (T0 : Forall (fun e => fst e < a) es).
        { apply Forall_forall. intros e He. assert (Hs : In (snd e) (map snd es)) by now apply in_map.
          rewrite I2 in Hs. apply in_seq in Hs. rewrite Forall_forall in I3. apply I3 in He. unfold a. lia. }
        replace (id + List.length ns + S (List.length n')) with (id + List.length (ns ++ (a, root_ix c) :: n')) by (rewrite app_length; cbn; lia).
        rewrite <- app_comm_cons.
        assert (Tlow : forall p, p < a -> targets e' p = []).
        { intros p Hp. apply targets_none. eapply Forall_impl; [|exact G3]. cbn beta. intros e. lia. }
        assert (Thigh : forall p, a <= p -> targets es p = []).
        { intros p Hp. apply targets_none. eapply Forall_impl; [|exact T0]. cbn beta. intros e. lia. }
        assert (Tnew : forall p, targets (es ++ (id, a) :: e') p = targets es p ++ (if Nat.eqb id p then [a] else []) ++ targets e' p).
        { intros p. rewrite targets_app. f_equal. unfold targets. cbn. now destruct (Nat.eqb id p). }
        assert (Hincl : forall j i, In (j, i) ((id, root) :: ns) -> In (j, i) ((id, root) :: ns ++ (a, root_ix c) :: n')).
        { intros j i [Hj|Hj]; [now left|right]. apply in_or_app. now left. }
        assert (Hincr : forall j i, In (j, i) ((a, root_ix c) :: n') -> In (j, i) ((id, root) :: ns ++ (a, root_ix c) :: n')).
        { intros j i Hj. right. apply in_or_app. now right. }
        apply (IH (done ++ [c])).
        + now rewrite <- app_assoc.
        + cbn [map fst] in *. injection I1 as I1. cbn [seq]. f_equal. rewrite map_app, I1. cbn [map fst].
          rewrite app_length. cbn [List.length]. rewrite seq_app. f_equal. cbn [seq]. f_equal; [unfold a; lia|].
          injection G1 as G1. rewrite G1. f_equal. unfold a. lia.
        + rewrite map_app, app_length. cbn [map snd List.length]. rewrite seq_app, I2. f_equal. cbn [seq]. f_equal; [unfold a; lia|].
          rewrite G2. f_equal; unfold a; lia.
        + apply Forall_app. split; [exact I3|]. constructor; [cbn; unfold a; lia|].
          eapply Forall_impl; [|exact G3]. cbn beta. unfold a. intros e. lia.
        + intros p i Hin. rewrite Tnew. apply in_app_or in Hin as [Hin|Hin].
          * destruct (I4 _ _ Hin) as (cs0 & J1 & J2). exists cs0. split; [exact J1|].
            assert (Hp : S id <= p < a).
            { assert (J : In p (map fst ns)) by (apply (in_map fst) in Hin; exact Hin). injection I1 as I1. rewrite I1 in J. apply in_seq in J. unfold a. lia. }
            rewrite (proj2 (Nat.eqb_neq id p)) by lia. rewrite (Tlow p) by lia. rewrite !app_nil_r.
            eapply Forall2_weaken; [|exact J2]. cbn beta. auto.
          * destruct (G4 _ _ Hin) as (cs0 & J1 & J2). exists cs0. split; [exact J1|].
            assert (Hp : a <= p).
            { assert (J : In p (map fst ((a, root_ix c) :: n'))) by (apply (in_map fst) in Hin; exact Hin). rewrite G1 in J. apply in_seq in J. lia. }
            rewrite (Thigh p Hp). rewrite (proj2 (Nat.eqb_neq id p)) by (unfold a in *; lia).
            eapply Forall2_weaken; [|exact J2]. cbn beta. auto.
        + rewrite Tnew, Nat.eqb_refl. rewrite (Tlow id) by (unfold a; lia). rewrite app_nil_r, map_app.
          apply Forall2_app; [eapply Forall2_weaken; [|exact I5]; cbn beta; auto|].
          constructor; [|constructor]. apply Hincr. now left. }
    destruct (L cs [] [] [] eq_refl eq_refl eq_refl (Forall_nil _)) as (es' & ns' & E & G); [easy|constructor|].
    exists es', ns'. split; [|exact G]. rewrite <- E. cbn [List.length]. now rewrite Nat.add_0_r.
  Qed.

  Lemma gdump_map {S} (f : nat -> Index -> S) t : forall p id,
    gdump f p id t = (fst (gd p id t), map (fun n => (fst n, f (fst n) (snd n))) (snd (gd p id t))).
  Proof.
    induction t using tree_ind'; intros p id; cbn [gdump root_ix]; try reflexivity.
    generalize (match p with Some p0 => [(p0, id)] | None => [] end).
    change [(id, f id (IBranch x))] with (map (fun n => (fst n, f (fst n) (snd n))) [(id, IBranch x)]).
    generalize [(id, IBranch x)]. generalize id at 2 4 6.
    induction cs as [|c cs IH]; intros cur ns es; [reflexivity|].
    pose proof (Forall_inv H) as Hc. apply Forall_inv_tail in H. rewrite Hc. destruct (gd (Some id) (cur + 1) c) as [e n].
    cbn [fst snd]. rewrite map_length, <- map_app. now apply IH.
  Qed.

  (** [dump_graph] returns a graph of the nodes of the tree, each mapped with
      the given function: numbered from 0 in depth first order, one edge into
      each node but the root, and from each node one to each child in order. *)
  Theorem C53_dump_graph {S} s t (f : nat -> Index -> S) es ns fo' :
    reach anything cfg sec s -> known s t ->
    dump_graph (sy_fo s) t f = (Ok (es, ns), fo') ->
    exists i sec' o is, t = Some (i, sec', o)
      /\ graph_ok 0 es ((0, i) :: is)
      /\ ns = map (fun n => (fst n, f (fst n) (snd n))) ((0, i) :: is).
  Proof.
    intros R K E. destruct (known_good _ _ _ R K) as [F G]. destruct t as [[[i sec'] o]|]; [|discriminate].
    destruct G as (-> & lim & g & G). pose proof (snap_repr _ _ _ _ _ _ _ _ G) as Rg.
    destruct (dump_graph_snap _ _ _ _ _ _ _ _ _ _ _ _ F G E) as (_ & [H|[e H]] & _); [|discriminate].
    destruct G as [<- _]. rewrite gdump_map in H. destruct (gdump_ok _ _ 0 Rg) as (es' & is & E1 & G1).
    rewrite E1 in H. injection H as -> ->. exists (root_ix g), sec, o, is. splits; auto.
  Qed.

  Theorem C53_dump_graph_total {S} s t (f : nat -> Index -> S) (RR : ReliableReads T B) :
    reach no_loss cfg sec s -> known s t -> small_branches (sy_fo s) -> t <> None ->
    exists g fo', dump_graph (sy_fo s) t f = (Ok g, fo').
  Proof.
    intros R K Hs Hn. destruct (known_good _ _ _ R K) as [F G]. destruct t as [[[i sec'] o]|]; [|easy].
    destruct G as (-> & lim & g & G).
    assert (A : avail (fo_store (sy_fo s)) g) by (eapply snap_avail; [exact G|easy|now apply small_fits]).
    destruct (dump_graph _ _ _) as [r fo'] eqn:E. destruct (dump_graph_snap _ _ _ _ _ _ _ _ _ _ _ _ F G E) as (_ & _ & H).
    rewrite H; eauto.
  Qed.
End Props.

(** * Concrete cases *)
Definition isErr {A} (r : res A) : bool := match r with Err _ => true | _ => false end.

(** A snapshot of five entries, taken before the tree grew to eleven. *)
Definition old3 : Tree := nth 0 (sy_snaps st3) None.
Example C05_C18_case :
  reach anything ecfg esec st3 /\ reach no_loss ecfg esec st3 /\ config_ok ecfg /\ small_branches (sy_fo st3)
  /\ known st3 (snapshot (sy_b st3)) /\ known st3 old3
  /\ reads (sy_fo st3) (snapshot (sy_b st3)) (map Some (pairs 0 11))
  /\ reads (sy_fo st3) old3 (map Some (pairs 0 5))
  /\ gets (sy_fo st3) (snapshot (sy_b st3)) 7 (Some (7, 107)%N).
Proof.
  splits; [apply no_loss_any, st3_ok|exact st3_ok|exact ecfg_ok|apply smallb_ok; vm_compute; reflexivity|now left| |..].
  - right. apply nth_In. apply Nat.ltb_lt. vm_compute. reflexivity.
  - apply reads_c. vm_compute. reflexivity.
  - apply reads_c. vm_compute. reflexivity.
  - apply gets_c. vm_compute. reflexivity.
Qed.

(** All but the newest eight blocks are lost, and the cache is empty: some
    entries can still be read, others cannot. *)
Definition part3 : @Store ITypes IBackend :=
  (fst (fo_store (sy_fo st3)), firstn 8 (snd (fo_store (sy_fo st3)))).
Example C26_case :
  (forall l d, sblocks part3 l = Some d -> sblocks (fo_store (sy_fo st3)) l = Some d)
  /\ map (fun i => isErr (fst (get (damaged (sy_fo st3) part3 []) (snapshot (sy_b st3)) i))) (seq 0 11)
     = [true; true; true; true; true; true; false; false; false; false; false].
Proof.
  split; [|vm_compute; reflexivity]. apply (op_okb_ok (OLose part3) st3). vm_compute. reflexivity.
Qed.
(** The cache of [st3] is not empty, so dropping all of it is a case of C27. *)
Example C27_case :
  (forall l b, cin ([] : @Cache ITypes IBackend) l b -> cin (fo_cache (sy_fo st3)) l b)
  /\ (List.length (fo_cache (sy_fo st3)) =? 0) = false
  /\ fst (collect {| fo_store := fo_store (sy_fo st3); fo_cache := ([] : @Cache ITypes IBackend); fo_log := fo_log (sy_fo st3) |}
                  (snapshot (sy_b st3))) = Ok (map Some (pairs 0 11)).
Proof. split; [intros l b []|split; vm_compute; reflexivity]. Qed.

Definition lnk (t : @Tree ITypes) : @L ITypes := match tree_link t with Some l => l | None => [] end.
(** The root of [st3] is a branch with a link; loading from it gives the eleven
    entries again, from the tree and from the builder. *)
Example C16_case :
  branch_root (snapshot (sy_b st3)) /\ tree_link (snapshot (sy_b st3)) = Some (lnk (snapshot (sy_b st3)))
  /\ (let '(r, fo') := load_tree (sy_fo st3) esec (lnk (snapshot (sy_b st3))) in
      match r with Ok t' => fst (collect fo' t') | _ => Err EMissing end) = Ok (map Some (pairs 0 11))
  /\ (let '(r, fo') := load_stream_builder (sy_fo st3) esec ecfg (lnk (snapshot (sy_b st3))) in
      match r with Ok b' => fst (collect fo' (snapshot b')) | _ => Err EMissing end) = Ok (map Some (pairs 0 11)).
Proof. splits; vm_compute; reflexivity || exact Logic.I. Qed.
(** The root of [st3] has several levels below it. *)
Example C54_case :
  rmap (map tree_count) (fst (left_roots (sy_fo st3) (snapshot (sy_b st3)))) = Ok [2; 4; 6; 9; 11].
Proof. vm_compute. reflexivity. Qed.
Example C53_case :
  rmap fst (fst (dump_graph (sy_fo st3) (snapshot (sy_b st3)) (fun n _ => n)))
  = Ok [(0, 1); (1, 2); (2, 3); (3, 4); (3, 5); (2, 6); (6, 7); (1, 8); (8, 9); (8, 10); (0, 11); (11, 12)].
Proof. vm_compute. reflexivity. Qed.

(** Copies of trees made without their keys: C98. *)
From Coq Require Import List NArith ZArith Lia Bool String Arith.
From Verif Require Import Base BaseProofs Cbor Types Seq SeqProofs Query QuerySpec World Read Write Api History Spec Ghost Frame ReadProofs Packable WriteProofs QueryProofs PackProofs RetainProofs RepairProofs NoPurged ApiProofs SysProofs HistProofs Instance Example LogProofs PropsRead PropsLog PropsLocal PropsReuse PropsWaste.
Import ListNotations.

(** ** Specification *)
Section Spec.
  Context {T : Types} {X : Ext} {B : Backend T}.

  (** The links anybody sees in a block: those in its header, which is not
      encrypted. *)
  Definition visible (blk : bytes) (l : L) : Prop :=
    exists off cids data cid, decode_block blk = Some (off, cids, data) /\ In cid cids /\ l_of_cid cid = Some l.

  (** What is found in a store by following visible links, starting with [l0]. *)
  Inductive found (st : Store) (l0 : L) : L -> Prop :=
  | found_root : found st l0 l0
  | found_link l blk l' : found st l0 l -> sblocks st l = Some blk -> visible blk l' -> found st l0 l'.

  (** [st'] has at least what is found in [st] from [l0]. *)
  Definition replica (st st' : Store) (l0 : L) : Prop :=
    forall l blk, found st l0 l -> sblocks st l = Some blk -> sblocks st' l = Some blk.

  (** Nothing is cached. *)
  Definition nothing_cached (c : Cache) : Prop := forall l b, ~ cin c l b.

  (** No keys, summaries and values have links inside. *)
  Definition no_links : Prop :=
    (forall k cid, ~ linked (ks_enc k) cid) /\ (forall s cid, ~ linked (ss_enc s) cid) /\ (forall v cid, ~ linked (v_enc v) cid).
End Spec.

Section Props.
  Context {T : Types} {TL : TypesLaws T} {X : Ext} {XL : ExtLaws X} {LL : LinkLaws T X}
          {B : Backend T} {BL : BackendLaws T B}.
  Variable cfg : Config.
  Variable sec : Secrets.
  Hypothesis Hcfg : config_ok cfg.

  Lemma index_linked c l : ilink c = Some l -> linked (enc_index c) (l_cid l).
  Proof.
    intros El. assert (H : linked (clink (Some l)) (l_cid l)) by (cbn [clink]; unfold ccid; apply linked_here, l_cid_read).
    destruct c as [x|x]; cbn in El; cbn [enc_index].
    - apply linked_val with (ctext "link") (clink (Some l)); [|exact H]. cbn. rewrite El. auto 8.
    - apply linked_val with (ctext "link") (clink (Some l)); [|exact H]. cbn. rewrite El. auto 10.
  Qed.

  Lemma branch_visible blk cs c l : branch_links blk cs -> In c cs -> ilink c = Some l -> visible blk l.
  Proof.
    intros (off & d & new & P & D) Hc El. exists off, (add_links [] new), d, (l_cid l). split; [exact D|]. split.
    - rewrite add_links_in, (payload_linked _ _ P). right. exists (enc_index c). split; [now apply in_map|now apply index_linked].
    - apply l_codec.
  Qed.

  Lemma replica_avail (R : L -> Prop) (st st' : Store) : store_ok st ->
    (forall l blk l', R l -> sblocks st l = Some blk -> visible blk l' -> R l') ->
    (forall l blk, R l -> sblocks st l = Some blk -> sblocks st' l = Some blk) ->
    forall t lim, repr sec lim t -> avail st t -> (forall l, ilink (root_ix t) = Some l -> R l) -> avail st' t.
  Proof.
    intros So Hc Hk t. induction t as [x vs|x|x cs IH|x] using tree_ind'; intros lim Rp A Hr; try exact Logic.I.
    - destruct A as ((l & d & A1 & A2) & A3). split; [|exact A3]. exists l, d. split; [exact A1|].
      apply Hk; [|exact A2]. now apply Hr.
    - apply avail_branch in A as ((l & d & A1 & A2) & A3 & A4). apply avail_branch.
      assert (Rl : R l) by now apply Hr.
      apply repr_branch in Rp as (_ & _ & _ & _ & blk & r & E1 & (_ & _ & Hb) & _ & Rc).
      split; [exists l, d; split; [exact A1|now apply Hk]|]. split; [exact A3|].
      rewrite A1 in E1. injection E1 as ->. pose proof (So _ _ A2) as Ed. apply digest_inj in Ed as <-.
      rewrite Forall_forall in *. intros c Ic. apply (IH c Ic (fst r)); auto. intros l' El'.
      eapply Hc; [exact Rl|exact A2|]. eapply branch_visible; [exact Hb| |exact El']. now apply in_map.
  Qed.

  Lemma replica_fok (fo : Forest) st' ca lg : store_ok st' ->
    (ca = fo_cache fo \/ nothing_cached ca) -> fok sec fo -> fok sec {| fo_store := st'; fo_cache := ca; fo_log := lg |}.
  Proof.
    intros So Hca [_ F]. split; [exact So|]. cbn. destruct Hca as [->|Hca]; [exact F|]. intros l b Hl. now destruct (Hca l b).
  Qed.

  (** A tree of a stream reads the same from any store that has what is found by
      following visible links from its root. No key is needed to make such a copy,
      and everything else can be removed from the store. *)
  Theorem C98_replica s t l (RR : ReliableReads T B) :
    reach no_loss cfg sec s -> known s t -> small_branches (sy_fo s) -> tree_link t = Some l ->
    exists c, tree_count t = List.length c /\ answers_all (sy_fo s) t c
      /\ forall st' ca lg, store_ok st' -> replica (fo_store (sy_fo s)) st' l ->
           (ca = fo_cache (sy_fo s) \/ nothing_cached ca) ->
           answers_all {| fo_store := st'; fo_cache := ca; fo_log := lg |} t c.
  Proof.
    intros R K Hs El. destruct (known_good cfg sec Hcfg _ _ _ R K) as [F G]. destruct (snap_behind _ _ _ _ _ _ G) as (n & Bh).
    assert (A : oavail (fo_store (sy_fo s)) n) by (eapply (behind_avail cfg sec); eauto; reflexivity).
    exists (ocontent n). split; [now apply (behind_count sec)|]. split; [now apply (behind_answers_all sec)|].
    intros st' ca lg So Hr Hca. apply (behind_answers_all sec _ _ n RR); [|now apply (replica_fok (sy_fo s))|exact Bh].
    destruct t as [[[i sec'] o]|], n as [g|]; try easy. destruct Bh as (-> & <- & lim & Rg). cbn [oavail fo_store] in *.
    apply (replica_avail (found (fo_store (sy_fo s)) l) _ st' (proj1 F)) with lim; auto.
    - intros; eapply found_link; eauto.
    - cbn in El. intros l' El'. rewrite El in El'. injection El' as <-. constructor.
  Qed.

  (** From such a store the tree can also be loaded by its link, to be read or to
      be continued. *)
  Theorem C98_load s t x o l (RR : ReliableReads T B) :
    reach no_loss cfg sec s -> known s t -> small_branches (sy_fo s) ->
    t = Some (IBranch x, sec, o) -> bi_link x = Some l ->
    exists c, answers_all (sy_fo s) t c
      /\ forall st' ca lg, store_ok st' -> replica (fo_store (sy_fo s)) st' l ->
           (ca = fo_cache (sy_fo s) \/ nothing_cached ca) ->
           let fo := {| fo_store := st'; fo_cache := ca; fo_log := lg |} in
           (exists t' fo', load_tree fo sec l = (Ok t', fo') /\ tree_count t' = tree_count t /\ answers_all fo' t' c)
           /\ (exists b fo', load_stream_builder fo sec cfg l = (Ok b, fo') /\ answers_all fo' (snapshot b) c).
  Proof.
    intros R K Hs -> El. destruct (known_good cfg sec Hcfg _ _ _ R K) as [F (_ & lim & g & G)].
    pose proof (snap_repr _ _ _ _ _ _ _ _ G) as Rg.
    assert (A : avail (fo_store (sy_fo s)) g) by (eapply snap_avail; [exact G|easy|now apply small_fits]).
    exists (content g). split.
    { apply (behind_answers_all sec _ _ (Some g)); [exact RR|exact A|exact F|]. destruct G as [Ei _]. cbn. eauto. }
    intros st' ca lg So Hr Hca fo.
    assert (F1 : fok sec fo) by now apply (replica_fok (sy_fo s)).
    assert (A1 : avail (fo_store fo) g).
    { apply (replica_avail (found (fo_store (sy_fo s)) l) _ st' (proj1 F)) with lim; auto.
      - intros; eapply found_link; eauto.
      - destruct G as [-> _]. cbn. intros l' El'. rewrite El in El'. injection El' as <-. constructor. }
    assert (G1 : snap_tree cfg sec False False fo (IBranch x) lim g).
    { destruct G as (Ei & t0 & ((R0 & I0 & _) & _) & Hr0). split; [exact Ei|]. exists t0. split; [|exact Hr0].
      split; [|easy]. splits; easy. }
    split.
    - destruct (load_tree fo sec l) as [r fo'] eqn:E.
      destruct (load_tree_ok _ _ _ _ _ _ _ _ _ _ _ F1 G1 Logic.I El E) as (E1 & E2 & _ & E4).
      destruct E4 as (t' & ->); [exact RR|now apply avail_avail_branches|].
      destruct (E2 _ eq_refl) as (i' & o' & g' & -> & G' & Hr' & _). exists (Some (i', sec, o')), fo'.
      destruct G as [Ei _]. assert (F' : fok sec fo') by (eapply fext_fok; [apply (fsame_fext sec _ _ 0%N E1)|exact F1]).
      pose proof (snap_repr _ _ _ _ _ _ _ _ G') as Rg'. destruct G' as [<- _]. splits; auto.
      + cbn. rewrite (relabel_count _ _ Hr'). now rewrite Ei.
      + rewrite <- (relabel_content _ _ Hr'). apply (behind_answers_all sec _ _ (Some g')); [exact RR| |exact F'|cbn; eauto].
        cbn. eapply avail_mono; [|eapply relabel_avail; [exact Hr'|exact A1]]. intros b d. apply (wext_blocks _ _ _ _ _ (fsame_fext sec _ _ 0%N E1)).
    - destruct (load_stream_builder fo sec cfg l) as [r fo'] eqn:E.
      destruct (load_builder cfg sec Hcfg _ _ _ _ _ _ _ _ _ F1 G1 Logic.I El E) as (E1 & E2 & _ & E4).
      destruct E4 as (b' & ->); [exact RR|now apply avail_avail_branches|].
      destruct (E2 _ eq_refl) as (g' & I' & Hr' & _). exists b', fo'. split; [reflexivity|].
      rewrite <- (relabel_content _ _ Hr'). pose proof I' as (F' & _). pose proof I' as I2. apply binv_snap in I2 as (_ & -> & G').
      pose proof (snap_repr _ _ _ _ _ _ _ _ G') as Rg'. destruct G' as [Ei' _].
      apply (behind_answers_all sec _ _ (Some g')); [exact RR| |exact F'|cbn; eauto].
      cbn. eapply avail_mono; [|eapply relabel_avail; [exact Hr'|exact A1]]. intros b d. apply (wext_blocks _ _ _ _ _ (fsame_fext sec _ _ 0%N E1)).
  Qed.

  Lemma index_links c cid : no_links -> linked (enc_index c) cid -> exists l, ilink c = Some l /\ cid = l_cid l.
  Proof.
    intros (Nk & Ns & _) H.
    assert (Hl : forall o, linked (clink o) cid -> exists l : L, o = Some l /\ cid = l_cid l).
    { intros [l|] Hl; [|inversion Hl]. exists l. split; [reflexivity|]. cbn in Hl. unfold ccid in Hl.
      inversion Hl as [b cid' E| t c' cid' Hn Hc| | |]; subst; [rewrite l_cid_read in E; congruence|inversion Hc]. }
    destruct c as [x|x]; cbn [enc_index] in H; inversion H as [| | |l k v cid' Hin Hk|l k v cid' Hin Hv]; subst; cbn in Hin.
    - repeat (destruct Hin as [[= <- <-]|Hin]; [inversion Hk|]); destruct Hin.
    - destruct Hin as [[= <- <-]|[[= <- <-]|[[= <- <-]|[[= <- <-]|[]]]]]; [now destruct (Nk _ _ Hv)|exact (Hl _ Hv)|inversion Hv|inversion Hv].
    - repeat (destruct Hin as [[= <- <-]|Hin]; [inversion Hk|]); destruct Hin.
    - destruct Hin as [[= <- <-]|[[= <- <-]|[[= <- <-]|[[= <- <-]|[[= <- <-]|[[= <- <-]|[[= <- <-]|[]]]]]]]];
        [exact (Hl _ Hv)|inversion Hv|inversion Hv|inversion Hv|inversion Hv|now destruct (Ns _ _ Hv)|inversion Hv].
  Qed.

  Lemma found_node st t lim l l' : no_links -> store_ok st -> repr sec lim t -> avail st t -> ilink (root_ix t) = Some l ->
    found st l l' -> exists g lim', repr sec lim' g /\ avail st g /\ ilink (root_ix g) = Some l' /\ node_in sec st (root_ix t) (root_ix g).
  Proof.
    intros NL So Rt At El. induction 1 as [|m blk m' _ IH Hm (off & cids & dt & cid & D & Hin & Hcid)].
    { exists t, lim. splits; auto. constructor. }
    destruct IH as (g & lim' & Rg & Ag & Eg & Ng). pose proof (So _ _ Hm) as Em.
    destruct g as [x vs|x|x cs|x]; cbn [root_ix ilink] in Eg.
    - exfalso. destruct Rg as (_ & blk' & r & E1 & (_ & _ & o' & d' & new & P & D') & _).
      rewrite Eg in E1. injection E1 as ->. apply digest_inj in Em as <-. rewrite D in D'. injection D' as _ -> _.
      apply add_links_in in Hin as [[]|Hin]. apply (payload_linked _ _ P) in Hin as (c & Hc & Lc).
      apply in_map_iff in Hc as (v & <- & _). now apply NL in Lc.
    - cbn in Rg. congruence.
    - apply repr_branch in Rg as (_ & _ & _ & _ & blk' & r & E1 & Hb & _ & Rc). apply avail_branch in Ag as (_ & Af & Ac).
      rewrite Eg in E1. injection E1 as ->. apply digest_inj in Em as <-.
      destruct Hb as (Hp & Hok & o' & d' & new & P & D'). assert (Hb : branch_block (index_key sec) blk' (map root_ix cs) r).
      { split; [exact Hp|]. split; [exact Hok|]. exists o', d', new. auto. }
      rewrite D in D'. injection D' as _ -> _.
      apply add_links_in in Hin as [[]|Hin]. apply (payload_linked _ _ P) in Hin as (e & He & Le).
      apply in_map_iff in He as (c & <- & Hc). apply (index_links _ _ NL) in Le as (lc & Elc & ->).
      rewrite l_codec in Hcid. injection Hcid as <-. apply in_map_iff in Hc as (g & <- & Hg).
      rewrite Forall_forall in Rc, Ac. exists g, (fst r). splits; auto.
      eapply node_trans; [exact Ng|]. eapply node_child; [|now apply in_map; exact Hg|constructor].
      exists (digest blk'), blk', r. splits; auto. rewrite (deserialize_spec _ _ _ _ Hb), Af. reflexivity.
    - cbn in Rg. congruence.
  Qed.

  (** When the data has no links of its own, what is found is no more than the
      nodes of the tree: forgotten nodes have no links, so their blocks are not
      among them. *)
  Theorem C98_only s t i o l l' :
    reach no_loss cfg sec s -> known s t -> small_branches (sy_fo s) -> t = Some (i, sec, o) -> ilink i = Some l -> no_links ->
    found (fo_store (sy_fo s)) l l' ->
    exists j, node_in sec (fo_store (sy_fo s)) i j /\ ilink j = Some l'.
  Proof.
    intros R K Hs -> El NL Hf. destruct (known_good cfg sec Hcfg _ _ _ R K) as [F (_ & lim & g & G)].
    pose proof (snap_repr _ _ _ _ _ _ _ _ G) as Rg.
    assert (A : avail (fo_store (sy_fo s)) g) by (eapply snap_avail; [exact G|easy|now apply small_fits]).
    destruct G as [<- _]. destruct (found_node _ _ _ _ _ NL (proj1 F) Rg A El Hf) as (g' & _ & _ & _ & E & N). eauto.
  Qed.
End Props.

(** ** A case: two appends, and a copy made by following the links *)

(** The links in the header of a block. In the instance a link is the block. *)
Definition plinks (b : bytes) : list bytes :=
  match decode_block b with Some (_, cids, _) => cids | None => [] end.
Definition has (bs : list bytes) (b : bytes) : bool := existsb (bytes_eqb b) bs.
(** The blocks in [st] that can be found from [bs] in [n] steps. *)
Fixpoint crawl (n : nat) (st bs : list bytes) : list bytes :=
  match n with
  | O => bs
  | S n => bs ++ crawl n st (filter (has st) (flat_map plinks bs))
  end.
Definition closedb (st bs : list bytes) : bool :=
  forallb (fun b => forallb (fun c => has bs c || negb (has st c)) (plinks b)) bs.

Lemma crawled (n' : N) (s : N * list bytes) (bs : list bytes) l : has bs l = true -> closedb (snd s) bs = true ->
  @replica ITypes IExt IBackend s (n', bs) l.
Proof.
  destruct s as [n st]. cbn [snd]. intros Hl Hc. unfold closedb in Hc. rewrite forallb_forall in Hc.
  assert (In_has : forall x y, has x y = true <-> In y x).
  { intros x y. unfold has. rewrite existsb_exists. split.
    - intros (z & Hz & E). apply bytes_eqb_eq in E. now subst.
    - intros H. exists y. split; [exact H|now apply bytes_eqb_eq]. }
  assert (P : forall m, @found ITypes IExt IBackend (n, st) l m -> has bs m = true \/ has st m = false).
  { induction 1 as [|m blk m' Hm IH Hb (off & cids & d & cid & D & Hin & E)]; [now left|].
    cbn in Hb. fold (has st m) in Hb. destruct (has st m) eqn:Es; [|discriminate]. injection Hb as <-.
    destruct IH as [IH|IH]; [|discriminate]. apply In_has in IH. specialize (Hc _ IH). unfold plinks in Hc. rewrite D in Hc.
    rewrite forallb_forall in Hc. specialize (Hc _ Hin). cbn in E. injection E as ->. apply orb_prop in Hc as [Hc|Hc]; [now left|].
    right. now apply negb_true_iff. }
  intros m blk Hf Hb. cbn in *. fold (has st m) in Hb. fold (has bs m). destruct (has st m) eqn:Es; [|discriminate].
  destruct (P _ Hf) as [->|H]; [exact Hb|congruence].
Qed.

(** The copy of [st3] has fewer blocks than the store, and room for no more. *)
Definition store3 : @Store ITypes IBackend := fo_store (sy_fo st3).
Definition copy3 : @Store ITypes IBackend := (0%N, crawl 6 (snd store3) [lnk (snapshot (sy_b st3))]).
Lemma small3 : small_branches (sy_fo st3).
Proof.
  unfold small_branches. apply Forall_forall. intros e He.
  assert (H : forallb (fun e => ev_leaf e || (Nlen (ev_raw e) <=? max_capacity)%N) (fo_log (sy_fo st3)) = true) by (vm_compute; reflexivity).
  rewrite forallb_forall in H. apply H, orb_prop in He as [He|He]; [now left|right]. now apply N.leb_le.
Qed.
Lemma istore_ok (s : @Store ITypes IBackend) : store_ok s.
Proof. intros l d. cbn. destruct (existsb _ _); [|discriminate]. now intros [= <-]. Qed.
Lemma has3 : has (crawl 6 (snd store3) [lnk (snapshot (sy_b st3))]) (lnk (snapshot (sy_b st3))) = true.
Proof. vm_compute. reflexivity. Qed.
Lemma closed3 : closedb (snd store3) (crawl 6 (snd store3) [lnk (snapshot (sy_b st3))]) = true.
Proof. vm_compute. reflexivity. Qed.
Example C98_case :
  reach no_loss ecfg esec st3 /\ small_branches (sy_fo st3)
  /\ tree_link (snapshot (sy_b st3)) = Some (lnk (snapshot (sy_b st3)))
  /\ branch_root (snapshot (sy_b st3))
  /\ store_ok copy3 /\ replica store3 copy3 (lnk (snapshot (sy_b st3)))
  /\ nothing_cached ([] : @Cache ITypes IBackend)
  /\ (List.length (snd copy3) <? List.length (snd store3)) = true
  /\ existsb (fun b => negb (has (snd copy3) b)) (snd store3) = true
  /\ fst (collect {| fo_store := copy3; fo_cache := ([] : @Cache ITypes IBackend); fo_log := [] |} (snapshot (sy_b st3)))
     = Ok (map Some (pairs 0 11)).
Proof.
  split; [exact st3_ok|]. split; [exact small3|]. split; [vm_compute; reflexivity|]. split; [vm_compute; exact Logic.I|].
  split; [exact (istore_ok copy3)|]. split; [exact (crawled 0%N store3 _ _ has3 closed3)|].
  split; [intros l b []|]. splits; vm_compute; reflexivity.
Qed.

(** The data of the instance has no links. After entries have been forgotten, a
    leaf that was found before is not found any more, and the copy still answers. *)
Lemma no_links3 : @no_links ITypes IExt.
Proof.
  split; [|split]; cbn; intros k cid H.
  - inversion H as [| |l c cid' Hin Hc| |]; subst. apply in_map_iff in Hin as (n & <- & _). inversion Hc.
  - inversion H as [| |l c cid' Hin Hc| |]; subst. apply in_map_iff in Hin as ([a b] & <- & _). cbn in Hc.
    inversion Hc as [| |l c cid' Hin Hc'| |]; subst. destruct Hin as [<-|[<-|[]]]; inversion Hc'.
  - inversion H.
Qed.
Definition late3 : sys := state no_loss 1000000 (ops1 ++ [ORetain (offset_range_query (range_of 5 8))]).
Definition late_copy : list bytes := crawl 6 (snd (fo_store (sy_fo late3))) [lnk (snapshot (sy_b late3))].
Example C98_only_case :
  reach no_loss ecfg esec late3 /\ @no_links ITypes IExt
  /\ closedb (snd (fo_store (sy_fo late3))) late_copy = true
  /\ existsb (fun b => match plinks b with [] => negb (has late_copy b) | _ => false end) (snd copy3) = true
  /\ rmap (map (fun e => match e with Some _ => true | None => false end))
       (fst (collect {| fo_store := (0%N, late_copy) : @Store ITypes IBackend; fo_cache := ([] : @Cache ITypes IBackend); fo_log := [] |}
               (snapshot (sy_b late3))))
     = Ok [false; false; false; false; true; true; true; true; true; true; true].
Proof. split; [reached|]. split; [exact no_links3|]. splits; vm_compute; reflexivity. Qed.

(** Properties of index iteration: C41, C42. *)
From Coq Require Import List NArith ZArith Lia Bool String Arith Permutation.
From Verif Require Import Base BaseProofs Cbor Types Seq SeqProofs Query QuerySpec World Read Write Api Iter IterFrame History Spec IterSpec Ghost Frame ReadProofs Packable WriteProofs QueryProofs PackProofs RetainProofs RepairProofs NoPurged ApiProofs SysProofs HistProofs IterProofs IndexProofs Instance Example PropsRead PropsQuery PropsIter.
Import ListNotations.

Section Props.
  Context {T : Types} {TL : TypesLaws T} {X : Ext} {XL : ExtLaws X}
          {B : Backend T} {BL : BackendLaws T B}.
  Variable cfg : Config.
  Variable sec : Secrets.
  Hypothesis Hcfg : config_ok cfg.

  (** [selected m q off i is]: a visit to the node [i], whose first entry is at
      [off], yields [is]: [i] itself, and for each child that is recorded in its
      block and that the query selects, what a visit to it yields; the children
      from left to right, or from right to left if [m] is [Backward]. *)
  Inductive selected (m : mode) (q : Query) : nat -> Index -> list Index -> Prop :=
  | sel_leaf off x : selected m q off (ILeaf x) [ILeaf x]
  | sel_purged off x : bi_link x = None -> selected m q off (IBranch x) [IBranch x]
  | sel_branch off x cs iss :
      block_children sec (IBranch x) cs -> bi_link x <> None ->
      selected_children m q off (q_intersecting q off x (repeat true (List.length (branch_sums x)))) cs iss ->
      selected m q off (IBranch x) (IBranch x :: List.concat (match m with Forward => iss | Backward => rev iss end))
  with selected_children (m : mode) (q : Query) : nat -> list bool -> list Index -> list (list Index) -> Prop :=
  | sel_none off : selected_children m q off [] [] []
  | sel_yes off f c cs is iss :
      selected m q off c is -> selected_children m q (off + icount c) f cs iss ->
      selected_children m q off (true :: f) (c :: cs) (is :: iss)
  | sel_no off f c cs iss :
      selected_children m q (off + icount c) f cs iss ->
      selected_children m q off (false :: f) (c :: cs) ([] :: iss).

  (** The results of calls to [next] of an index iterator that should produce
      [cs]: the items in order, then [None] for ever; there may be errors
      anywhere before the end. *)
  Inductive ifollows {A} : list A -> list (option (res A)) -> Prop :=
  | ifollows_stop cs : ifollows cs []
  | ifollows_item c cs rs : ifollows cs rs -> ifollows (c :: cs) (Some (Ok c) :: rs)
  | ifollows_error cs e rs : ifollows cs rs -> ifollows cs (Some (Err e) :: rs)
  | ifollows_end rs : Forall (eq None) rs -> ifollows [] rs.

  Lemma nodes_selected m q t : q_sized q -> forall off lim, repr sec lim t -> selected m q off (root_ix t) (nodes q m off t).
  Proof.
    intros Hq. induction t as [x vs|x|x cs IH|x] using tree_ind'; intros off lim R; try (now constructor).
    rewrite nodes_branch. cbn [root_ix]. pose proof (branch_mask_length q Hq off x) as Hml.
    apply repr_branch in R as (_ & _ & Hlen & _ & blk & r & Hl & Hb & _ & Hch).
    apply (sel_branch m q off x (map root_ix cs)).
    - cbn. rewrite Hl. eauto.
    - congruence.
    - fold (branch_mask q off x). rewrite Hlen in Hml. clear Hlen Hl Hb. generalize dependent (branch_mask q off x). revert off.
      induction cs as [|c cs IHcs]; intros off [|b f] El; try discriminate; cbn [combine parts map]; [constructor|].
      inversion IH; subst. inversion Hch; subst. cbn [snd]. unfold ind. cbn [fst snd]. destruct b.
      + constructor; [eapply H1; eauto|]. apply IHcs; auto.
      + constructor. apply IHcs; auto.
  Qed.

  Section Run.
    Variable k : kind.
    Notation sys_ok := (sys_good cfg sec (k_lose k = false) (k_repair k = false)).

    Lemma inext_sys s it r fo it' : sys_ok s -> ii_is sec it -> next_index (sy_fo s) it = (r, fo, it') ->
      sys_ok (with_fo s fo) /\ grows k s (with_fo s fo) /\ ii_is sec it'.
    Proof.
      intros S Hs En. apply (next_index_rext sec) in En as [W Hs']; [|exact Hs]. change (fsame sec (sy_fo s) fo) in W.
      split; [now apply step_with_fo|]. split; [|exact Hs']. eapply (fext_grows sec k); [apply (fsame_fext sec _ _ 0%N W)|reflexivity|reflexivity].
    Qed.
    Lemma ipulls_sys s it rs s' it' : ipulls k s it rs s' it' -> sys_ok s -> ii_is sec it ->
      sys_ok s' /\ grows k s s' /\ ii_is sec it'.
    Proof.
      induction 1 as [s it|s it r fo it1 rs s' it' En _ IH|s it o r s1 rs s' it' O1 O2 Ex _ IH]; intros S Hs.
      - splits; auto. apply grows_refl.
      - apply inext_sys in En as (S1 & G1 & H1); auto. destruct (IH S1 H1) as (S2 & G2 & H2). splits; auto. eapply grows_trans; eauto.
      - destruct (step_ok cfg sec Hcfg k _ _ _ _ S O1 O2 Ex) as [S1 G1]. destruct (IH S1 Hs) as (S2 & G2 & H2). splits; auto.
        eapply grows_trans; eauto.
    Qed.
    Lemma ipulls_none s rs s' it' : ipulls k s None rs s' it' -> Forall (eq None) rs.
    Proof.
      intros H. remember None as it. induction H as [s it|s it r fo it1 rs s' it' En _ IH|s it o r s1 rs s' it' O1 O2 Ex _ IH]; subst; auto.
      cbn in En. injection En as <- <- <-. constructor; auto.
    Qed.
    Lemma ipulls_over s it rs s' it' : ipulls k s (Some it) rs s' it' -> ii_stack it = [] -> Forall (eq None) rs.
    Proof.
      intros H. remember (Some it) as oit. revert it Heqoit.
      induction H as [s it|s it r fo it1 rs s' it' En _ IH|s it o r s1 rs s' it' O1 O2 Ex _ IH]; intros it0 -> Ho; eauto.
      rewrite next_index_over in En by easy. injection En as <- <- <-. constructor; eauto.
    Qed.

    Variable q : Query.
    Hypothesis Hq : q_sized q.
    Variable g : tree.
    Variable lim : N.
    Hypothesis Rg : repr sec lim g.

    Lemma ipulls_follow m s it w rs s' it' : sys_ok s -> ii_ok sec q m g it w ->
      ipulls k s (Some it) rs s' it' ->
      ifollows (iremains q m it w) rs
      /\ (ReliableReads T B -> k_lose k = false -> avail_branches (fo_store (sy_fo s)) g -> follows_ok (iremains q m it w) rs).
    Proof.
      intros S Ho H. remember (Some it) as oit. revert it w Heqoit S Ho.
      induction H as [s it|s it r fo it1 rs s' it' En Hp IH|s it o r s1 rs s' it' O1 O2 Ex _ IH]; intros it0 w -> S Ho.
      - split; [constructor|]. constructor.
      - pose proof En as En'. apply inext_sys in En' as (S1 & G1 & _); [|exact S|apply Ho].
        apply (next_index_ok sec q Hq m g lim Rg it0 w) in En; [|exact Ho|apply (sys_fok cfg sec k _ S)].
        destruct En as [[(c & w' & it2 & -> & -> & H1 & H2)|[(it2 & -> & -> & H1 & H2)|(e & w' & it2 & -> & -> & H1 & H2)]] Hrel].
        + destruct (IH _ _ eq_refl S1 H1) as [IH1 IH2]. rewrite H2. split; [now constructor|]. intros Re Hl A.
          constructor. apply IH2; auto. eapply avail_branches_mono; [|exact A]. destruct G1 as (_ & _ & G1). exact (G1 Hl).
        + apply (ipulls_over _ _ _ _ _ Hp) in H2. rewrite H1. split; [|intros _ _ _]; constructor; constructor; auto.
        + destruct (IH _ _ eq_refl S1 H1) as [IH1 IH2]. rewrite H2. split; [now constructor|]. intros Re Hl A. now destruct (Hrel Re A e).
      - destruct (step_ok cfg sec Hcfg k _ _ _ _ S O1 O2 Ex) as [S1 G1]. destruct (IH _ _ eq_refl S1 Ho) as [IH1 IH2].
        split; [exact IH1|]. intros Re Hl A. apply IH2; auto. eapply avail_branches_mono; [|exact A]. destruct G1 as (_ & _ & G1). exact (G1 Hl).
    Qed.
  End Run.

  (** What an index iterator over [t] is expected to return. *)
  Definition visited (m : mode) (q : Query) (t : Tree) (is : list Index) : Prop :=
    match t with
    | Some (i, _, _) => selected m q 0 i is
    | None => is = []
    end.

  Lemma index_follow k s t q : reach k cfg sec s -> known s t -> q_sized q ->
    exists is is', visited Forward q t is /\ visited Backward q t is'
      /\ (forall rs s' it', ipulls k s (iter_index t q) rs s' it' -> ifollows is rs)
      /\ (forall rs s' it', ipulls k s (iter_index_reverse t q) rs s' it' -> ifollows is' rs)
      /\ (ReliableReads T B -> k_lose k = false -> forall rs s' it',
            (ipulls k s (iter_index t q) rs s' it' -> small_branches (sy_fo s') -> follows_ok is rs)
            /\ (ipulls k s (iter_index_reverse t q) rs s' it' -> small_branches (sy_fo s') -> follows_ok is' rs)).
  Proof.
    intros R K Hq. destruct (known_good cfg sec Hcfg _ _ _ R K) as [F G]. apply (reach_ok cfg sec Hcfg) in R as S.
    destruct t as [[[i sec'] o]|].
    - destruct (snap_iter _ _ _ _ _ _ _ _ _ G eq_refl) as (-> & lim & g & <- & Rg & Kg & Fg).
      exists (nodes q Forward 0 g), (nodes q Backward 0 g).
      assert (Bh : behind sec (Some (root_ix g, sec, o)) (Some g)) by (cbn; eauto).
      cbn [iter_index iter_index_reverse visited].
      pose proof (istart_fw sec q g) as [Hf1 Hf2]. pose proof (istart_bw sec q g) as [Hb1 Hb2].
      splits; try (eapply nodes_selected; eauto).
      + intros rs s' it' H. eapply ipulls_follow in H as [H _]; eauto. now rewrite Hf2 in H.
      + intros rs s' it' H. eapply ipulls_follow in H as [H _]; eauto. now rewrite Hb2 in H.
      + intros Re Hl rs s' it'.
        assert (A : forall it, ii_is sec it -> ipulls k s it rs s' it' -> small_branches (sy_fo s') -> avail_branches (fo_store (sy_fo s)) g).
        { intros it Hit H Hs. apply avail_avail_branches. apply (ipulls_sys k) in H as (_ & (_ & (new & Hn) & _) & _); auto.
          apply (behind_avail cfg sec _ _ _ _ (Some g) G Bh Hl). unfold small_branches in *. rewrite Hn in Hs. now apply Forall_app in Hs. }
        split; intros H Hs.
        * assert (avail_branches (fo_store (sy_fo s)) g) by (eapply A; [|exact H|exact Hs]; reflexivity). eapply ipulls_follow in H as [_ H]; eauto. rewrite Hf2 in H. auto.
        * assert (avail_branches (fo_store (sy_fo s)) g) by (eapply A; [|exact H|exact Hs]; reflexivity). eapply ipulls_follow in H as [_ H]; eauto. rewrite Hb2 in H. auto.
    - exists [], []. cbn [iter_index iter_index_reverse visited]. splits; try reflexivity.
      + intros rs s' it' H. constructor. eapply ipulls_none; eauto.
      + intros rs s' it' H. constructor. eapply ipulls_none; eauto.
      + intros _ _ rs s' it'. split; intros H _; constructor; eapply ipulls_none; eauto.
  Qed.

  (** ** C41: index iteration visits exactly the selected nodes *)

  Theorem C41_index s t q :
    reach anything cfg sec s -> known s t -> q_sized q ->
    exists is is', visited Forward q t is /\ visited Backward q t is'
      /\ (forall rs s' it', ipulls anything s (iter_index t q) rs s' it' -> ifollows is rs)
      /\ (forall rs s' it', ipulls anything s (iter_index_reverse t q) rs s' it' -> ifollows is' rs).
  Proof. intros R K Hq. destruct (index_follow _ _ _ q R K Hq) as (is & is' & H1 & H2 & H3 & H4 & _). eauto 10. Qed.

  Theorem C41_total s t q (RR : ReliableReads T B) :
    reach no_loss cfg sec s -> known s t -> q_sized q ->
    exists is is', visited Forward q t is /\ visited Backward q t is'
      /\ (forall rs s' it', ipulls no_loss s (iter_index t q) rs s' it' -> small_branches (sy_fo s') -> follows_ok is rs)
      /\ (forall rs s' it', ipulls no_loss s (iter_index_reverse t q) rs s' it' -> small_branches (sy_fo s') -> follows_ok is' rs).
  Proof.
    intros R K Hq. destruct (index_follow _ _ _ q R K Hq) as (is & is' & H1 & H2 & _ & _ & H). specialize (H RR eq_refl).
    exists is, is'. splits; auto; intros rs s' it'; apply (H rs s' it').
  Qed.

  (** ** What was visited is determined by the tree *)

  Scheme selected_min := Minimality for selected Sort Prop
    with selected_children_min := Minimality for selected_children Sort Prop.

  Lemma block_children_det i cs cs' : block_children sec i cs -> block_children sec i cs' -> cs = cs'.
  Proof.
    destruct i as [x|x]; cbn [block_children]; [congruence|]. destruct (bi_link x) as [l|]; [|congruence].
    intros (blk & r & -> & A1 & A2 & _) (blk' & r' & E & B1 & B2 & _). apply digest_inj in E as <-.
    destruct (block_payload_det _ _ _ _ _ _ A1 B1) as [E _]. apply idxs_raw_inj in E; auto.
  Qed.

  Lemma concat_perm {A} (a b : list (list A)) : Forall2 (@Permutation A) a b -> Permutation (List.concat a) (List.concat b).
  Proof. induction 1; cbn; [constructor|]. now apply Permutation_app. Qed.
  Lemma concat_rev_perm {A} (a : list (list A)) : Permutation (List.concat (rev a)) (List.concat a).
  Proof.
    induction a as [|x a IH]; cbn; [constructor|]. rewrite concat_app. cbn. rewrite app_nil_r, IH. apply Permutation_app_comm.
  Qed.

  Lemma selected_det m m' q : forall off i is, selected m q off i is -> forall is', selected m' q off i is' ->
    (m = m' -> is = is') /\ Permutation is is'.
  Proof.
    apply (selected_min m q
      (fun off i is => forall is', selected m' q off i is' -> (m = m' -> is = is') /\ Permutation is is')
      (fun off f cs iss => forall iss', selected_children m' q off f cs iss' -> (m = m' -> iss = iss') /\ Forall2 (@Permutation _) iss iss')).
    - intros off x is' H. inversion H; subst; auto.
    - intros off x Hx is' H. inversion H; subst; [auto|congruence].
    - intros off x cs iss Hc Hx _ IH is' H. inversion H; subst; [congruence|].
      rewrite (block_children_det _ _ _ H1 Hc) in *. apply IH in H4 as [H5 H6]. split.
      + intros <-. now rewrite (H5 eq_refl).
      + apply perm_skip. apply concat_perm in H6. destruct m, m'; rewrite ?concat_rev_perm; auto.
    - intros off iss' H. inversion H; subst. auto.
    - intros off f c cs is iss _ IH1 _ IH2 iss' H. inversion H as [|? ? ? ? is1 iss1 S1 S2|]; subst. apply IH1 in S1 as [H2 H3]. apply IH2 in S2 as [H6 H7].
      split; [|constructor; auto]. intros E. now rewrite (H2 E), (H6 E).
    - intros off f c cs iss _ IH2 iss' H. inversion H as [| |? ? ? ? iss1 S2]; subst. apply IH2 in S2 as [H1 H7].
      split; [|constructor; auto]. intros E. now rewrite (H1 E).
  Qed.

  (** Both directions visit the same nodes. *)
  Theorem C41_same_nodes t q is is' : visited Forward q t is -> visited Backward q t is' -> Permutation is is'.
  Proof.
    destruct t as [[[i sec'] o]|]; cbn [visited]; [|now intros -> ->]. intros H H'. now apply (selected_det _ _ _ _ _ _ H _ H').
  Qed.
  Theorem C41_determined m t q is is' : visited m q t is -> visited m q t is' -> is = is'.
  Proof.
    destruct t as [[[i sec'] o]|]; cbn [visited]; [|now intros -> ->]. intros H H'. now apply (selected_det _ _ _ _ _ _ H _ H').
  Qed.
End Props.

(** ** C42: index iteration ends after an error. It does not. *)

Definition ixs (n : nat) (fo : @Forest ITypes IBackend) (it : index_iter) := fst (fst (take_indexes n fo it)).
Definition ix_counts (rs : list (res (@Index ITypes))) : list (option nat) :=
  map (fun r => match r with Ok i => Some (icount i) | _ => None end) rs.

(** The eleven entries of [st3]: the nodes that hold offsets 3 to 8, by their
    number of entries. *)
Example C41_case :
  reach anything ecfg esec st3 /\ reach no_loss ecfg esec st3 /\ known st3 t3 /\ q_sized q38
  /\ ix_counts (ixs 100 (sy_fo st3) (iter_index t3 q38))
     = map Some [11; 9; 6; 4; 2; 2; 2; 2; 3; 2; 1; 2]
  /\ ix_counts (ixs 100 (sy_fo st3) (iter_index_reverse t3 q38))
     = map Some [11; 2; 9; 3; 1; 2; 6; 2; 2; 4; 2; 2].
Proof.
  splits; [apply no_loss_any, st3_ok|exact st3_ok|now left|eapply query_sized, C37_offset_range|vm_compute; reflexivity|vm_compute; reflexivity].
Qed.

(** [st3] after all blocks and the cache were lost. *)
Definition lost3 : sys := state anything 1000000 (ops1 ++ [OLose (0%N, []); OEvict []]).
Lemma lost3_ok : reach anything ecfg esec lost3. Proof. reached. Qed.

(** Having failed, the iterator fails again at every call; it never ends. *)
Theorem C42_refuted :
  exists (s : sys) (t : @Tree ITypes) (q : Query) (it1 : index_iter) (fo1 : Forest),
    reach anything ecfg esec s /\ known s t /\ q_sized q
    /\ next_index (sy_fo s) (iter_index t q) = (Some (Err EMissing), fo1, it1)
    /\ forall n, ixs n fo1 it1 = repeat (Err EMissing) n.
Proof.
  exists lost3, (snapshot (sy_b lost3)), q38,
    (snd (next_index (sy_fo lost3) (iter_index (snapshot (sy_b lost3)) q38))),
    (snd (fst (next_index (sy_fo lost3) (iter_index (snapshot (sy_b lost3)) q38)))).
  splits; [exact lost3_ok|now left|eapply query_sized, C37_offset_range|vm_compute; reflexivity|].
  assert (E : forall x, x = next_index (sy_fo lost3) (iter_index (snapshot (sy_b lost3)) q38) ->
    next_index (snd (fst x)) (snd x) = (Some (Err EMissing), snd (fst x), snd x)).
  { intros x ->. vm_compute. reflexivity. }
  specialize (E _ eq_refl). revert E.
  generalize (snd (fst (next_index (sy_fo lost3) (iter_index (snapshot (sy_b lost3)) q38)))) as fo.
  generalize (snd (next_index (sy_fo lost3) (iter_index (snapshot (sy_b lost3)) q38))) as it.
  intros it fo E n. unfold ixs. induction n as [|n IH]; cbn [take_indexes repeat]; [easy|]. rewrite E.
  destruct (take_indexes n fo it) as [[rs fo'] it']. cbn in *. now rewrite IH.
Qed.

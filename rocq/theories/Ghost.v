(** Specification side: what a tree is, independently of how it is read or
    written. Nothing here models code. *)
From Coq Require Import List NArith ZArith Lia Bool String.
From Verif Require Import Base Cbor Types Seq SeqProofs World.
Import ListNotations.

Section Ghost.
  Context {T : Types} {X : Ext} {B : Backend T}.

  (** A fully resolved tree: the index record of each node together with what
      its block holds, or with nothing when the node is purged. *)
  Inductive tree :=
  | TLeaf (x : LeafIndex) (vs : list V)
  | TLeafP (x : LeafIndex)
  | TBranch (x : BranchIndex) (cs : list tree)
  | TBranchP (x : BranchIndex).

  Definition root_ix (t : tree) : Index :=
    match t with
    | TLeaf x _ | TLeafP x => ILeaf x
    | TBranch x _ | TBranchP x => IBranch x
    end.

  (** The events of the tree, [None] for purged ones. *)
  Fixpoint content (t : tree) : list (option (K * V)) :=
    match t with
    | TLeaf x vs => map Some (combine (leaf_keys x) vs)
    | TLeafP x => repeat None (List.length (leaf_keys x))
    | TBranch _ cs => flat_map content cs
    | TBranchP x => repeat None (bi_count x)
    end.

  Section All.
    Variable P : tree -> Prop.
    Fixpoint all (l : list tree) : Prop :=
      match l with [] => True | t :: l' => P t /\ all l' end.
  End All.

  (** [repr sec lim t]: the links in [t] are the digests of blocks that hold what
      [t] says, encrypted with the keys of [sec]; the keystream range of every
      block ends before the range of its parent starts, and that of the root
      before [lim]. Does not mention any store. *)
  Fixpoint repr (sec : Secrets) (lim : N) (t : tree) : Prop :=
    match t with
    | TLeaf x vs =>
        List.length vs = List.length (leaf_keys x)
        /\ exists blk r, li_link x = Some (digest blk)
                         /\ leaf_block (value_key sec) blk vs r /\ (snd r <= lim)%N
    | TLeafP x => li_link x = None
    | TBranch x cs =>
        cs <> []
        /\ bi_count x = sum_nat (map icount (map root_ix cs))
        /\ List.length (branch_sums x) = List.length cs
        /\ Forall (fun c => ilevel c < bi_level x) (map root_ix cs)
        /\ exists blk r, bi_link x = Some (digest blk)
                         /\ branch_block (index_key sec) blk (map root_ix cs) r
                         /\ (snd r <= lim)%N
                         /\ (fix go (l : list tree) : Prop :=
                               match l with [] => True | c :: l' => repr sec (fst r) c /\ go l' end) cs
    | TBranchP x => bi_link x = None
    end.

  (** The store has all blocks of [t], and they are small enough to be
      decompressed. *)
  Fixpoint avail (s : Store) (t : tree) : Prop :=
    match t with
    | TLeaf x vs =>
        (exists l d, li_link x = Some l /\ sblocks s l = Some d) /\ fits (vals_raw vs) = true
    | TLeafP _ => True
    | TBranch x cs =>
        (exists l d, bi_link x = Some l /\ sblocks s l = Some d)
        /\ fits (idxs_raw (map root_ix cs)) = true
        /\ (fix go (l : list tree) : Prop :=
              match l with [] => True | c :: l' => avail s c /\ go l' end) cs
    | TBranchP _ => True
    end.

  (** The branches of [t] only. *)
  Fixpoint avail_branches (s : Store) (t : tree) : Prop :=
    match t with
    | TBranch x cs =>
        (exists l d, bi_link x = Some l /\ sblocks s l = Some d)
        /\ fits (idxs_raw (map root_ix cs)) = true
        /\ (fix go (l : list tree) : Prop :=
              match l with [] => True | c :: l' => avail_branches s c /\ go l' end) cs
    | _ => True
    end.

  (** Everything in the store is filed under its own digest. *)
  Definition store_ok (s : Store) : Prop := forall l d, sblocks s l = Some d -> l = digest d.

  (** A link that is of no interest to a reader with the key [key]: what its
      block decrypts to does not decompress. *)
  Definition unreadable (key : bytes) (l : L) : Prop :=
    forall blk z r, l = digest blk -> decrypt blk key nonce = Ok (z, r) -> z_dec (zs_data z) = None.

  (** The cache only holds decoded blocks, and branches of streams with other
      keys. *)
  Definition cache_ok (key : bytes) (c : Cache) : Prop :=
    forall l b, cin c l b ->
      (exists blk,
        l = digest blk
        /\ deserialize_compressed key blk = Ok (br_children b, br_range b)
        /\ br_children b <> [])
      \/ unreadable key l.

  Definition wok (key : bytes) (w : world) : Prop :=
    store_ok (w_store w) /\ cache_ok key (w_cache w).
End Ghost.

(** Induction over trees. *)
Section TreeInd.
  Context {T : Types}.
  Variable P : tree -> Prop.
  Hypothesis H1 : forall x vs, P (TLeaf x vs).
  Hypothesis H2 : forall x, P (TLeafP x).
  Hypothesis H3 : forall x cs, Forall P cs -> P (TBranch x cs).
  Hypothesis H4 : forall x, P (TBranchP x).
  Fixpoint tree_ind' (t : tree) : P t :=
    match t with
    | TLeaf x vs => H1 x vs
    | TLeafP x => H2 x
    | TBranch x cs =>
        H3 x cs ((fix go (l : list tree) : Forall P l :=
                    match l with
                    | [] => Forall_nil P
                    | t :: l' => Forall_cons t (tree_ind' t) (go l')
                    end) cs)
    | TBranchP x => H4 x
    end.
End TreeInd.

Section GhostLemmas.
  Context {T : Types} {TL : TypesLaws T} {X : Ext} {XL : ExtLaws X}
          {B : Backend T} {BL : BackendLaws T B}.

  Lemma go_Forall (P : tree -> Prop) (l : list tree) :
    (fix go (l : list tree) : Prop := match l with [] => True | c :: l' => P c /\ go l' end) l
    <-> Forall P l.
  Proof.
    induction l as [|c l IH]; [split; auto|]. split.
    - intros [H1 H2]. constructor; [easy|]. now apply IH.
    - inversion 1; subst. split; [easy|]. now apply IH.
  Qed.

  Lemma repr_branch sec lim x cs :
    repr sec lim (TBranch x cs) <->
    cs <> []
    /\ bi_count x = sum_nat (map icount (map root_ix cs))
    /\ List.length (branch_sums x) = List.length cs
    /\ Forall (fun c => ilevel c < bi_level x) (map root_ix cs)
    /\ exists blk r, bi_link x = Some (digest blk)
                     /\ branch_block (index_key sec) blk (map root_ix cs) r
                     /\ (snd r <= lim)%N
                     /\ Forall (repr sec (fst r)) cs.
  Proof.
    cbn [repr]. split.
    - intros (A1 & A2 & A3 & A4 & blk & r & A5 & A6 & A7 & A8). do 4 (split; [easy|]).
      exists blk, r. do 3 (split; [easy|]). now apply go_Forall.
    - intros (A1 & A2 & A3 & A4 & blk & r & A5 & A6 & A7 & A8). do 4 (split; [easy|]).
      exists blk, r. do 3 (split; [easy|]). now apply go_Forall.
  Qed.

  Lemma avail_branch s x cs :
    avail s (TBranch x cs) <->
    (exists l d, bi_link x = Some l /\ sblocks s l = Some d)
    /\ fits (idxs_raw (map root_ix cs)) = true
    /\ Forall (avail s) cs.
  Proof. cbn [avail]. now rewrite go_Forall. Qed.

  Lemma avail_branches_branch s x cs :
    avail_branches s (TBranch x cs) <->
    (exists l d, bi_link x = Some l /\ sblocks s l = Some d)
    /\ fits (idxs_raw (map root_ix cs)) = true
    /\ Forall (avail_branches s) cs.
  Proof. cbn [avail_branches]. now rewrite go_Forall. Qed.

  Lemma avail_avail_branches s t : avail s t -> avail_branches s t.
  Proof.
    induction t using tree_ind'; intros A; try exact I.
    apply avail_branch in A as (A1 & A2 & A3). apply avail_branches_branch.
    repeat split; auto. rewrite Forall_forall in *. auto.
  Qed.

  Lemma block_range_le key blk raw r : block_payload key blk raw r -> (fst r <= snd r)%N.
  Proof. intros (off & ls & d & _ & _ & -> & _). cbn. lia. Qed.

  Lemma repr_weaken sec lim lim' t : (lim <= lim')%N -> repr sec lim t -> repr sec lim' t.
  Proof.
    destruct t; intros Hl H; auto.
    - destruct H as (H1 & blk & r & H2 & H3 & H4). split; [easy|]. exists blk, r. repeat split; auto; try apply H3. lia.
    - apply repr_branch in H as (A1 & A2 & A3 & A4 & blk & r & A5 & A6 & A7 & A8).
      apply repr_branch. do 4 (split; [easy|]). exists blk, r. repeat split; auto; try apply A6. lia.
  Qed.

  Lemma avail_mono s s' t :
    (forall l d, sblocks s l = Some d -> sblocks s' l = Some d) -> avail s t -> avail s' t.
  Proof.
    intros Hs. induction t using tree_ind'; intros A; try exact I.
    - destruct A as ((l & d & A1 & A2) & A3). split; [|easy]. eauto.
    - apply avail_branch in A as ((l & d & A1 & A2) & A3 & A4). apply avail_branch.
      repeat split; eauto. rewrite Forall_forall in *. auto.
  Qed.

  Lemma avail_branches_mono s s' t :
    (forall l d, sblocks s l = Some d -> sblocks s' l = Some d) ->
    avail_branches s t -> avail_branches s' t.
  Proof.
    intros Hs. induction t using tree_ind'; intros A; try exact I.
    apply avail_branches_branch in A as ((l & d & A1 & A2) & A3 & A4). apply avail_branches_branch.
    repeat split; eauto. rewrite Forall_forall in *. auto.
  Qed.

  Lemma length_content sec lim t : repr sec lim t -> List.length (content t) = icount (root_ix t).
  Proof.
    revert lim. induction t using tree_ind'; intros lim R; cbn.
    - destruct R as (R & _). rewrite map_length, combine_length. unfold leaf_keys in *. lia.
    - apply repeat_length.
    - apply repr_branch in R as (A1 & A2 & A3 & A4 & blk & r & A5 & A6 & A7 & A8).
      rewrite A2. clear -H A8. induction cs as [|c cs IH]; cbn; [easy|].
      inversion H; subst. inversion A8; subst. rewrite app_length, IH by auto. erewrite H2; eauto.
    - apply repeat_length.
  Qed.

  Lemma content_skip sec lim t off :
    repr sec lim t -> icount (root_ix t) <= off -> skipn off (content t) = [].
  Proof. intros R H. apply skipn_all2. erewrite length_content; eauto. Qed.

  (** Two trees with the same root link are the same tree up to the root's record. *)
  Lemma repr_Forall_weaken sec lim lim' cs :
    (lim <= lim')%N -> Forall (repr sec lim) cs -> Forall (repr sec lim') cs.
  Proof. intros H. apply Forall_impl. intros. eapply repr_weaken; eauto. Qed.
End GhostLemmas.

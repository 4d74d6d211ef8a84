(** Reading functions compute what the ghost tree says, or fail with an error. *)
From Coq Require Import List NArith ZArith Lia Bool String Arith.
From Verif Require Import Base BaseProofs Cbor Types Seq SeqProofs Query QuerySpec World Read Write Ghost Frame.
Import ListNotations.

(** ** Configurations of one stream

    The configuration may change when a stream is loaded. [s_now] is the one in
    use; the other two bound all that were in use since the stream was created. *)
Record Setting := { s_lo : Config; s_hi : Config; s_now : Config }.
#[local] Coercion s_now : Setting >-> Config.
(** The configuration never changed. *)
Definition only (c : Config) : Setting := {| s_lo := c; s_hi := c; s_now := c |}.
Coercion only : Config >-> Setting.

Definition cfg_le (c d : Config) : Prop :=
  max_leaf_count c <= max_leaf_count d /\ max_key_branches c <= max_key_branches d
  /\ max_summary_branches c <= max_summary_branches d
  /\ (max_uncompressed_leaf_size c <= max_uncompressed_leaf_size d)%N.
Definition setting_ok (s : Setting) : Prop :=
  config_ok s /\ config_ok (s_lo s) /\ config_ok (s_hi s) /\ cfg_le (s_lo s) s /\ cfg_le s (s_hi s).

Lemma cfg_le_refl c : cfg_le c c.
Proof. unfold cfg_le. lia. Qed.
Lemma only_ok (c : Config) : config_ok c -> setting_ok (only c).
Proof. intros H. unfold setting_ok. cbn. repeat split; try apply H; lia. Qed.
Coercion only_ok : config_ok >-> setting_ok.
#[global] Hint Resolve only_ok : core.

Lemma max_branches_le c d level : cfg_le c d -> max_branches c level <= max_branches d level.
Proof. intros (_ & H1 & H2 & _). unfold max_branches. destruct (Nat.eqb level 1); auto. Qed.
Lemma branch_sealed_le {T : Types} c d cs level : cfg_le c d ->
  branch_sealed d cs level = true -> branch_sealed c cs level = true.
Proof.
  intros H. unfold branch_sealed. destruct (existsb _ cs); [easy|]. destruct (existsb _ cs); [easy|].
  rewrite !Nat.leb_le. pose proof (max_branches_le _ _ level H). lia.
Qed.

Section GhostReaders.
  Context {T : Types}.

  (** The roots of [t] for a cursor, as trees; compare [roots0]. *)
  Fixpoint groots (t : tree) (cur : option Z) : list tree * option Z :=
    if isealed (root_ix t) && cur_le (ilevel (root_ix t)) cur then
      ([t], Some (Z.of_nat (ilevel (root_ix t))))
    else
      let cur := cur_min cur (Z.of_nat (ilevel (root_ix t)) - 1) in
      match t with
      | TBranch _ cs =>
          (fix go (cs : list tree) (cur : option Z) : list tree * option Z :=
             match cs with
             | [] => ([], cur)
             | c :: cs' =>
                 let '(r1, cur1) := groots c cur in
                 let '(r2, cur2) := go cs' cur1 in
                 (r1 ++ r2, cur2)
             end) cs cur
      | _ => ([], cur)
      end.

  Definition groots_list : list tree -> option Z -> list tree * option Z :=
    fix go (cs : list tree) (cur : option Z) : list tree * option Z :=
      match cs with
      | [] => ([], cur)
      | c :: cs' =>
          let '(r1, cur1) := groots c cur in
          let '(r2, cur2) := go cs' cur1 in
          (r1 ++ r2, cur2)
      end.

  (** Packed trees: below an unsealed branch all children but the last are sealed
      and exactly one level below, and the last is packed. *)
  Fixpoint packed (t : tree) : bool :=
    match t with
    | TBranch x cs =>
        bi_sealed x ||
        (fix go (cs : list tree) : bool :=
           match cs with
           | [] => true
           | [c] => Nat.ltb (ilevel (root_ix c)) (bi_level x) && packed c
           | c :: cs' => isealed (root_ix c) && Nat.eqb (ilevel (root_ix c)) (bi_level x - 1) && go cs'
           end) cs
    | _ => true
    end.

  Fixpoint gleft_roots (t : tree) : list tree :=
    match t with
    | TBranch _ (c :: _) => gleft_roots c ++ [t]
    | _ => [t]
    end.

  Lemma packed_branch x cs last :
    packed (TBranch x (cs ++ [last])) =
    bi_sealed x ||
    (forallb (fun c => isealed (root_ix c) && Nat.eqb (ilevel (root_ix c)) (bi_level x - 1)) cs
     && (Nat.ltb (ilevel (root_ix last)) (bi_level x) && packed last)).
  Proof.
    cbn [packed]. f_equal. induction cs as [|c cs IH]; [easy|].
    cbn [app forallb]. rewrite <- (andb_assoc (isealed (root_ix c) && _)), <- IH. destruct cs; easy.
  Qed.

  Lemma groots_branch x cs cur :
    isealed (IBranch x) && cur_le (bi_level x) cur = false ->
    groots (TBranch x cs) cur = groots_list cs (cur_min cur (Z.of_nat (bi_level x) - 1)).
  Proof. intros H. cbn [groots]. cbn [root_ix ilevel]. now rewrite H. Qed.

  (** Nodes in depth first order with their parents, as the result of [dump_graph0]. *)
  Fixpoint gdump {S} (f : nat -> Index -> S) (parent : option nat) (id : nat) (t : tree)
    : list (nat * nat) * list (nat * S) :=
    let edges := match parent with Some p => [(p, id)] | None => [] end in
    let nodes := [(id, f id (root_ix t))] in
    match t with
    | TBranch _ cs =>
        (fix go (cs : list tree) (cur : nat) edges nodes :=
           match cs with
           | [] => (edges, nodes)
           | c :: cs' =>
               let '(e, n) := gdump f (Some id) (cur + 1) c in
               go cs' (cur + List.length n) (edges ++ e) (nodes ++ n)
           end) cs id edges nodes
    | _ => (edges, nodes)
    end.
End GhostReaders.

Section ReadProofs.
  Context {T : Types} {TL : TypesLaws T} {X : Ext} {XL : ExtLaws X}
          {B : Backend T} {BL : BackendLaws T B}.
  Variable sec : Secrets.
  Notation key := (index_key sec).
  Notation rframe := (frame (rext key)).

  Definition stable (P : Store -> Prop) : Prop :=
    forall s s', (forall l d, sblocks s l = Some d -> sblocks s' l = Some d) -> P s -> P s'.

  (** [m] returns [a] or an error, and [a] if the store is reliable and [P] holds. *)
  Definition rd {A} (m : M A) (P : Store -> Prop) (a : A) : Prop :=
    forall w r w', wok key w -> m w = (r, w') ->
      (r = Ok a \/ exists e, r = Err e)
      /\ (ReliableReads T B -> P (w_store w) -> r = Ok a).

  Lemma rd_ret {A} (a : A) P : rd (ret a) P a.
  Proof. intros w r w' _ [= <- <-]. auto. Qed.

  Lemma rd_weaken {A} (m : M A) (P Q : Store -> Prop) a :
    (forall s, Q s -> P s) -> rd m P a -> rd m Q a.
  Proof. intros H Hm w r w' W E. destruct (Hm _ _ _ W E). auto. Qed.

  Lemma rd_bind {A C} (m : M A) (f : A -> M C) (P : Store -> Prop) a c :
    rframe m -> stable P -> rd m P a -> rd (f a) P c -> rd (mbind m f) P c.
  Proof.
    intros Fm SP Hm Hf w r w' W E. unfold mbind in E.
    destruct (m w) as [ra w1] eqn:Em. pose proof (Fm _ _ _ Em) as (F1 & (F2 & _) & _).
    destruct (Hm _ _ _ W Em) as [[->|[e ->]] H2].
    - destruct (Hf _ _ _ (proj1 F1 W) E) as [G1 G2]. split; [auto|].
      intros Rel HP. apply G2; auto. eapply SP; eauto.
    - injection E as <- <-. split; [eauto|]. intros Rel HP. discriminate (H2 Rel HP).
  Qed.

  Lemma rd_lift {A} (r : res A) (P : Store -> Prop) a :
    (r = Ok a \/ exists e, r = Err e) -> (forall s, P s -> r = Ok a) -> rd (lift r) P a.
  Proof. intros H1 H2 w r' w' _ [= <- <-]. eauto. Qed.

  Lemma rd_mbind_lift {A C} (r : res A) (f : A -> M C) (P : Store -> Prop) a c :
    (r = Ok a \/ exists e, r = Err e) -> (forall s, P s -> r = Ok a) ->
    rd (f a) P c -> rd (mbind (lift r) f) P c.
  Proof.
    intros H1 H2 Hf w r' w' W E. unfold mbind, lift in E. destruct H1 as [->|[e ->]].
    - eapply Hf; eauto.
    - injection E as <- <-. split; [eauto|]. intros _ HP. discriminate (H2 _ HP).
  Qed.

  Lemma rd_get_block blk :
    rd (get_block (digest blk)) (fun s => exists d, sblocks s (digest blk) = Some d) blk.
  Proof.
    intros w r w' W E. pose proof (rf_get_block sec _ _ _ _ E) as (Hw & _). apply Hw in W as [W1 W2].
    unfold get_block in E.
    destruct (sget (w_store w) (digest blk)) as [[d|] s] eqn:G; injection E as <- <-.
    - apply sget_sound in G. apply W1 in G. apply digest_inj in G as ->. auto.
    - split; [eauto|]. intros Rel (d & Hd). pose proof (sget_reliable _ _ _ Hd) as E.
      rewrite G in E. discriminate.
  Qed.

  Lemma stable_block l : stable (fun s => exists d, sblocks s l = Some d).
  Proof. intros s s' H (d & Hd). exists d. now apply H. Qed.
  Lemma stable_and P Q : stable P -> stable Q -> stable (fun s => P s /\ Q s).
  Proof. intros H1 H2 s s' E [A C]. split; eauto. Qed.
  Lemma stable_const (P : Prop) : stable (fun _ => P).
  Proof. intros s s' _ H. exact H. Qed.
  Lemma stable_avail t : stable (fun s => avail s t).
  Proof. intros s s' E H. eapply avail_mono; [|exact H]. exact E. Qed.
  Lemma stable_avail_branches t : stable (fun s => avail_branches s t).
  Proof. intros s s' E H. eapply avail_branches_mono; [|exact H]. exact E. Qed.
  Lemma stable_Forall {A} (P : Store -> A -> Prop) l :
    (forall a, stable (fun s => P s a)) -> stable (fun s => Forall (P s) l).
  Proof. intros H s s' E F. eapply Forall_impl; [|exact F]. intros a. apply H, E. Qed.

  (** Loading a leaf. *)
  Lemma rd_load_leaf_from_link blk vs r :
    leaf_block (value_key sec) blk vs r ->
    exists z, rd (load_leaf_from_link sec (digest blk))
                 (fun s => exists d, sblocks s (digest blk) = Some d) z
              /\ z_dec (zs_data z) = Some (vals_raw vs) /\ zs_data z <> [] /\ vals_ok vs = true.
  Proof.
    intros (H1 & H2 & H3). apply block_payload_decrypt in H1 as (z & D & Z1 & Z2).
    exists z. split; [|easy].
    eapply rd_bind; [apply rf_get_block|apply stable_block|apply rd_get_block|].
    rewrite D. eapply rd_mbind_lift; [left; reflexivity|reflexivity|]. apply rd_ret.
  Qed.

  (** Loading a branch. *)
  Definition branch_avail (cs : list Index) (l : L) (s : Store) : Prop :=
    (exists d, sblocks s l = Some d) /\ fits (idxs_raw cs) = true.

  Lemma stable_branch_avail cs l : stable (branch_avail cs l).
  Proof. apply stable_and; [apply stable_block|apply stable_const]. Qed.

  Lemma rd_load_branch_from_link blk cs r :
    branch_block key blk cs r -> cs <> [] ->
    rd (load_branch_from_link sec (digest blk)) (branch_avail cs (digest blk))
       {| br_children := cs; br_range := r |}.
  Proof.
    intros Hb Hne. eapply rd_bind;
      [apply rf_get_block|apply stable_branch_avail|eapply rd_weaken; [|apply rd_get_block]; now intros s []|].
    pose proof (deserialize_spec _ _ _ _ Hb) as ->.
    destruct (fits (idxs_raw cs)) eqn:F.
    - eapply rd_mbind_lift; [left; reflexivity|reflexivity|].
      unfold new_branch_data. cbn. destruct cs; [congruence|]. apply rd_ret.
    - eapply rd_mbind_lift with (a := (cs, r)); [eauto| |].
      + intros s [_ C]. congruence.
      + unfold new_branch_data. cbn. destruct cs; [congruence|]. apply rd_ret.
  Qed.

  Lemma rd_load_branch_cached blk cs r :
    branch_block key blk cs r -> cs <> [] ->
    rd (load_branch_cached sec (digest blk)) (branch_avail cs (digest blk))
       {| br_children := cs; br_range := r |}.
  Proof.
    intros Hb Hne w r0 w' W E. unfold load_branch_cached, mbind at 1 in E.
    destruct (cache_get (digest blk) w) as [o w1] eqn:Ec.
    pose proof (rf_cache_get sec _ _ _ _ Ec) as F. unfold cache_get in Ec.
    destruct (cget (w_cache w) (digest blk)) as [[b|] c] eqn:G; injection Ec as <- <-.
    - injection E as <- <-. apply cget_sound in G.
      destruct W as [_ W2]. apply W2 in G as [(blk' & Hd & D & _)|U].
      2:{ destruct (branch_block_opens _ _ _ _ Hb) as (z & D1 & D2). now rewrite (U _ _ _ eq_refl D1) in D2. }
      apply digest_inj in Hd as <-.
      apply (branch_block_det _ _ _ _ _ _ Hb) in D as [D1 D2]. destruct b as [bc br]. cbn in *. subst. auto.
    - assert (W1 : wok key (set_cache w c)) by now apply F.
      unfold mbind in E.
      destruct (load_branch_from_link sec (digest blk) (set_cache w c)) as [rb w2] eqn:El.
      destruct (rd_load_branch_from_link _ _ _ Hb Hne _ _ _ W1 El) as [[->|[e ->]] H2].
      + cbn in E. injection E as <- <-. auto.
      + injection E as <- <-. split; [eauto|]. intros Rel HP.
        discriminate (H2 Rel HP).
  Qed.

  (** ** [get0] and [collect0] *)

  Lemma nth_error_flat_map_skip {A} (f : tree -> list A) c cs n :
    List.length (f c) <= n -> nth_error (flat_map f (c :: cs)) n = nth_error (flat_map f cs) (n - List.length (f c)).
  Proof. intros H. cbn. now apply nth_error_app2. Qed.

  Definition join {A} (o : option (option A)) : option A := match o with Some x => x | None => None end.

  Lemma repr_leaf_avail lim x vs : repr sec lim (TLeaf x vs) ->
    exists l z, li_link x = Some l
      /\ rd (load_leaf_from_link sec l) (fun s => avail s (TLeaf x vs)) z
      /\ z_dec (zs_data z) = Some (vals_raw vs) /\ zs_data z <> [] /\ vals_ok vs = true.
  Proof.
    intros (H1 & blk & r & H2 & H3 & H4). apply rd_load_leaf_from_link in H3 as (z & Z1 & Z2 & Z3 & Z4).
    exists (digest blk), z. split; [easy|]. split; [|auto]. eapply rd_weaken; [|exact Z1].
    intros s ((l & d & A1 & A2) & _). rewrite A1 in H2. injection H2 as ->. eauto.
  Qed.

  Lemma repr_branch_load lim x cs : repr sec lim (TBranch x cs) ->
    exists l r, bi_link x = Some l
      /\ (forall P : Store -> Prop, (forall s, P s -> avail_branches s (TBranch x cs)) ->
            rd (load_branch_cached sec l) P {| br_children := map root_ix cs; br_range := r |}
            /\ rd (load_branch_from_link sec l) P {| br_children := map root_ix cs; br_range := r |})
      /\ Forall (repr sec (fst r)) cs /\ (fst r <= snd r)%N /\ (snd r <= lim)%N
      /\ Forall (repr sec lim) cs
      /\ cs <> [] /\ Forall (fun c => ilevel (root_ix c) < bi_level x) cs.
  Proof.
    intros R. apply repr_branch in R as (A1 & A2 & A3 & A4 & blk & r & A5 & A6 & A7 & A8).
    pose proof (block_range_le _ _ _ _ (proj1 A6)).
    exists (digest blk), r. split; [easy|]. split; [|split; [easy|]; split; [easy|]; split; [easy|]; split; [|split; [easy|]]].
    - intros P HP.
      assert (HP' : forall s, P s -> branch_avail (map root_ix cs) (digest blk) s).
      { intros s Hs. apply HP, avail_branches_branch in Hs as ((l & d & L1 & L2) & L3 & L4).
        rewrite A5 in L1; injection L1 as <-; split; eauto. }
      assert (map root_ix cs <> []) by (destruct cs; [congruence|discriminate]).
      split; (eapply rd_weaken; [exact HP'|]); [apply rd_load_branch_cached|apply rd_load_branch_from_link]; auto.
    - eapply repr_Forall_weaken; [|exact A8]. lia.
    - rewrite Forall_map in A4. exact A4.
  Qed.

  Lemma get0_rd lim d : forall t off, repr sec lim t -> ilevel (root_ix t) < d ->
    rd (get0 sec d (root_ix t) off) (fun s => avail s t) (join (nth_error (content t) off)).
  Proof.
    revert lim. induction d as [|d IH]; intros lim t off R Hd; [lia|].
    pose proof (length_content _ _ _ R) as Hlen.
    cbn [get0]. destruct (Nat.leb_spec (icount (root_ix t)) off) as [Hc|Hc].
    { replace (nth_error (content t) off) with (@None (option (K * V))) by (symmetry; apply nth_error_None; lia).
      apply rd_ret. }
    destruct t as [x vs|x|x cs|x]; cbn [root_ix node_info_of] in *.
    - destruct (repr_leaf_avail _ _ _ R) as (l & z & Hl & Z1 & Z2 & Z3 & Z4). rewrite Hl.
      destruct R as (R & _). cbn in Hc.
      destruct (nth_error (leaf_keys x) off) as [k|] eqn:Ek; [|apply nth_error_None in Ek; lia].
      destruct (nth_error vs off) as [v|] eqn:Ev; [|apply nth_error_None in Ev; lia].
      assert (Hn : nth_error (content (TLeaf x vs)) off = Some (Some (k, v))).
      { cbn. rewrite nth_error_map. clear -Ek Ev. revert vs off Ek Ev. generalize (leaf_keys x).
        induction l as [|a l IH]; intros [|b vs] [|o] E1 E2; try discriminate; cbn in *;
          [congruence|auto]. }
      rewrite Hn. eapply rd_bind; [apply rf_load_leaf_from_link|apply stable_avail|exact Z1|].
      unfold child_at. rewrite (zs_get_spec _ vs off Z2 Z4), Ev.
      eapply rd_mbind_lift with (a := v); [| |apply rd_ret].
      + destruct (fits (vals_raw vs)); cbn; eauto.
      + intros s (_ & ->). reflexivity.
    - cbn in R. rewrite R. cbn [content].
      rewrite nth_error_repeat by assumption. apply rd_ret.
    - destruct (repr_branch_load _ _ _ R) as (l & r & Hl & Hld & Hch & _ & _ & _ & _ & Hlv). rewrite Hl.
      eapply rd_bind; [apply rf_load_branch_cached|apply stable_avail|apply Hld; intros s; apply avail_avail_branches|].
      assert (Hc' : off < List.length (flat_map content cs)) by (cbn in Hlen, Hc; lia).
      cbn [br_children content].
      assert (G : forall off, off < List.length (flat_map content cs) ->
        rd ((fix go (cs : list Index) (offset : nat) : M (option (K * V)) :=
                 match cs with
                 | [] => fail EIndex
                 | c :: cs' =>
                     if Nat.ltb offset (icount c) then get0 sec d c offset
                     else go cs' (offset - icount c)
                 end) (map root_ix cs) off)
           (fun s => Forall (avail s) cs) (join (nth_error (flat_map content cs) off))).
      { clear -IH Hch Hlv Hd TL XL BL. cbn in Hd.
        induction cs as [|c cs IHcs]; intros off Hoff; [cbn in Hoff; lia|].
        apply Forall_inv in Hch as Hc1. apply Forall_inv_tail in Hch.
        apply Forall_inv in Hlv as Hl1. apply Forall_inv_tail in Hlv.
        pose proof (length_content _ _ _ Hc1) as Hlen. cbn [map].
        destruct (Nat.ltb_spec off (icount (root_ix c))) as [Hlt|Hge].
        - cbn. rewrite nth_error_app1 by lia. eapply rd_weaken; [|eapply (IH _ c); [exact Hc1|lia]].
          intros s Hs. now apply Forall_inv in Hs.
        - rewrite nth_error_flat_map_skip by lia. rewrite Hlen.
          eapply rd_weaken; [|apply IHcs; auto].
          + intros s Hs. now apply Forall_inv_tail in Hs.
          + cbn in Hoff. rewrite app_length in Hoff. lia. }
      eapply rd_weaken; [|apply G; lia]. intros s Hs. apply avail_branch in Hs. apply Hs.
    - cbn in R. rewrite R. cbn [content]. rewrite nth_error_repeat by assumption. apply rd_ret.
  Qed.

  Lemma skipn_repeat {A} (a : A) n m : skipn n (repeat a m) = repeat a (m - n).
  Proof. revert m; induction n as [|n IH]; intros [|m]; cbn; auto. Qed.

  Lemma collect0_rd lim d : forall t off, repr sec lim t -> ilevel (root_ix t) < d ->
    rd (collect0 sec d (root_ix t) off) (fun s => avail s t) (skipn off (content t)).
  Proof.
    revert lim. induction d as [|d IH]; intros lim t off R Hd; [lia|].
    cbn [collect0]. destruct (Nat.leb_spec (icount (root_ix t)) off) as [Hc|Hc].
    { erewrite content_skip by eauto. apply rd_ret. }
    destruct t as [x vs|x|x cs|x]; cbn [root_ix node_info_of] in *.
    - destruct (repr_leaf_avail _ _ _ R) as (l & z & Hl & Z1 & Z2 & Z3 & Z4). rewrite Hl.
      eapply rd_bind; [apply rf_load_leaf_from_link|apply stable_avail|exact Z1|].
      rewrite (zs_items_spec _ vs Z2 Z4).
      eapply rd_mbind_lift with (a := vs).
      + destruct (fits (vals_raw vs)); eauto.
      + intros s (_ & ->). reflexivity.
      + cbn [content]. rewrite skipn_map. apply rd_ret.
    - cbn in R. rewrite R. cbn [content]. rewrite skipn_repeat. apply rd_ret.
    - destruct (repr_branch_load _ _ _ R) as (l & r & Hl & Hld & Hch & _ & _ & _ & _ & Hlv). rewrite Hl.
      eapply rd_bind; [apply rf_load_branch_cached|apply stable_avail|apply Hld; intros s; apply avail_avail_branches|].
      cbn [br_children content].
      assert (G : forall off,
        rd ((fix go (cs : list Index) (offset : nat) : M (list (option (K * V))) :=
                 match cs with
                 | [] => ret []
                 | c :: cs' =>
                     mbind (if Nat.ltb offset (icount c) then collect0 sec d c offset else ret [])
                     (fun r1 => mbind (go cs' (offset - icount c)) (fun r2 => ret (r1 ++ r2)))
                 end) (map root_ix cs) off)
           (fun s => Forall (avail s) cs) (skipn off (flat_map content cs))).
      { clear -IH Hch Hlv Hd TL XL BL. cbn in Hd.
        induction cs as [|c cs IHcs]; intros off; [cbn; rewrite skipn_nil; apply rd_ret|].
        apply Forall_inv in Hch as Hc1. apply Forall_inv_tail in Hch.
        apply Forall_inv in Hlv as Hl1. apply Forall_inv_tail in Hlv.
        pose proof (length_content _ _ _ Hc1) as Hlen. cbn [map flat_map].
        rewrite skipn_app, Hlen.
        eapply rd_bind with (a := skipn off (content c)).
        - destruct (Nat.ltb off (icount (root_ix c))); [apply rf_collect0|apply rf_ret].
        - apply stable_Forall. apply stable_avail.
        - destruct (Nat.ltb_spec off (icount (root_ix c))) as [Hlt|Hge].
          + eapply rd_weaken; [|eapply (IH _ c); [exact Hc1|lia]]. intros s Hs. now apply Forall_inv in Hs.
          + erewrite content_skip by eauto. apply rd_ret.
        - eapply rd_bind; [|apply stable_Forall, stable_avail| |apply rd_ret].
          + generalize (off - icount (root_ix c)). clear -TL XL BL. induction (map root_ix cs) as [|i is IH]; intros o; [apply rf_ret|].
            apply rf_bind; [destruct (Nat.ltb o (icount i)); [apply rf_collect0|apply rf_ret]|]. intros.
            apply rf_bind; [apply IH|]. intros. apply rf_ret.
          + eapply rd_weaken; [|apply IHcs; auto]. intros s Hs. now apply Forall_inv_tail in Hs. }
      eapply rd_weaken; [|apply G]. intros s Hs. apply avail_branch in Hs. apply Hs.
    - cbn in R. rewrite R. cbn [content]. rewrite skipn_repeat. apply rd_ret.
  Qed.

  (** ** [roots0] *)
  Lemma roots0_rd lim d : forall t cur, repr sec lim t -> ilevel (root_ix t) < d ->
    rd (roots0 sec d (root_ix t) cur) (fun s => avail_branches s t)
       (map root_ix (fst (groots t cur)), snd (groots t cur)).
  Proof.
    revert lim. induction d as [|d IH]; intros lim t cur R Hd; [lia|].
    cbn [roots0]. destruct (isealed (root_ix t) && cur_le (ilevel (root_ix t)) cur) eqn:E.
    { replace (groots t cur) with ([t], Some (Z.of_nat (ilevel (root_ix t)))) by (destruct t; cbn [groots]; now rewrite E).
      apply rd_ret. }
    destruct t as [x vs|x|x cs|x].
    1, 2, 4: cbn [groots]; rewrite E; try apply rd_ret.
    - cbn [root_ix ilevel]. cbn in R. rewrite R. apply rd_ret.
    - rewrite groots_branch by exact E. cbn [root_ix] in *.
      destruct (repr_branch_load _ _ _ R) as (l & r & Hl & Hld & Hch & _ & _ & _ & _ & Hlv). rewrite Hl.
      eapply rd_bind; [apply rf_load_branch_from_link|apply stable_avail_branches|apply Hld; auto|].
      cbn [br_children ilevel]. generalize (cur_min cur (Z.of_nat (bi_level x) - 1)). intros cur0.
      eapply rd_weaken with (P := fun s => Forall (avail_branches s) cs).
      { intros s Hs. apply avail_branches_branch in Hs. apply Hs. }
      clear -IH Hch Hlv Hd TL XL BL. cbn in Hd. revert cur0.
      induction cs as [|c cs IHcs]; intros cur; [apply rd_ret|].
      apply Forall_inv in Hch as Hc1. apply Forall_inv_tail in Hch.
      apply Forall_inv in Hlv as Hl1. apply Forall_inv_tail in Hlv. cbn [map].
      eapply rd_bind; [apply rf_roots0|apply stable_Forall, stable_avail_branches| |].
      { eapply rd_weaken; [|eapply (IH _ c); [exact Hc1|lia]]. intros s Hs. now apply Forall_inv in Hs. }
      cbn [groots_list]. destruct (groots c cur) as [r1 cur1]. cbn [fst snd].
      eapply rd_bind; [|apply stable_Forall, stable_avail_branches| |].
      + generalize cur1. clear -TL XL BL. induction (map root_ix cs) as [|i is IH]; intros cur1; [apply rf_ret|].
        apply rf_bind; [apply rf_roots0|]. intros []. apply rf_bind; [apply IH|]. intros []. apply rf_ret.
      + eapply rd_weaken; [|apply IHcs; auto]. intros s Hs. now apply Forall_inv_tail in Hs.
      + change ((fix go (cs0 : list tree) (cur0 : option Z) {struct cs0} : list tree * option Z :=
             match cs0 with
             | [] => ([], cur0)
             | c0 :: cs' =>
                 let '(r0, cur2) := groots c0 cur0 in let '(r2, cur3) := go cs' cur2 in (r0 ++ r2, cur3)
             end) cs cur1) with (groots_list cs cur1).
        destruct (groots_list cs cur1) as [r2 cur2]. cbn [fst snd]. rewrite map_app. apply rd_ret.
  Qed.

  Lemma is_packed0_rd lim d : forall t, repr sec lim t -> ilevel (root_ix t) < d ->
    rd (is_packed0 sec d (root_ix t)) (fun s => avail_branches s t) (packed t).
  Proof.
    revert lim. induction d as [|d IH]; intros lim t R Hd; [lia|].
    destruct t as [x vs|x|x cs|x]; cbn [root_ix is_packed0 node_info_of].
    - destruct (li_link x); apply rd_ret.
    - destruct (li_link x); apply rd_ret.
    - destruct (repr_branch_load _ _ _ R) as (l & r & Hl & Hld & Hch & _ & _ & _ & Hne & Hlv). rewrite Hl.
      destruct (bi_sealed x) eqn:Es.
      { replace (packed (TBranch x cs)) with true by (cbn [packed]; now rewrite Es). apply rd_ret. }
      eapply rd_bind; [apply rf_load_branch_cached|apply stable_avail_branches|apply Hld; auto|].
      cbn [br_children]. destruct (exists_last Hne) as (cs0 & last & ->).
      rewrite map_app, rev_app_distr. cbn [map rev app]. rewrite packed_branch, Es, rev_involutive.
      rewrite Forall_app in Hch, Hlv. destruct Hch as [_ Hch], Hlv as [_ Hlv].
      apply Forall_inv in Hch. apply Forall_inv in Hlv. cbn in Hd.
      eapply rd_bind; [apply rf_is_packed0|apply stable_avail_branches| |].
      + eapply rd_weaken; [|eapply (IH _ last); [exact Hch|lia]]. intros s Hs.
        apply avail_branches_branch in Hs as (_ & _ & Hs). rewrite Forall_app in Hs. destruct Hs as [_ Hs].
        now apply Forall_inv in Hs.
      + replace (forallb (fun c : Index => isealed c && (ilevel c =? bi_level x - 1)) (map root_ix cs0))
          with (forallb (fun c => isealed (root_ix c) && (ilevel (root_ix c) =? bi_level x - 1)) cs0).
        * cbn [orb]. rewrite andb_assoc. apply rd_ret.
        * clear. induction cs0 as [|c cs IH]; cbn; [easy|]. now rewrite IH.
    - cbn in R. rewrite R. apply rd_ret.
  Qed.

  Lemma left_roots0_rd lim d : forall t, repr sec lim t -> ilevel (root_ix t) < d ->
    rd (left_roots0 sec d (root_ix t)) (fun s => avail_branches s t) (map root_ix (gleft_roots t)).
  Proof.
    revert lim. induction d as [|d IH]; intros lim t R Hd; [lia|].
    destruct t as [x vs|x|x cs|x]; cbn [root_ix left_roots0].
    1, 2: eapply rd_bind; [apply rf_ret|apply stable_avail_branches|apply rd_ret|apply rd_ret].
    - destruct (repr_branch_load _ _ _ R) as (l & r & Hl & Hld & Hch & _ & _ & _ & Hne & Hlv). rewrite Hl.
      destruct cs as [|c cs]; [congruence|]. cbn [gleft_roots]. rewrite map_app.
      apply Forall_inv in Hch. apply Forall_inv in Hlv. cbn in Hd.
      eapply rd_bind; [|apply stable_avail_branches| |apply rd_ret].
      + apply rf_bind; [apply rf_load_branch_cached|]. intros b. destruct (br_children b); [apply rf_mpanic|apply rf_left_roots0].
      + eapply rd_bind; [apply rf_load_branch_cached|apply stable_avail_branches|apply Hld; auto|].
        cbn [br_children map]. eapply rd_weaken; [|eapply (IH _ c); [exact Hch|lia]]. intros s Hs.
        apply avail_branches_branch in Hs as (_ & _ & Hs). now apply Forall_inv in Hs.
    - cbn in R. rewrite R. eapply rd_bind; [apply rf_ret|apply stable_avail_branches|apply rd_ret|apply rd_ret].
  Qed.

  Lemma dump_graph0_rd {S} (f : nat -> Index -> S) lim d : forall t p n, repr sec lim t -> ilevel (root_ix t) < d ->
    rd (dump_graph0 sec f d p n (root_ix t)) (fun s => avail_branches s t) (gdump f p n t).
  Proof.
    revert lim. induction d as [|d IH]; intros lim t p n R Hd; [lia|].
    destruct t as [x vs|x|x cs|x]; cbn [root_ix dump_graph0 node_info_of].
    1, 2: destruct (li_link x); apply rd_ret.
    - destruct (repr_branch_load _ _ _ R) as (l & r & Hl & Hld & Hch & _ & _ & _ & Hne & Hlv). rewrite Hl.
      eapply rd_bind; [apply rf_load_branch_cached|apply stable_avail_branches|apply Hld; auto|].
      cbn [gdump root_ix br_children].
      eapply rd_weaken with (P := fun s => Forall (avail_branches s) cs).
      { intros s Hs. apply avail_branches_branch in Hs. apply Hs. }
      generalize (match p with Some p0 => [(p0, n)] | None => [] end).
      generalize [(n, f n (IBranch x))]. generalize n at 2 4.
      clear -IH Hch Hlv Hd TL XL BL. cbn in Hd.
      induction cs as [|c cs IHcs]; intros cur nodes edges; [apply rd_ret|].
      apply Forall_inv in Hch as Hc1. apply Forall_inv_tail in Hch.
      apply Forall_inv in Hlv as Hl1. apply Forall_inv_tail in Hlv. cbn [map].
      eapply rd_bind; [apply rf_dump_graph0|apply stable_Forall, stable_avail_branches| |].
      { eapply rd_weaken; [|eapply (IH _ c); [exact Hc1|lia]]. intros s Hs. now apply Forall_inv in Hs. }
      destruct (gdump f (Some n) (cur + 1) c) as [e ns].
      eapply rd_weaken; [|apply IHcs; auto]. intros s Hs. now apply Forall_inv_tail in Hs.
    - cbn in R. rewrite R. apply rd_ret.
  Qed.

  (** ** Structure *)

  (** A sealed node of level [l] has at least so many entries. *)
  Fixpoint least_count (cfg : Config) (l : nat) : nat :=
    match l with O => 1 | S l' => max_branches cfg l * least_count cfg l' end.

  (** The flag of a branch with these children. *)
  Definition sealed_in (cfg : Setting) (cs : list Index) (level : nat) (sealed : bool) : Prop :=
    (sealed = true -> branch_sealed (s_lo cfg) cs level = true)
    /\ (branch_sealed (s_hi cfg) cs level = true -> sealed = true).

  (** What every tree built by the library satisfies for the configurations
      that were in use. *)
  Fixpoint inv (cfg : Setting) (t : tree) : Prop :=
    match t with
    | TLeaf x vs => 1 <= List.length (leaf_keys x) <= max_leaf_count (s_hi cfg) /\ fits (vals_raw vs) = true
        /\ (Nlen (vals_raw vs) <= max_uncompressed_leaf_size (s_hi cfg))%N
    | TLeafP x => 1 <= List.length (leaf_keys x) <= max_leaf_count (s_hi cfg)
    | TBranch x cs =>
        bi_level x = S (max_nat (map ilevel (map root_ix cs)))
        /\ sealed_in cfg (map root_ix cs) (bi_level x) (bi_sealed x)
        /\ branch_sums x = map summarize (map root_ix cs)
        /\ (List.length cs <= max_branches (s_hi cfg) (bi_level x)
            /\ bi_vbytes x = fold_right N.add 0%N (map ivbytes (map root_ix cs)))
        /\ (fix go (l : list tree) : Prop := match l with [] => True | c :: l' => inv cfg c /\ go l' end) cs
    | TBranchP x =>
        1 <= bi_level x
        /\ (exists ks, sum_of (summarize (IBranch x)) ks /\ bi_count x = List.length ks)
        /\ (bi_sealed x = true -> least_count (s_lo cfg) (bi_level x) <= bi_count x
                                  /\ max_branches (s_lo cfg) (bi_level x) <= List.length (branch_sums x))
    end.

  Lemma invs_branch (cfg : Setting) x cs :
    inv cfg (TBranch x cs) <->
    bi_level x = S (max_nat (map ilevel (map root_ix cs)))
    /\ sealed_in cfg (map root_ix cs) (bi_level x) (bi_sealed x)
    /\ branch_sums x = map summarize (map root_ix cs)
    /\ (List.length cs <= max_branches (s_hi cfg) (bi_level x)
        /\ bi_vbytes x = fold_right N.add 0%N (map ivbytes (map root_ix cs)))
    /\ Forall (inv cfg) cs.
  Proof. cbn [inv]. now rewrite go_Forall. Qed.

  (** With one configuration only. *)
  Lemma inv_branch (cfg : Config) x cs :
    inv cfg (TBranch x cs) <->
    bi_level x = S (max_nat (map ilevel (map root_ix cs)))
    /\ bi_sealed x = branch_sealed cfg (map root_ix cs) (bi_level x)
    /\ branch_sums x = map summarize (map root_ix cs)
    /\ (List.length cs <= max_branches cfg (bi_level x)
        /\ bi_vbytes x = fold_right N.add 0%N (map ivbytes (map root_ix cs)))
    /\ Forall (inv cfg) cs.
  Proof.
    rewrite invs_branch. unfold sealed_in. cbn [s_lo s_hi only].
    destruct (bi_sealed x), (branch_sealed cfg (map root_ix cs) (bi_level x)); intuition congruence.
  Qed.

  Lemma branch_sealed_true (cfg : Config) cs level : branch_sealed cfg cs level = true ->
    Forall (fun c => isealed c = true /\ ilevel c = level - 1) cs /\ max_branches cfg level <= List.length cs.
  Proof.
    unfold branch_sealed. intros H.
    destruct (existsb (fun x => negb (isealed x)) cs) eqn:E1; [discriminate|].
    destruct (existsb (fun x => negb (Nat.eqb (ilevel x) (level - 1))) cs) eqn:E2; [discriminate|].
    split; [|now apply Nat.leb_le]. apply Forall_forall. intros c Hc. split.
    - destruct (isealed c) eqn:E; [easy|].
      rewrite <- E1. apply existsb_exists. exists c. now rewrite E.
    - destruct (Nat.eqb_spec (ilevel c) (level - 1)) as [E|E]; [easy|].
      exfalso. enough (false = true) by discriminate.
      rewrite <- E2. apply existsb_exists. exists c. split; [easy|].
      now apply negb_true_iff, Nat.eqb_neq.
  Qed.

  Lemma sealed_count (cfg : Setting) t : forall lim, repr sec lim t -> inv cfg t -> isealed (root_ix t) = true ->
    least_count (s_lo cfg) (ilevel (root_ix t)) <= icount (root_ix t).
  Proof.
    induction t as [x vs|x|x cs IH|x] using tree_ind'; intros lim R I Hs; cbn [root_ix ilevel icount] in *.
    - destruct I as (I & _). cbn. lia.
    - cbn in *. lia.
    - apply repr_branch in R as (R1 & R2 & R3 & R4 & blk & r & _ & _ & _ & R8).
      apply invs_branch in I as (I1 & (I2 & _) & I3 & I4 & I5). cbn [isealed] in Hs. specialize (I2 Hs).
      apply branch_sealed_true in I2 as [H1 H2]. rewrite R2. rewrite I1 in *. clear I1 R3 R4 I3 I4.
      set (l := max_nat _) in *. clearbody l. cbn [least_count]. rewrite map_length in H2.
      replace (S l - 1) with l in H1 by lia. rewrite Forall_map in H1.
      assert (G : Forall (fun c => least_count (s_lo cfg) l <= icount (root_ix c)) cs).
      { rewrite Forall_forall in *. intros c Hc. destruct (H1 c Hc) as [H3 <-]. eapply IH; eauto. }
      clear -G H2. apply (Nat.le_trans _ (List.length cs * least_count (s_lo cfg) l)); [now apply Nat.mul_le_mono_r|].
      clear H2. induction G as [|c cs G _ IH]; cbn in *; unfold sum_nat in *; lia.
    - destruct I as (_ & _ & I). apply I. exact Hs.
  Qed.
  Lemma sealed_purge (cfg : Setting) lim x cs : repr sec lim (TBranch x cs) -> inv cfg (TBranch x cs) -> bi_sealed x = true ->
    least_count (s_lo cfg) (bi_level x) <= bi_count x /\ max_branches (s_lo cfg) (bi_level x) <= List.length (branch_sums x).
  Proof.
    intros R I Hs. split; [exact (sealed_count _ _ _ R I Hs)|].
    apply repr_branch in R as (_ & _ & -> & _). apply invs_branch in I as (_ & (I & _) & _). specialize (I Hs).
    apply branch_sealed_true in I as [_ I]. now rewrite map_length in I.
  Qed.

  Lemma branch_sealed_intro (cfg : Config) cs level :
    Forall (fun c => isealed c = true /\ ilevel c = level - 1) cs -> max_branches cfg level <= List.length cs ->
    branch_sealed cfg cs level = true.
  Proof.
    unfold branch_sealed. intros H Hl. rewrite Forall_forall in H.
    destruct (existsb (fun x => negb (isealed x)) cs) eqn:E1.
    { apply existsb_exists in E1 as (c & Hc & E). apply H in Hc as [Hc _]. now rewrite Hc in E. }
    destruct (existsb (fun x => negb (Nat.eqb (ilevel x) (level - 1))) cs) eqn:E2.
    { apply existsb_exists in E2 as (c & Hc & E). apply H in Hc as [_ Hc]. now rewrite Hc, Nat.eqb_refl in E. }
    now apply Nat.leb_le.
  Qed.

  Lemma check_combine cs : flat_map (fun p => check (s_eqb (summarize (fst p)) (snd p)) ChildSummary)
    (combine cs (map summarize cs)) = [].
  Proof. induction cs as [|c cs IH]; cbn; [easy|]. now rewrite s_eqb_refl, IH. Qed.

  Lemma check_invariants0_rd (cfg : Config) lim d : forall t, repr sec lim t -> inv cfg t -> ilevel (root_ix t) < d ->
    rd (check_invariants0 sec cfg d (root_ix t)) (fun s => avail s t) [].
  Proof.
    revert lim. induction d as [|d IH]; intros lim t R I Hd; [lia|].
    destruct t as [x vs|x|x cs|x]; cbn [root_ix check_invariants0 node_info_of].
    - destruct (repr_leaf_avail _ _ _ R) as (l & z & Hl & Z1 & Z2 & Z3 & Z4). rewrite Hl.
      eapply rd_bind; [apply rf_load_leaf_from_link|apply stable_avail|exact Z1|].
      rewrite (zs_count_spec _ vs Z2 Z4).
      eapply rd_mbind_lift with (a := List.length vs).
      + destruct (fits (vals_raw vs)); eauto.
      + intros s (_ & ->). reflexivity.
      + destruct R as (R & _). rewrite R, Nat.eqb_refl. apply rd_ret.
    - cbn in R. rewrite R. apply rd_ret.
    - destruct (repr_branch_load _ _ _ R) as (l & r & Hl & Hld & Hch & _ & _ & _ & Hne & Hlv). rewrite Hl.
      apply inv_branch in I as (I1 & I2 & I3 & I4 & I5). cbn in Hd.
      eapply rd_bind; [apply rf_load_branch_cached|apply stable_avail|apply Hld; intros s; apply avail_avail_branches|].
      cbn [br_children].
      eapply rd_bind with (a := map (fun _ => []) cs).
      + apply frame_mmapM; [apply rext_refl|apply rext_trans|apply rf_check_invariants0].
      + apply stable_avail.
      + eapply rd_weaken with (P := fun s => Forall (avail s) cs).
        { intros s Hs. apply avail_branch in Hs. apply Hs. }
        clear -IH Hch Hlv Hd I5 TL XL BL. induction cs as [|c cs IHcs]; [apply rd_ret|].
        apply Forall_inv in Hch as Hc1. apply Forall_inv_tail in Hch.
        apply Forall_inv in Hlv as Hl1. apply Forall_inv_tail in Hlv.
        apply Forall_inv in I5 as Hi1. apply Forall_inv_tail in I5. cbn [map].
        eapply rd_bind; [apply rf_check_invariants0|apply stable_Forall, stable_avail| |].
        { eapply rd_weaken; [|eapply (IH _ c); [exact Hc1|exact Hi1|lia]]. intros s Hs. now apply Forall_inv in Hs. }
        eapply rd_bind; [|apply stable_Forall, stable_avail| |apply rd_ret].
        * apply (frame_mmapM _ (rext_refl key) (rext_trans key) (check_invariants0 sec cfg d)). intros. apply rf_check_invariants0.
        * eapply rd_weaken; [|apply IHcs; auto]. intros s Hs. now apply Forall_inv_tail in Hs.
      + rewrite I3, !map_length, Nat.eqb_refl. cbn [check app].
        rewrite check_combine. rewrite <- I2, Bool.eqb_reflx. cbn [check app].
        replace (flat_map _ (map root_ix cs)) with (@nil violation).
        2:{ symmetry. rewrite flat_map_concat_map. apply concat_nil_Forall. rewrite !Forall_map.
            destruct (bi_sealed x).
            - symmetry in I2. apply branch_sealed_true in I2 as [I2 _]. rewrite Forall_map in I2.
              eapply Forall_impl; [|exact I2]. intros c [_ ->]. now rewrite Nat.eqb_refl.
            - eapply Forall_impl; [|exact Hlv]. intros c Hc. apply Nat.ltb_lt in Hc. now rewrite Hc. }
        replace (List.concat (map (fun _ : tree => []) cs)) with (@nil violation).
        2:{ clear. induction cs; auto. }
        apply rd_ret.
    - cbn in R. rewrite R. apply rd_ret.
  Qed.
End ReadProofs.

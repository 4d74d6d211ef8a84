(** Which trees can be packed: the roots found by [pack] are a prefix of the
    tree and nothing after them is purged. *)
From Coq Require Import List NArith ZArith Lia Bool String Arith.
From Verif Require Import Base BaseProofs Cbor Types Seq SeqProofs Query World Read Write Ghost Frame ReadProofs.
Import ListNotations.

Section Packable.
  Context {T : Types}.

  (** Purged nodes are sealed. *)
  Fixpoint psealed (t : tree) : Prop :=
    match t with
    | TLeaf _ _ => True
    | TLeafP x => li_sealed x = true
    | TBranch _ cs => (fix go (l : list tree) : Prop := match l with [] => True | c :: l' => psealed c /\ go l' end) cs
    | TBranchP x => bi_sealed x = true
    end.

  Lemma psealed_branch x cs : psealed (TBranch x cs) <-> Forall psealed cs.
  Proof. cbn [psealed]. apply go_Forall. Qed.

  (** Nothing is purged. *)
  Fixpoint solid (t : tree) : Prop :=
    match t with
    | TLeaf _ _ => True
    | TBranch _ cs => (fix go (l : list tree) : Prop := match l with [] => True | c :: l' => solid c /\ go l' end) cs
    | TLeafP _ | TBranchP _ => False
    end.

  Lemma solid_branch x cs : solid (TBranch x cs) <-> Forall solid cs.
  Proof. cbn [solid]. apply go_Forall. Qed.

  (** With cursor [cur], [roots0] does not pass over a purged node. *)
  Fixpoint pk (t : tree) (cur : option Z) : Prop :=
    if isealed (root_ix t) && cur_le (ilevel (root_ix t)) cur then True
    else
      let cur := cur_min cur (Z.of_nat (ilevel (root_ix t)) - 1) in
      match t with
      | TLeaf _ _ => True
      | TLeafP _ | TBranchP _ => False
      | TBranch _ cs =>
          (fix go (cs : list tree) (cur : option Z) : Prop :=
             match cs with
             | [] => True
             | c :: cs' => pk c cur /\ go cs' (snd (groots c cur))
             end) cs cur
      end.

  Definition pk_list : list tree -> option Z -> Prop :=
    fix go (cs : list tree) (cur : option Z) : Prop :=
      match cs with
      | [] => True
      | c :: cs' => pk c cur /\ go cs' (snd (groots c cur))
      end.

  Lemma groots_list_cons c cs cur :
    groots_list (c :: cs) cur =
    (fst (groots c cur) ++ fst (groots_list cs (snd (groots c cur))), snd (groots_list cs (snd (groots c cur)))).
  Proof.
    change (groots_list (c :: cs) cur) with
      (let '(r1, cur1) := groots c cur in let '(r2, cur2) := groots_list cs cur1 in (r1 ++ r2, cur2)).
    destruct (groots c cur) as [r1 c1]. cbn [fst snd]. now destruct (groots_list cs c1).
  Qed.

  Lemma pk_list_cons c cs cur : pk_list (c :: cs) cur = (pk c cur /\ pk_list cs (snd (groots c cur))).
  Proof. reflexivity. Qed.

  Lemma pk_branch x cs cur :
    isealed (IBranch x) && cur_le (bi_level x) cur = false ->
    pk (TBranch x cs) cur = pk_list cs (cur_min cur (Z.of_nat (bi_level x) - 1)).
  Proof. intros H. cbn [pk]. cbn [root_ix ilevel]. now rewrite H. Qed.

  Lemma pk_taken t cur : isealed (root_ix t) && cur_le (ilevel (root_ix t)) cur = true -> pk t cur.
  Proof. intros H. destruct t; cbn [pk]; rewrite H; exact I. Qed.

  Lemma groots_taken t cur : isealed (root_ix t) && cur_le (ilevel (root_ix t)) cur = true ->
    groots t cur = ([t], Some (Z.of_nat (ilevel (root_ix t)))).
  Proof. intros H. destruct t; cbn [groots]; now rewrite H. Qed.

  Lemma pk_list_app a b cur : pk_list (a ++ b) cur <-> pk_list a cur /\ pk_list b (snd (groots_list a cur)).
  Proof.
    revert cur; induction a as [|c a IH]; intros cur; cbn [app].
    - cbn. tauto.
    - rewrite groots_list_cons, !pk_list_cons, IH. cbn [snd]. tauto.
  Qed.

  Lemma pk_solid t : forall cur, solid t -> pk t cur.
  Proof.
    induction t using tree_ind'; intros cur Hs.
    - cbn [pk]. destruct (_ && _); exact I.
    - destruct Hs.
    - destruct (isealed (IBranch x) && cur_le (bi_level x) cur) eqn:E; [now apply pk_taken|].
      rewrite pk_branch by exact E. apply solid_branch in Hs.
      generalize (cur_min cur (Z.of_nat (bi_level x) - 1)). clear E cur.
      induction cs as [|c cs IH]; intros cur; [exact I|].
      inversion H; inversion Hs; subst. split; [auto|]. now apply IH.
    - destruct Hs.
  Qed.

  Lemma pk_list_solid cs : Forall solid cs -> forall cur, pk_list cs cur.
  Proof.
    induction cs as [|c cs IH]; intros Hs cur; [exact I|].
    inversion Hs; subst. split; [now apply pk_solid|]. now apply IH.
  Qed.

  (** Capping the cursor at a level that is not below the tree changes nothing. *)
  Lemma cap_sealed (t : tree) cur c : (Z.of_nat (ilevel (root_ix t)) <= c)%Z ->
    cur_le (ilevel (root_ix t)) (cur_min cur c) = cur_le (ilevel (root_ix t)) cur.
  Proof.
    intros H. unfold cur_le, cur_min. destruct cur as [c0|].
    - destruct (Z.leb_spec (Z.of_nat (ilevel (root_ix t))) c0), (Z.leb_spec (Z.of_nat (ilevel (root_ix t))) (Z.min c0 c)); lia.
    - now apply Z.leb_le.
  Qed.

  Lemma cap_min cur c c' : (c' <= c)%Z -> cur_min (cur_min cur c) c' = cur_min cur c'.
  Proof. intros H. unfold cur_min. destruct cur; f_equal; lia. Qed.

  Lemma pk_cap t cur c : (Z.of_nat (ilevel (root_ix t)) <= c)%Z -> pk t (cur_min cur c) <-> pk t cur.
  Proof.
    intros H. destruct t; cbn [pk]; rewrite cap_sealed by exact H; try rewrite cap_min by lia; reflexivity.
  Qed.

  Lemma groots_cap t cur c : (Z.of_nat (ilevel (root_ix t)) <= c)%Z -> groots t (cur_min cur c) = groots t cur.
  Proof.
    intros H. destruct t; cbn [groots]; rewrite cap_sealed by exact H; rewrite cap_min by lia; reflexivity.
  Qed.

  (** A new branch with [t] in front. *)
  Lemma pk_wrap t x new cur :
    ilevel (root_ix t) < bi_level x -> Forall solid new -> pk t cur -> pk (TBranch x (t :: new)) cur.
  Proof.
    intros Hl Hs H. destruct (isealed (IBranch x) && cur_le (bi_level x) cur) eqn:E; [now apply pk_taken|].
    rewrite pk_branch by exact E. split; [apply pk_cap; [lia|exact H]|]. now apply pk_list_solid.
  Qed.

  (** Cursors below zero: nothing more is taken. *)
  Definition low (cur : option Z) : Prop := match cur with Some c => (c < 0)%Z | None => False end.

  Lemma low_min cur c : low cur -> low (cur_min cur c).
  Proof. destruct cur; cbn; lia. Qed.

  Lemma low_not_taken l cur : low cur -> cur_le l cur = false.
  Proof. destruct cur as [c|]; [|easy]. cbn. intros H. apply Z.leb_gt. lia. Qed.

  Lemma groots_low t : forall cur, low cur -> fst (groots t cur) = [] /\ low (snd (groots t cur)).
  Proof.
    induction t using tree_ind'; intros cur Hc; cbn [groots]; rewrite low_not_taken, andb_false_r by exact Hc;
      cbn [fst snd]; try (split; [easy|now apply low_min]).
    apply (low_min _ (Z.of_nat (ilevel (root_ix (TBranch x cs))) - 1)) in Hc. revert Hc.
    generalize (cur_min cur (Z.of_nat (ilevel (root_ix (TBranch x cs))) - 1)). clear cur.
    intros cur. change (low cur -> fst (groots_list cs cur) = [] /\ low (snd (groots_list cs cur))).
    revert cur. induction cs as [|c cs IH]; intros cur Hc; [auto|].
    inversion H; subst. rewrite groots_list_cons. cbn [fst snd].
    destruct (H2 cur Hc) as [E1 E2]. destruct (IH H3 _ E2) as [E3 E4]. now rewrite E1, E3.
  Qed.

  Lemma groots_list_low cs : forall cur, low cur -> fst (groots_list cs cur) = [] /\ low (snd (groots_list cs cur)).
  Proof.
    induction cs as [|c cs IH]; intros cur Hc; [auto|]. rewrite groots_list_cons. cbn [fst snd].
    destruct (groots_low c cur Hc) as [E1 E2]. destruct (IH _ E2) as [E3 E4]. now rewrite E1, E3.
  Qed.

  (** The roots are a prefix, and the rest holds no purged event. *)
  Lemma groots_prefix t : forall cur, pk t cur ->
    exists rest, content t = flat_map content (fst (groots t cur)) ++ map Some rest
      /\ (rest <> [] -> low (snd (groots t cur))).
  Proof.
    induction t using tree_ind'; intros cur Hp.
    - destruct (isealed (root_ix (TLeaf x vs)) && cur_le (ilevel (root_ix (TLeaf x vs))) cur) eqn:E.
      + rewrite groots_taken by exact E. exists []. cbn [fst flat_map map]. now rewrite !app_nil_r.
      + cbn [groots]. rewrite E. cbn [fst snd flat_map app content]. exists (combine (leaf_keys x) vs). split; [easy|].
        intros _. cbn. destruct cur as [c|]; cbn in *; lia.
    - cbn [pk] in Hp. destruct (_ && _) eqn:E; [|easy].
      rewrite groots_taken by exact E. exists []. cbn [fst flat_map map]. now rewrite !app_nil_r.
    - destruct (isealed (IBranch x) && cur_le (bi_level x) cur) eqn:E.
      { rewrite groots_taken by exact E. exists []. cbn [fst flat_map map]. now rewrite !app_nil_r. }
      rewrite pk_branch in Hp by exact E. rewrite groots_branch by exact E. cbn [content].
      revert Hp. generalize (cur_min cur (Z.of_nat (bi_level x) - 1)). clear E cur.
      induction cs as [|c cs IH]; intros cur Hp.
      { exists []. cbn. easy. }
      inversion H; subst. destruct Hp as [Hp1 Hp2]. rewrite groots_list_cons. cbn [flat_map fst snd].
      destruct (H2 cur Hp1) as (rest1 & E1 & L1). destruct (IH H3 _ Hp2) as (rest2 & E2 & L2).
      destruct rest1 as [|e rest1].
      + exists rest2. rewrite E1, E2, flat_map_app. cbn [map]. now rewrite app_nil_r, app_assoc.
      + specialize (L1 ltac:(discriminate)). pose proof (groots_list_low cs _ L1) as [F1 F2].
        exists ((e :: rest1) ++ rest2). split; [|auto].
        rewrite E1, E2, F1, app_nil_r, map_app. cbn [flat_map]. now rewrite app_nil_l, app_assoc.
    - cbn [pk] in Hp. destruct (_ && _) eqn:E; [|easy].
      rewrite groots_taken by exact E. exists []. cbn [fst flat_map map]. now rewrite !app_nil_r.
  Qed.

  (** Roots are sealed, and of non-increasing levels. *)
  Lemma groots_sealed t : forall cur,
    Forall (fun c => isealed (root_ix c) = true /\ cur_le (ilevel (root_ix c)) cur = true) (fst (groots t cur))
    /\ levels_desc (map root_ix (fst (groots t cur))) = true
    /\ Forall (fun c => (snd (groots t cur) = Some (Z.of_nat (ilevel (root_ix c))) \/
                        exists z, snd (groots t cur) = Some z /\ (z <= Z.of_nat (ilevel (root_ix c)))%Z)) (fst (groots t cur))
    /\ (exists z, snd (groots t cur) = Some z /\ match cur with Some c => (z <= c)%Z | None => True end).
  Proof.
    assert (Htaken : forall t cur, isealed (root_ix t) && cur_le (ilevel (root_ix t)) cur = true ->
      Forall (fun c => isealed (root_ix c) = true /\ cur_le (ilevel (root_ix c)) cur = true) (fst (groots t cur))
      /\ levels_desc (map root_ix (fst (groots t cur))) = true
      /\ Forall (fun c => (snd (groots t cur) = Some (Z.of_nat (ilevel (root_ix c))) \/
                        exists z, snd (groots t cur) = Some z /\ (z <= Z.of_nat (ilevel (root_ix c)))%Z)) (fst (groots t cur))
      /\ (exists z, snd (groots t cur) = Some z /\ match cur with Some c => (z <= c)%Z | None => True end)).
    { intros u cur E. rewrite groots_taken by exact E. apply andb_prop in E as [E1 E2]. cbn [fst snd].
      split; [constructor; auto|]. split; [easy|]. split; [constructor; auto|].
      eexists. split; [reflexivity|]. destruct cur; [|easy]. cbn in E2. lia. }
    assert (Hnone : forall cur (l : nat),
      exists z, cur_min cur (Z.of_nat l - 1) = Some z /\ match cur with Some c => (z <= c)%Z | None => True end).
    { intros cur l. unfold cur_min. eexists. split; [reflexivity|]. destruct cur; lia. }
    induction t using tree_ind'; intros cur.
    1, 2, 4: match goal with |- context [groots ?u ?c] => destruct (isealed (root_ix u) && cur_le (ilevel (root_ix u)) c) eqn:E end; [now apply Htaken|];
      cbn [groots]; rewrite E; cbn [fst snd map]; split; [constructor|]; split; [easy|]; split; [constructor|]; apply Hnone.
    destruct (isealed (IBranch x) && cur_le (bi_level x) cur) eqn:E; [now apply Htaken|].
    rewrite groots_branch by exact E. clear E.
    destruct (Hnone cur (bi_level x)) as (c0 & E0 & L0). rewrite E0.
    enough (G : forall c0, let '(rs, c1) := groots_list cs (Some c0) in
      Forall (fun c => isealed (root_ix c) = true /\ (Z.of_nat (ilevel (root_ix c)) <= c0)%Z) rs
      /\ levels_desc (map root_ix rs) = true
      /\ exists z, c1 = Some z /\ (z <= c0)%Z /\ Forall (fun c => (z <= Z.of_nat (ilevel (root_ix c)))%Z) rs).
    { specialize (G c0). destruct (groots_list cs (Some c0)) as [rs c1]. cbn [fst snd].
      destruct G as (G1 & G2 & z & -> & G3 & G4). split; [|split; [easy|split]].
      - eapply Forall_impl; [|exact G1]. intros c [A1 A2]. split; [easy|]. destruct cur; cbn; [apply Z.leb_le; lia|easy].
      - eapply Forall_impl; [|exact G4]. intros c A. right. eauto.
      - eexists. split; [reflexivity|]. destruct cur; lia. }
    clear cur c0 E0 L0. induction cs as [|c cs IH]; intros c0.
    { cbn. repeat split; auto. exists c0. repeat split; auto; lia. }
    inversion H; subst. rewrite groots_list_cons. specialize (H2 (Some c0)). destruct (groots c (Some c0)) as [r1 c1]. cbn [fst snd] in *.
    destruct H2 as (A1 & A2 & A3 & z & -> & A4). specialize (IH H3 z).
    destruct (groots_list cs (Some z)) as [r2 c2]. cbn [fst snd].
    destruct IH as (B1 & B2 & z2 & -> & B3 & B4).
    assert (A3' : Forall (fun c => (z <= Z.of_nat (ilevel (root_ix c)))%Z) r1).
    { eapply Forall_impl; [|exact A3]. intros a [A|(z' & A & A')]; [injection A as ->; lia|injection A as <-; lia]. }
    split; [|split].
    - apply Forall_app. split; eapply Forall_impl; [|exact A1| |exact B1].
      + intros a [? ?]. split; [easy|]. now apply Z.leb_le.
      + intros a [? ?]. split; [easy|]. lia.
    - rewrite map_app. clear -A2 A3' B1 B2. induction r1 as [|a r1 IH]; [easy|].
      inversion A3'; subst. cbn [map app].
      destruct r1 as [|b r1].
      + cbn [map app]. destruct r2 as [|b r2]; [easy|]. cbn [map levels_desc] in *. inversion B1; subst.
        apply andb_true_intro. split; [|exact B2]. apply Nat.leb_le. lia.
      + cbn [map app levels_desc] in *. apply andb_prop in A2 as [A2 A2']. rewrite A2. cbn [andb]. now apply IH.
    - exists z2. split; [easy|]. split; [lia|]. apply Forall_app. split; [|easy].
      eapply Forall_impl; [|exact A3']. intros; cbn in *; lia.
  Qed.

  (** Roots are subtrees. *)
  Lemma groots_sub (P : tree -> Prop) :
    (forall x cs, P (TBranch x cs) -> Forall P cs) -> forall t cur, P t -> Forall P (fst (groots t cur)).
  Proof.
    intros HP. induction t using tree_ind'; intros cur Ht.
    1, 2, 4: cbn [groots]; destruct (_ && _); repeat constructor; auto.
    destruct (isealed (IBranch x) && cur_le (bi_level x) cur) eqn:E.
    { rewrite groots_taken by exact E. repeat constructor; auto. }
    rewrite groots_branch by exact E. apply HP in Ht.
    generalize (cur_min cur (Z.of_nat (bi_level x) - 1)). clear E cur.
    induction cs as [|c cs IH]; intros cur; [constructor|]. inversion H; inversion Ht; subst.
    rewrite groots_list_cons. cbn [fst]. apply Forall_app. auto.
  Qed.
End Packable.

Section Packable2.
  Context {T : Types}.
  Variable cfg : Setting.

  (** Everything below a sealed node is sealed. *)
  Lemma sealed_psealed t : inv cfg t -> isealed (root_ix t) = true -> psealed t.
  Proof.
    induction t using tree_ind'; intros I Hs; try exact Logic.I; try exact Hs.
    apply invs_branch in I as (I1 & (I2 & _) & I3 & I4 & I5). cbn in Hs. specialize (I2 Hs).
    apply branch_sealed_true in I2 as [I2 _]. rewrite Forall_map in I2. apply psealed_branch.
    rewrite Forall_forall in *. intros c Hc. apply H; auto. now apply I2.
  Qed.

  (** Whether the root is sealed does not matter, as long as the other
      records of sealed branches are right. *)
  Lemma pk_flip x x' cs : inv cfg (TBranch x cs) -> bi_level x' = bi_level x ->
    pk (TBranch x cs) None -> pk (TBranch x' cs) None.
  Proof.
    intros I El P. destruct (bi_sealed x') eqn:E'; [apply pk_taken; cbn; now rewrite E'|].
    rewrite pk_branch by (cbn; now rewrite E'). rewrite El. destruct (bi_sealed x) eqn:E.
    - apply invs_branch in I as (L & (I & _) & _). specialize (I E). apply branch_sealed_true in I as [I _].
      rewrite Forall_map in I. cbn [cur_min]. replace (Z.of_nat (bi_level x) - 1)%Z with (Z.of_nat (bi_level x - 1)) by lia.
      clear P E E' El L. induction I as [|c cs [I1 I2] _ IH]; [exact Logic.I|].
      assert (Hc : isealed (root_ix c) && cur_le (ilevel (root_ix c)) (Some (Z.of_nat (bi_level x - 1))) = true).
      { rewrite I1, I2. cbn. apply Z.leb_refl. }
      rewrite pk_list_cons, groots_taken by exact Hc. split; [now apply pk_taken|]. cbn [snd]. now rewrite I2.
    - now rewrite pk_branch in P by (cbn; now rewrite E).
  Qed.

  (** Packed trees can be packed. *)
  Lemma packed_pk t : forall cur, packed t = true -> psealed t ->
    (isealed (root_ix t) = true -> cur_le (ilevel (root_ix t)) cur = true) ->
    cur_le (ilevel (root_ix t)) cur = true -> inv cfg t -> pk t cur.
  Proof.
    induction t using tree_ind'; intros cur Hp Hs _ Hc I.
    - cbn [pk]. destruct (_ && _); exact Logic.I.
    - apply pk_taken. cbn in *. now rewrite Hs.
    - destruct (isealed (IBranch x) && cur_le (bi_level x) cur) eqn:E; [now apply pk_taken|].
      rewrite pk_branch by exact E. apply invs_branch in I as (I1 & I2 & I3 & I4 & I5).
      cbn [isealed] in E. cbn [root_ix ilevel] in Hc. rewrite Hc, andb_true_r in E.
      apply psealed_branch in Hs.
      assert (Hm : cur_min cur (Z.of_nat (bi_level x) - 1) = Some (Z.of_nat (bi_level x) - 1)%Z).
      { unfold cur_min. destruct cur; [|easy]. cbn in Hc. f_equal. lia. }
      rewrite Hm. assert (Hcs : cs = [] \/ cs <> []) by (destruct cs; [now left|now right]).
      destruct Hcs as [->|Hne]; [exact Logic.I|].
      destruct (exists_last Hne) as (pre & last & ->).
      rewrite packed_branch, E in Hp. cbn [orb] in Hp. apply andb_prop in Hp as [P1 P2].
      apply andb_prop in P2 as [P2 P3]. apply Nat.ltb_lt in P2.
      apply Forall_app in H as [_ H]. apply Forall_inv in H.
      apply Forall_app in Hs as [_ Hs]. apply Forall_inv in Hs.
      apply Forall_app in I5 as [_ I5]. apply Forall_inv in I5.
      apply pk_list_app. 
      assert (G : pk_list pre (Some (Z.of_nat (bi_level x) - 1)%Z)
                  /\ snd (groots_list pre (Some (Z.of_nat (bi_level x) - 1)%Z)) = Some (Z.of_nat (bi_level x) - 1)%Z).
      { clear -P1 P2. induction pre as [|c pre IH]; [easy|]. cbn [forallb] in P1. apply andb_prop in P1 as [P1 P1'].
        apply andb_prop in P1 as [Q1 Q2]. apply Nat.eqb_eq in Q2.
        assert (E : isealed (root_ix c) && cur_le (ilevel (root_ix c)) (Some (Z.of_nat (bi_level x) - 1)%Z) = true).
        { rewrite Q1, Q2. cbn. apply Z.leb_le. lia. }
        specialize (IH P1') as [IH1 IH2]. rewrite pk_list_cons, groots_list_cons, groots_taken by exact E.
        cbn [fst snd]. rewrite Q2. replace (Z.of_nat (bi_level x - 1)) with (Z.of_nat (bi_level x) - 1)%Z by lia.
        split; [split; [now apply pk_taken|exact IH1]|]. exact IH2. }
      destruct G as [G1 G2]. split; [exact G1|]. rewrite G2. split; [|exact Logic.I].
      apply H; auto; intros; cbn; apply Z.leb_le; lia.
    - apply pk_taken. cbn in *. now rewrite Hs.
  Qed.
End Packable2.

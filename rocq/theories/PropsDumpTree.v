(** C91: the printed dump of a tree is its graph. *)
From Coq Require Import List NArith ZArith Lia Bool String Arith.
From Verif Require Import Base BaseProofs Cbor Types Seq SeqProofs Query QuerySpec World Read Write Api History Spec Ghost Frame ReadProofs Packable WriteProofs QueryProofs PackProofs RetainProofs RepairProofs NoPurged ApiProofs SysProofs HistProofs PropsRead DumpTree Instance Example.
From Verif Require PropsBytes.
Import ListNotations.

(** * Specification *)
Section Spec.
  Context {T : Types}.

  (** Node [n] is [d] edges below node 0. *)
  Inductive at_depth (es : list (nat * nat)) : nat -> nat -> Prop :=
  | at_root : at_depth es 0 0
  | at_edge p n d : at_depth es p d -> In (p, n) es -> at_depth es n (S d).

  (** What is to be printed for a node with so many children. *)
  Definition describes (i : Index) (children : nat) (l : node_line) : Prop :=
    match l with
    | LineBranch c k v s lk n =>
        exists x, i = IBranch x /\ bi_link x <> None
          /\ c = bi_count x /\ k = bi_kbytes x /\ v = bi_vbytes x /\ s = bi_sealed x /\ lk = bi_link x /\ n = children
    | LineLeaf c v s lk =>
        exists x, i = ILeaf x /\ li_link x <> None
          /\ c = List.length (leaf_keys x) /\ v = li_vbytes x /\ s = li_sealed x /\ lk = li_link x
    | LinePurgedBranch c k v s =>
        exists x, i = IBranch x /\ bi_link x = None /\ c = bi_count x /\ k = bi_kbytes x /\ v = bi_vbytes x /\ s = bi_sealed x
    | LinePurgedLeaf c v s =>
        exists x, i = ILeaf x /\ li_link x = None /\ c = List.length (leaf_keys x) /\ v = li_vbytes x /\ s = li_sealed x
    end.

  (** The line of a node of a graph: indented by its depth. *)
  Definition line_of (es : list (nat * nat)) (n : nat * Index) (l : line) : Prop :=
    at_depth es (fst n) (indent l) /\ describes (snd n) (List.length (targets es (fst n))) (node l).
End Spec.

Section Props.
  Context {T : Types} {TL : TypesLaws T} {X : Ext} {XL : ExtLaws X}
          {B : Backend T} {BL : BackendLaws T B}.
  Variable cfg : Config.
  Variable sec : Secrets.
  Hypothesis Hcfg : config_ok cfg.
  Notation key := (index_key sec).
  Notation gd := (gdump (fun _ i => i)).

  (** The lines of a tree. *)
  Fixpoint glines (d : nat) (t : tree) : list line :=
    match t with
    | TLeaf x _ | TLeafP x =>
        match li_link x with
        | Some _ => [{| indent := d; node := LineLeaf (List.length (leaf_keys x)) (li_vbytes x) (li_sealed x) (li_link x) |}]
        | None => [{| indent := d; node := LinePurgedLeaf (List.length (leaf_keys x)) (li_vbytes x) (li_sealed x) |}]
        end
    | TBranch x cs =>
        {| indent := d; node := LineBranch (bi_count x) (bi_kbytes x) (bi_vbytes x) (bi_sealed x) (bi_link x) (List.length cs) |}
        :: flat_map (glines (d + 1)) cs
    | TBranchP x =>
        [{| indent := d; node := LinePurgedBranch (bi_count x) (bi_kbytes x) (bi_vbytes x) (bi_sealed x) |}]
    end.

  (** [m] prints a part of [full] from its start, and all of it if it succeeds. *)
  Definition prints (m : world -> list line * res unit * world) (P : Store -> Prop) (full : list line) : Prop :=
    forall w ls r w', wok key w -> m w = (ls, r, w') ->
      rext key w w'
      /\ (exists rest, full = ls ++ rest /\ (r = Ok tt -> rest = []))
      /\ (r = Ok tt \/ exists e, r = Err e)
      /\ (ReliableReads T B -> P (w_store w) -> r = Ok tt).

  Lemma prints_one l P : prints (fun w => ([l], Ok tt, w)) P [l].
  Proof.
    intros w ls r w' _ [= <- <- <-]. split; [apply rext_refl|]. split; [exists []; auto|]. auto.
  Qed.

  Lemma dump0_prints d : forall lim t n, repr sec lim t -> ilevel (root_ix t) < d ->
    prints (dump0 sec d n (root_ix t)) (fun s => avail_branches s t) (glines n t).
  Proof.
    induction d as [|d IH]; intros lim t n R Hd; [lia|].
    destruct t as [x vs|x|x cs|x]; cbn [root_ix dump0 node_info_of glines].
    1, 2: intros w ls r w' W E; cbn [dump0 node_info_of] in E; destruct (li_link x) eqn:El;
      rewrite ?El in E; injection E as <- <- <-;
      (split; [apply rext_refl|split; [exists []; rewrite ?El; split; reflexivity|split; [left; reflexivity|reflexivity]]]).
    - destruct (repr_branch_load _ _ _ _ R) as (l & rg & Hl & Hld & Hch & _ & _ & _ & Hne & Hlv). rewrite Hl.
      intros w ls r w' W E.
      destruct (load_branch_cached sec l w) as [rb w1] eqn:E1.
      pose proof (rf_load_branch_cached sec l _ _ _ E1) as F1.
      destruct (proj1 (Hld (fun s => avail_branches s (TBranch x cs)) (fun s H => H)) _ _ _ W E1) as [H1 H2].
      destruct H1 as [->|[e ->]].
      2: { injection E as <- <- <-. cbn [rmap]. split; [exact F1|].
           split; [exists (glines n (TBranch x cs)); cbn [glines]; rewrite Hl; split; [reflexivity|discriminate]|].
           split; [eauto|]. intros Re A. discriminate (H2 Re A). }
      cbn [br_children] in E. rewrite map_length in E.
      assert (W1 : wok key w1) by (apply (proj1 F1); exact W).
      (* the loop *)
      set (go := fix go (cs : list Index) (w : world) : list line * res unit * world :=
         match cs with
         | [] => ([], Ok tt, w)
         | c :: cs' =>
             match dump0 sec d (n + 1) c w with
             | (ls, Ok _, w) => let '(ls', r, w) := go cs' w in (ls ++ ls', r, w)
             | r => r
             end
         end) in E.
      assert (L : prints (go (map root_ix cs)) (fun s => Forall (avail_branches s) cs) (flat_map (glines (n + 1)) cs)).
      { clear -IH Hch Hlv Hd TL XL BL. cbn [root_ix ilevel] in Hd. induction cs as [|c cs IHcs]; cbn [map go flat_map].
        - intros w ls r w' _ [= <- <- <-]. split; [apply rext_refl|]. split; [exists []; auto|]. auto.
        - apply Forall_inv in Hch as Hc1. apply Forall_inv_tail in Hch.
          apply Forall_inv in Hlv as Hl1. apply Forall_inv_tail in Hlv. specialize (IHcs Hch Hlv).
          intros w ls r w' W E. fold go in E.
          destruct (dump0 sec d (n + 1) (root_ix c) w) as [[ls1 r1] w1] eqn:E1.
          destruct (IH _ c (n + 1) Hc1 ltac:(lia) _ _ _ _ W E1) as (F1 & (rest1 & G1 & G2) & G3 & G4).
          destruct G3 as [->|[e ->]].
          + assert (W1 : wok key w1) by (apply (proj1 F1); exact W).
            destruct (go (map root_ix cs) w1) as [[ls2 r2] w2] eqn:E2. injection E as <- <- <-.
            destruct (IHcs _ _ _ _ W1 E2) as (F2 & (rest2 & J1 & J2) & J3 & J4).
            rewrite (G2 eq_refl), app_nil_r in G1.
            split; [eapply rext_trans; eauto|]. split; [|split; [exact J3|]].
            * exists rest2. rewrite G1, J1, app_assoc. auto.
            * intros Re A. apply J4; [exact Re|]. apply Forall_inv_tail in A.
              eapply Forall_impl; [|exact A]. intros t Ht.
              eapply (stable_avail_branches t); [|exact Ht]. apply (proj1 (proj2 F1)).
          + injection E as <- <- <-. split; [exact F1|]. split; [|split; [eauto|]].
            * exists (rest1 ++ flat_map (glines (n + 1)) cs). rewrite G1, app_assoc. split; [reflexivity|discriminate].
            * intros Re A. apply Forall_inv in A. discriminate (G4 Re A). }
      destruct (go (map root_ix cs) w1) as [[ls2 r2] w2] eqn:E2. injection E as <- <- <-.
      destruct (L _ _ _ _ W1 E2) as (F2 & (rest2 & J1 & J2) & J3 & J4).
      split; [eapply rext_trans; eauto|]. split; [|split; [exact J3|]].
      + exists rest2. rewrite J1, Hl. auto.
      + intros Re A. apply J4; [exact Re|]. apply avail_branches_branch in A as (_ & _ & A).
        eapply Forall_impl; [|exact A]. intros t Ht. eapply (stable_avail_branches t); [|exact Ht]. apply (proj1 (proj2 F1)).
    - cbn in R. rewrite R. apply prints_one.
  Qed.

  Lemma block_children_fun i a b : block_children sec i a -> block_children sec i b -> a = b.
  Proof.
    destruct i as [x|x]; cbn; [congruence|]. destruct (bi_link x); [|congruence].
    intros (b1 & r1 & -> & H1) (b2 & r2 & E & H2). apply digest_inj in E. subst b2.
    eapply PropsBytes.branch_block_cs; eauto.
  Qed.

  Lemma glines_graph E t : forall lim id d p es ns, repr sec lim t -> gd p id t = (es, ns) -> incl es E -> at_depth E id d ->
    Forall2 (fun n l => at_depth E (fst n) (indent l)
                        /\ exists k, block_children sec (snd n) k /\ describes (snd n) (List.length k) (node l)) ns (glines d t).
  Proof.
    induction t using tree_ind'; intros lim id d p es ns R G I D; cbn [gdump root_ix glines] in *.
    1, 2: injection G as <- <-; destruct (li_link x) eqn:El; (constructor; [|constructor]); (split; [exact D|]);
      exists []; (split; [reflexivity|]); cbn; exists x; repeat split; congruence.
    2: { injection G as <- <-. constructor; [|constructor]. split; [exact D|]. cbn in R.
         exists []. split; [cbn; now rewrite R|]. exists x. repeat split; auto. }
    apply repr_branch in R as (_ & _ & _ & _ & blk & r & Hl & Hb & _ & R).
    assert (Hc : block_children sec (IBranch x) (map root_ix cs)) by (cbn; rewrite Hl; eauto).
    assert (F : Forall2 (fun n l => at_depth E (fst n) (indent l)
                        /\ exists k, block_children sec (snd n) k /\ describes (snd n) (List.length k) (node l))
       [(id, IBranch x)]
       [{| indent := d; node := LineBranch (bi_count x) (bi_kbytes x) (bi_vbytes x) (bi_sealed x) (bi_link x) (List.length cs) |}]).
    { constructor; [|constructor]. split; [exact D|]. exists (map root_ix cs). split; [exact Hc|]. cbn.
      exists x. rewrite map_length. repeat split; auto. rewrite Hl. discriminate. }
    clear Hc Hl Hb. revert F G.
    change (?a :: flat_map ?f ?c) with ([a] ++ flat_map f c).
    generalize [{| indent := d; node := LineBranch (bi_count x) (bi_kbytes x) (bi_vbytes x) (bi_sealed x) (bi_link x) (List.length cs) |}] as ls0.
    generalize [(id, IBranch x)] as ns0.
    generalize (match p with Some p0 => [(p0, id)] | None => [] end) as es0. generalize id at 2 as cur.
    induction cs as [|c cs IH]; intros cur es0 ns0 ls0 F G.
    - injection G as <- <-. cbn [flat_map]. now rewrite app_nil_r.
    - apply Forall_inv in H as Hc. apply Forall_inv_tail in H. apply Forall_inv in R as Rc. apply Forall_inv_tail in R.
      destruct (gd (Some id) (cur + 1) c) as [e n] eqn:Ec. cbn [flat_map]. rewrite app_assoc.
      assert (Ie : incl e es).
      { clear -G. revert G. generalize (cur + List.length n) as cur', (ns0 ++ n) as ns1.
        assert (X : forall cs cur' es0 ns1,
          (fix go (cs : list tree) (cur : nat) edges nodes {struct cs} :=
           match cs with
           | [] => (edges, nodes)
           | c :: cs' =>
               let '(e, n) := gd (Some id) (cur + 1) c in
               go cs' (cur + List.length n) (edges ++ e) (nodes ++ n)
           end) cs cur' es0 ns1 = (es, ns) -> incl es0 es).
        { intros cs1. induction cs1 as [|c' cs' IH]; intros cur' es1 ns1 G; [injection G as <- _; apply incl_refl|].
          destruct (gd (Some id) (cur' + 1) c') as [e' n']. apply IH in G. intros z Hz. apply G, in_or_app. now left. }
        intros cur' ns1 G z Hz. eapply X; [exact G|]. apply in_or_app. now right. }
      apply (IH H R (cur + List.length n) (es0 ++ e) (ns0 ++ n) (ls0 ++ glines (d + 1) c)); [|exact G].
      apply Forall2_app; [exact F|].
      eapply (Hc _ (cur + 1) (d + 1) (Some id) e n Rc Ec).
      + intros z Hz. apply I, Ie, Hz.
      + rewrite (Nat.add_1_r d). apply at_edge with (p := id); [exact D|]. apply I, Ie.
        rewrite gdump_parent in Ec. injection Ec as <- _. now left.
  Qed.

  (** The printed lines are those of the nodes of the tree, in the order of
      [dump_graph], each indented by its depth. An error ends the output early,
      and then nothing else is printed. *)
  Theorem C91_dump s t ls r fo' :
    reach anything cfg sec s -> known s t -> dump (sy_fo s) t = (ls, r, fo') ->
    exists es ns rest,
      (forall es' ns' fo'', dump_graph (sy_fo s) t (fun _ i => i) = (Ok (es', ns'), fo'') -> es' = es /\ ns' = ns)
      /\ (forall i sec' o, t = Some (i, sec', o) -> exists is, ns = (0, i) :: is /\ graph_ok sec 0 es ns)
      /\ Forall2 (line_of es) ns (ls ++ rest)
      /\ (r = Ok tt /\ rest = [] \/ exists e, r = Err e).
  Proof.
    intros R K E. destruct (known_good cfg sec Hcfg _ _ _ R K) as [F G]. destruct t as [[[i sec'] o]|].
    2: { injection E as <- <- <-. exists [], [], []. split; [intros es' ns' fo'' H; discriminate H|]. split; [intros i sec' o H; discriminate H|]. split; [constructor|auto]. }
    destruct G as (-> & lim & g & G). pose proof (snap_repr _ _ _ _ _ _ _ _ G) as Rg.
    destruct (gdump_ok _ g _ 0 Rg) as (es & is & E1 & G1).
    assert (Ei : root_ix g = i) by apply G.
    unfold dump in E. destruct (dump0 sec (depth i) 0 i _) as [[ls1 r1] w1] eqn:Ed. injection E as <- <- <-.
    rewrite <- Ei in Ed. destruct (dump0_prints _ lim g 0 Rg (depth_ok (root_ix g)) _ _ _ _ F Ed) as (_ & (rest & P1 & P2) & P3 & _).
    exists es, ((0, root_ix g) :: is), rest. split; [|split; [|split]].
    - intros es' ns' fo'' E2. destruct (dump_graph_snap _ _ _ _ _ _ _ _ _ _ _ _ F G E2) as (_ & [H|[e H]] & _); [|discriminate].
      rewrite E1 in H. injection H as -> ->. auto.
    - intros i0 sec0 o0 [= <- <- <-]. exists is. rewrite Ei. rewrite Ei in G1. auto.
    - rewrite <- P1. assert (Q := glines_graph es g lim 0 0 None es _ Rg E1 (incl_refl _) (at_root _)).
      destruct G1 as (_ & _ & _ & G4).
      assert (Hin : forall n, In n ((0, root_ix g) :: is) -> In n ((0, root_ix g) :: is)) by auto.
      clear P1. revert Q Hin. generalize ((0, root_ix g) :: is) at 1 2 4. intros l Q. induction Q as [|n ln l' ll [A (k & B1 & B2)] _ IH]; intros Hin; constructor.
      + split; [exact A|]. destruct n as [p j]. destruct (G4 p j (Hin _ (or_introl eq_refl))) as (cs & C1 & C2).
        cbn [fst snd] in *. rewrite (block_children_fun _ _ _ B1 C1) in B2. apply Forall2_len in C2. now rewrite C2.
      + apply IH. intros n' Hn. apply Hin. now right.
    - destruct P3 as [->|P3]; [left; auto|auto].
  Qed.

  Theorem C91_dump_total s t (RR : ReliableReads T B) :
    reach no_loss cfg sec s -> known s t -> small_branches (sy_fo s) ->
    exists ls fo', dump (sy_fo s) t = (ls, Ok tt, fo').
  Proof.
    intros R K Hs. destruct (known_good cfg sec Hcfg _ _ _ R K) as [F G]. destruct t as [[[i sec'] o]|]; [|cbn; eauto].
    destruct G as (-> & lim & g & G). pose proof (snap_repr _ _ _ _ _ _ _ _ G) as Rg.
    assert (A : avail (fo_store (sy_fo s)) g) by (eapply snap_avail; [exact G|easy|now apply small_fits]).
    assert (Ei : root_ix g = i) by apply G.
    unfold dump. destruct (dump0 sec (depth i) 0 i _) as [[ls1 r1] w1] eqn:Ed.
    rewrite <- Ei in Ed. destruct (dump0_prints _ lim g 0 Rg (depth_ok (root_ix g)) _ _ _ _ F Ed) as (_ & _ & _ & P4).
    rewrite P4; [eauto|exact RR|]. now apply avail_avail_branches.
  Qed.
End Props.

(** The snapshot of [st3] has thirteen nodes. *)
Example C91_case :
  reach no_loss ecfg esec st3 /\ known st3 (snapshot (sy_b st3))
  /\ map indent (fst (fst (dump (sy_fo st3) (snapshot (sy_b st3))))) = [0; 1; 2; 3; 4; 4; 3; 4; 2; 3; 3; 1; 2].
Proof. split; [exact st3_ok|]. split; [now left|]. vm_compute. reflexivity. Qed.

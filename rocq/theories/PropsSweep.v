(** What retain and repair cost: C99. *)
From Coq Require Import List NArith ZArith Lia Bool String Arith.
From Verif Require Import Base BaseProofs Cbor Types Seq SeqProofs Query World Read Write Api Iter History Spec Ghost Frame ReadProofs Packable WriteProofs QueryProofs PackProofs RetainProofs NoPurged ApiProofs SysProofs HistProofs Instance Example PropsWrite PropsRead PropsReuse PropsCost PropsHeight PropsCheck.
Import ListNotations.

(** ** Specification *)
Section Spec.
  Context {T : Types} {X : Ext} {B : Backend T}.

  Definition is_branch (i : Index) : bool := match i with IBranch _ => true | ILeaf _ => false end.
  Definition branches_in (is : list Index) : nat := List.length (filter is_branch is).

  (** [nds] are the nodes of the tree [t], as listed by [dump_graph] on some
      forest, for example on the forest from before blocks were lost. *)
  Definition has_nodes (sec : Secrets) (t : Tree) (nds : list Index) : Prop :=
    exists fo es ns fo', faithful sec fo /\ dump_graph fo t (fun _ i => i) = (Ok (es, ns), fo') /\ nds = map snd ns.

  (** What was handed to the store between [fo] and [fo']: at most [n] blocks, all
      of them branches. *)
  Definition wrote_branches (fo fo' : Forest) (n : nat) : Prop :=
    exists new, fo_log fo' = fo_log fo ++ new /\ List.length new <= n /\ forall e, In e new -> ev_leaf e = false.

  (** [seen] counts the blocks the store was asked for, or fewer; handing over a
      block does not count. *)
  Definition gets_only (seen : Store -> nat) : Prop :=
    (forall s l, seen (snd (sget s l)) <= S (seen s)) /\ (forall s d, seen (snd (sput s d)) <= seen s).
End Spec.

(** ** Gauges *)
Section Gauge.
  Context {T : Types} {TL : TypesLaws T} {X : Ext} {XL : ExtLaws X}
          {B : Backend T} {BL : BackendLaws T B}.
  Variable cfg : Config.
  Variable sec : Secrets.
  Notation key := (index_key sec).
  Variable g : world -> nat.
  Variable cl cp : nat.

  (** [g] grows by at most [n]. *)
  Definition grows {A} (m : M A) (n : nat) : Prop :=
    forall w r w', wok key w -> m w = (r, w') -> g w' <= g w + n.

  Hypothesis Hleaf : forall l, grows (load_leaf_from_link sec l) cl.
  Hypothesis Hbranch : forall l, grows (load_branch_from_link sec l) cl.
  Hypothesis Hpersist : forall items, grows (persist_branch cfg sec items) cp.

  Lemma grows_ret {A} (a : A) n : grows (ret a) n.
  Proof. intros w r w' _ [= <- <-]. lia. Qed.
  Lemma grows_more {A} (m : M A) n n' : grows m n -> n <= n' -> grows m n'.
  Proof. intros H Hn w r w' W E. specialize (H _ _ _ W E). lia. Qed.
  Lemma grows_bind {A C} (m : M A) (f : A -> M C) n n' :
    frame (wext key) m -> grows m n -> (forall a, grows (f a) n') -> grows (mbind m f) (n + n').
  Proof.
    intros Fm Hm Hf w r w' W E. unfold mbind in E. destruct (m w) as [ra w1] eqn:Em.
    pose proof (wext_ok _ _ _ (Fm _ _ _ Em) W) as W1. specialize (Hm _ _ _ W Em).
    destruct ra; try (injection E as <- <-; lia). specialize (Hf _ _ _ _ W1 E). lia.
  Qed.
  Lemma grows_rd {A C} (m : M A) (f : A -> M C) P a n n' :
    frame (rext key) m -> rd sec m P a -> grows m n -> grows (f a) n' -> grows (mbind m f) (n + n').
  Proof.
    intros Fm Hr Hm Hf w r w' W E. unfold mbind in E. destruct (m w) as [ra w1] eqn:Em.
    pose proof (Fm _ _ _ Em) as (F1 & _). specialize (Hm _ _ _ W Em). destruct (Hr _ _ _ W Em) as [[->|[e ->]] _].
    - specialize (Hf _ _ _ (proj1 F1 W) E). lia.
    - injection E as <- <-. lia.
  Qed.

  (** How many branches a tree has. *)
  Fixpoint gbranches (t : tree) : nat :=
    match t with
    | TBranch _ cs => S ((fix go (l : list tree) : nat := match l with [] => 0 | c :: l' => gbranches c + go l' end) cs)
    | TBranchP _ => 1
    | _ => 0
    end.
  Definition gbranches_all (cs : list tree) : nat := sum_nat (map gbranches cs).
  Lemma gbranches_branch x cs : gbranches (TBranch x cs) = S (gbranches_all cs).
  Proof. cbn [gbranches]. f_equal. induction cs as [|c cs IH]; [easy|]. rewrite IH. easy. Qed.

  Lemma grows_retain0 q d : forall lim t off cur, repr sec lim t -> ilevel (root_ix t) < d ->
    grows (retain0 cfg sec q d off (root_ix t) cur) ((cl + cp) * gbranches t).
  Proof.
    induction d as [|d IH]; intros lim t off cur R Hd; [lia|].
    destruct t as [x vs|x|x cs|x]; cbn [root_ix retain0].
    - apply grows_ret.
    - apply grows_ret.
    - destruct (repr_branch_load sec _ _ _ R) as (l & r & Hl & Hld & Hch & _ & _ & _ & _ & Hlv). rewrite Hl.
      destruct (_ && cur_le _ _); cbn [bi_link branch_set_link]; [apply grows_ret|]. rewrite Hl.
      rewrite gbranches_branch.
      replace ((cl + cp) * S (gbranches_all cs)) with (cl + ((cl + cp) * gbranches_all cs + (cp + 0))) by lia.
      eapply grows_rd; [apply rf_load_branch_from_link|apply (Hld (fun s => avail_branches s (TBranch x cs))); auto|apply Hbranch|].
      cbn [br_children]. clear R Hld Hl. cbn [root_ix ilevel] in Hd.
      assert (Fg : forall cs off cur, frame (wext key) ((fix go (cs : list Index) (offset : nat) (cur : option Z)
                      : M (list Index * bool * option Z) :=
                      match cs with
                      | [] => ret ([], false, cur)
                      | c :: cs' =>
                          mbind (retain0 cfg sec q d offset c cur) (fun '(c1, cur1) =>
                          let changed1 := negb (link_eqb (ilink c1) (ilink c)) in
                          let c' := if changed1 then c1 else c in
                          mbind (go cs' (offset + icount c) cur1) (fun '(cs1, changed2, cur2) =>
                          ret (c' :: cs1, changed1 || changed2, cur2)))
                      end) cs off cur)).
      { clear - TL XL BL. induction cs as [|c cs IHc]; intros off cur; [apply wf_ret|].
        apply wf_bind; [apply wf_retain0|]. intros []. apply wf_bind; [apply IHc|]. intros [[]]. apply wf_ret. }
      apply grows_bind.
      + apply Fg.
      + generalize (retain_cursor (IBranch x) cur). generalize off. clear cur off. induction cs as [|c cs IHcs]; intros off cur; [apply grows_ret|].
        inversion Hch; subst. inversion Hlv; subst. cbn [map].
        replace ((cl + cp) * gbranches_all (c :: cs)) with ((cl + cp) * gbranches c + ((cl + cp) * gbranches_all cs + 0))
          by (change (gbranches_all (c :: cs)) with (gbranches c + gbranches_all cs); lia).
        apply grows_bind; [apply wf_retain0|eapply IH; eauto; lia|]. intros [c1 cur1].
        apply grows_bind; [apply Fg|now apply IHcs|]. intros [[cs1 ch2] cur2]. apply grows_ret.
      + intros [[cs1 ch] cur1]. destruct ch; [|apply grows_ret].
        apply grows_bind; [apply wf_persist_branch|apply Hpersist|]. intros []. apply grows_ret.
    - cbn in R. rewrite R. cbn [andb]. rewrite R. apply grows_ret.
  Qed.

  Lemma grows_try {A} (m : M A) n : grows m n -> grows (try m) n.
  Proof. intros H w r w' W E. unfold try in E. destruct (m w) as [ra w1] eqn:Em. specialize (H _ _ _ W Em). destruct ra; injection E as <- <-; exact H. Qed.

  Lemma grows_repair0 d : forall lim t cur, repr sec lim t -> ilevel (root_ix t) < d ->
    grows (repair0 cfg sec d (root_ix t) cur) (cl * nodes t + cp * gbranches t).
  Proof.
    induction d as [|d IH]; intros lim t cur R Hd; [lia|].
    destruct t as [x vs|x|x cs|x]; cbn [root_ix repair0].
    - change (nodes (TLeaf x vs)) with 1. apply (grows_more _ ((cl + 0) + 0)); [|lia].
      apply grows_bind; [apply frame_try; intros w r w' E; apply rext_wext, (rf_load_leaf sec x _ _ _ E)|apply grows_try|].
      + unfold load_leaf. destruct (li_link x); [|apply grows_ret]. apply grows_bind; [|apply Hleaf|intros; apply grows_ret].
        intros w r w' E. apply rext_wext, (rf_load_leaf_from_link sec l _ _ _ E).
      + intros [a|e]; apply grows_ret.
    - cbn in R. unfold load_leaf. rewrite R. intros w r w' _ E. injection E as <- <-. lia.
    - destruct (repr_branch_load sec _ _ _ R) as (l & r & Hl & Hld & Hch & _ & _ & _ & _ & Hlv).
      unfold load_branch. rewrite Hl. rewrite gbranches_branch, nodes_branch.
      replace (cl * S (nodes_all cs) + cp * S (gbranches_all cs)) with (cl + ((cl * nodes_all cs + cp * gbranches_all cs) + (cp + 0))) by lia.
      destruct (Hld (fun s => avail_branches s (TBranch x cs)) (fun _ h => h)) as [_ H1].
      intros w rr w' W E. unfold mbind at 1 in E. unfold try in E. unfold mbind at 1 in E.
      destruct (load_branch_from_link sec l w) as [ra w1] eqn:Em.
      pose proof (Hbranch l _ _ _ W Em) as G1. pose proof (rf_load_branch_from_link sec l _ _ _ Em) as (F1 & _).
      destruct (H1 _ _ _ W Em) as [[->|[e ->]] _]; [|injection E as <- <-; lia].
      assert (W1 : wok key w1) by now apply F1. cbn [ret br_children] in E.
      clear R Hld Hl H1 W Em F1. cbn [root_ix ilevel] in Hd.
      assert (Fg : forall cs cur, frame (wext key) ((fix go (cs : list Index) (cur : option Z)
                      : M (list Index * bool * list report * option Z) :=
                      match cs with
                      | [] => ret ([], false, [], cur)
                      | c :: cs' =>
                          mbind (repair0 cfg sec d c cur) (fun '(c1, rep1, cur1) =>
                          let changed1 := negb (link_eqb (ilink c1) (ilink c)) in
                          let c' := if changed1 then c1 else c in
                          mbind (go cs' cur1) (fun '(cs1, changed2, rep2, cur2) =>
                          ret (c' :: cs1, changed1 || changed2, rep1 ++ rep2, cur2)))
                      end) cs cur)).
      { clear - TL XL BL. induction cs as [|c cs IHc]; intros cur; [apply wf_ret|].
        apply wf_bind; [apply wf_repair0|]. intros [[]]. apply wf_bind; [apply IHc|]. intros [[[]]]. apply wf_ret. }
      enough (H : g w' <= g w1 + (cl * nodes_all cs + cp * gbranches_all cs + (cp + 0))) by lia.
      revert W1 E. revert rr w'. generalize w1. clear w1 G1.
      enough (H : grows (mbind ((fix go (cs : list Index) (cur : option Z)
                      : M (list Index * bool * list report * option Z) :=
                      match cs with
                      | [] => ret ([], false, [], cur)
                      | c :: cs' =>
                          mbind (repair0 cfg sec d c cur) (fun '(c1, rep1, cur1) =>
                          let changed1 := negb (link_eqb (ilink c1) (ilink c)) in
                          let c' := if changed1 then c1 else c in
                          mbind (go cs' cur1) (fun '(cs1, changed2, rep2, cur2) =>
                          ret (c' :: cs1, changed1 || changed2, rep1 ++ rep2, cur2)))
                      end) (map root_ix cs) (repair_cursor (IBranch x) cur))
                (fun '(children, changed, rep, cur) =>
                if changed then
                  mbind (persist_branch cfg sec children) (fun '(link, _) =>
                  ret (IBranch (branch_set_link x (Some link)), rep, cur))
                else ret (IBranch x, rep, cur))) (cl * nodes_all cs + cp * gbranches_all cs + (cp + 0))).
      { intros w1 rr w' W1 E. exact (H _ _ _ W1 E). }
      apply grows_bind.
      + apply Fg.
      + generalize (repair_cursor (IBranch x) cur). clear cur. induction cs as [|c cs IHcs]; intros cur; [apply grows_ret|].
        inversion Hch; subst. inversion Hlv; subst. cbn [map].
        replace (cl * nodes_all (c :: cs) + cp * gbranches_all (c :: cs)) with ((cl * nodes c + cp * gbranches c) + ((cl * nodes_all cs + cp * gbranches_all cs) + 0))
          by (change (gbranches_all (c :: cs)) with (gbranches c + gbranches_all cs); change (nodes_all (c :: cs)) with (nodes c + nodes_all cs); lia).
        apply grows_bind; [apply wf_repair0|eapply IH; eauto; lia|]. intros [[c1 rep1] cur1].
        apply grows_bind; [apply Fg|now apply IHcs|]. intros [[[cs1 ch2] rep2] cur2]. apply grows_ret.
      + intros [[[cs1 ch] rep] cur1]. destruct ch; [|apply grows_ret].
        apply grows_bind; [apply wf_persist_branch|apply Hpersist|]. intros []. apply grows_ret.
    - cbn in R. unfold load_branch. rewrite R. intros w r w' _ E. injection E as <- <-. lia.
  Qed.
End Gauge.

Section Sweep.
  Context {T : Types} {TL : TypesLaws T} {X : Ext} {XL : ExtLaws X}
          {B : Backend T} {BL : BackendLaws T B}.
  Variable cfg : Config.
  Variable sec : Secrets.
  Hypothesis Hcfg : config_ok cfg.
  Notation key := (index_key sec).

  (** ** The nodes *)
  Lemma gdump_indexes t : forall p id, let ns := map snd (snd (gdump (fun _ i => i) p id t)) in
    List.length ns = nodes t /\ branches_in ns = gbranches t.
  Proof.
    induction t as [x vs|x|x cs IH|x] using tree_ind'; intros p id; try easy. rewrite nodes_branch, gbranches_branch. cbn [gdump].
    assert (G : forall cur edges nds, let ns := map snd (snd (
        (fix go (cs : list tree) (cur : nat) edges nodes :=
           match cs with
           | [] => (edges, nodes)
           | c :: cs' =>
               let '(e, n) := gdump (fun _ i => i) (Some id) (cur + 1) c in
               go cs' (cur + List.length n) (edges ++ e) (nodes ++ n)
           end) cs cur edges nds)) in
        List.length ns = List.length nds + nodes_all cs /\ branches_in ns = branches_in (map snd nds) + gbranches_all cs).
    { induction IH as [|c cs Hc _ IHcs]; intros cur edges nds; [cbn [snd]; rewrite map_length; cbn; lia|].
      specialize (Hc (Some id) (cur + 1)). destruct (gdump (fun _ i => i) (Some id) (cur + 1) c) as [e n]. cbn [snd] in Hc.
      cbv zeta in *. destruct (IHcs (cur + List.length n) (edges ++ e) (nds ++ n)) as [-> ->]. destruct Hc as [Ha Hb].
      change (nodes_all (c :: cs)) with (nodes c + nodes_all cs). change (gbranches_all (c :: cs)) with (gbranches c + gbranches_all cs).
      rewrite <- Ha, <- Hb. unfold branches_in. rewrite map_app, filter_app, !app_length, map_length. lia. }
    cbv zeta in *. match goal with |- context[_ cs ?a ?b ?c] => destruct (G a b c) as [-> ->] end. cbn. lia.
  Qed.

  Lemma has_nodes_repr t lim g o nds : t = Some (root_ix g, sec, o) -> repr sec lim g -> has_nodes sec t nds ->
    List.length nds = nodes g /\ branches_in nds = gbranches g.
  Proof.
    intros -> R (fo & es & ns & fo' & F & E & ->). unfold dump_graph, read in E.
    destruct (dump_graph0 _ _ _ _ _ _ _) as [r w'] eqn:Em in E. injection E as -> _.
    destruct (dump_graph0_rd sec (fun _ i => i) lim (depth (root_ix g)) g None 0 R ltac:(unfold depth; lia) _ _ _ (faithful_wok _ _ F) Em) as [[H|[e H]] _]; [|discriminate].
    injection H as H. assert (Hn : ns = snd (gdump (fun _ i => i) None 0 g)) by (now rewrite <- H). rewrite Hn. apply gdump_indexes.
  Qed.

  (** ** The gauges *)
  Lemma frame_log {A} (m : M A) n w r w' : frame (rext key) m -> m w = (r, w') -> List.length (w_log w') <= List.length (w_log w) + n.
  Proof. intros Fm E. apply Fm in E as (_ & _ & _ & ->). lia. Qed.

  Lemma persist_log items w r w' : persist_branch cfg sec items w = (r, w') ->
    w_log w' = w_log w \/ exists e, ev_leaf e = false /\ w_log w' = w_log w ++ [e].
  Proof.
    intros E. unfold persist_branch, mbind at 1, lift in E. destruct (from_iter_ipld items (zstd_level cfg)) as [z| | |]; try (injection E as _ <-; now left).
    unfold mbind at 1 in E. unfold encrypt_block in E. destruct (reserve _ _) as [[o o']| | |]; try (injection E as _ <-; now left).
    destruct (cbor_bytes _) as [blk| | |]; cbn [rmap rbind] in E; try (injection E as _ <-; now left).
    unfold mbind, put_block in E. cbn [w_store add_event set_off ev_block] in E. right.
    destruct (sput (w_store w) blk) as [[l|] st]; injection E as _ <-; eexists; (split; [|reflexivity]); reflexivity.
  Qed.

  Definition logged (w : world) : nat := List.length (w_log w).
  Definition leaves_logged (w : world) : nat := List.length (filter ev_leaf (w_log w)).

  Lemma grows_read {A} (m : M A) (g : world -> nat) n : (forall w w', w_log w' = w_log w -> g w' = g w) ->
    frame (rext key) m -> grows sec g m n.
  Proof. intros Hg Fm w r w' _ E. apply Fm in E as (_ & _ & _ & E). rewrite (Hg _ _ E). lia. Qed.

  Lemma grows_persist_log items : grows sec logged (persist_branch cfg sec items) 1.
  Proof.
    intros w r w' _ E. unfold logged. apply persist_log in E as [->|(e & _ & ->)]; [lia|]. rewrite app_length. cbn. lia.
  Qed.
  Lemma grows_persist_leaves items : grows sec leaves_logged (persist_branch cfg sec items) 0.
  Proof.
    intros w r w' _ E. unfold leaves_logged. apply persist_log in E as [->|(e & He & ->)]; [lia|].
    rewrite filter_app, app_length. cbn. rewrite He. cbn. lia.
  Qed.

  Lemma grows_persist_seen seen items : gets_only seen -> grows sec (fun w => seen (w_store w)) (persist_branch cfg sec items) 0.
  Proof.
    intros [_ Hs] w r w' _ E. unfold persist_branch, mbind at 1, lift in E. destruct (from_iter_ipld items (zstd_level cfg)) as [z| | |]; try (injection E as _ <-; lia).
    unfold mbind at 1 in E. unfold encrypt_block in E. destruct (reserve _ _) as [[o o']| | |]; try (injection E as _ <-; lia).
    destruct (cbor_bytes _) as [blk| | |]; cbn [rmap rbind] in E; try (injection E as _ <-; cbn; lia).
    unfold mbind, put_block in E. cbn [w_store add_event set_off ev_block] in E.
    specialize (Hs (w_store w) blk). destruct (sput (w_store w) blk) as [[l|] st]; injection E as _ <-; cbn in *; lia.
  Qed.

  Lemma wrote_from fo fo' off off' n : wext key (wof fo off) (wof fo' off') ->
    logged (wof fo' off') <= logged (wof fo off) + n -> leaves_logged (wof fo' off') <= leaves_logged (wof fo off) + 0 ->
    wrote_branches fo fo' n.
  Proof.
    intros (_ & _ & new & E & _) H1 H2. unfold logged, leaves_logged in *. cbn in *. exists new. rewrite E in *.
    rewrite filter_app, !app_length in *. split; [easy|]. split; [lia|]. intros e He.
    destruct (ev_leaf e) eqn:El; [|easy]. assert (H : In e (filter ev_leaf new)) by now apply filter_In.
    destruct (filter ev_leaf new); [easy|]. cbn in H2. lia.
  Qed.

  Lemma swept s nds : reach anything cfg sec s -> has_nodes sec (snapshot (sy_b s)) nds ->
    exists g lim, b_root (sy_b s) = Some (root_ix g) /\ repr sec lim g /\ wok key (wof (sy_fo s) (b_off (sy_b s)))
      /\ b_sec (sy_b s) = sec /\ b_cfg (sy_b s) = cfg
      /\ List.length nds = nodes g /\ branches_in nds = gbranches g.
  Proof.
    intros R N. destruct (known_good cfg sec Hcfg _ _ _ R (or_introl eq_refl)) as (F & G). unfold snapshot in *.
    destruct (b_root (sy_b s)) as [i|] eqn:Er; [|now destruct N as (? & ? & ? & ? & _ & N & _)].
    destruct G as (Es & lim & g & G). pose proof (snap_repr _ _ _ _ _ _ _ _ G) as Rg. destruct G as (Ei & _).
    exists g, lim. rewrite Ei in *. subst i. splits; auto.
    - apply (reach_ok cfg sec Hcfg) in R. now apply (sys_b_eqs cfg sec anything) in R as [_ Ec].
    - rewrite Es in N. now destruct (has_nodes_repr _ lim g _ nds eq_refl Rg N).
    - rewrite Es in N. now destruct (has_nodes_repr _ lim g _ nds eq_refl Rg N).
  Qed.

  (** ** Theorems *)

  (** [retain] hands at most one block for each branch of the tree to the store,
      and no leaf, and asks for at most one block for each branch. *)
  Theorem C99_retain s nds q r fo' b' :
    reach anything cfg sec s -> has_nodes sec (snapshot (sy_b s)) nds ->
    retain (sy_fo s) (sy_b s) q = (r, fo', b') ->
    wrote_branches (sy_fo s) fo' (branches_in nds)
    /\ forall seen, gets_only seen -> asked seen (sy_fo s) fo' (branches_in nds).
  Proof.
    intros R N E. destruct (swept s nds R N) as (g & lim & Er & Rg & W & Es & Ec & Hn & ->). unfold retain in E. rewrite Er, Es, Ec in E.
    destruct (run _ _ _) as [[r0 fo1] b1] eqn:Erun. assert (fo1 = fo') as -> by (destruct r0 as [[]| | |]; now injection E).
    apply run_inv in Erun as (Em & _). assert (Hd : ilevel (root_ix g) < depth (root_ix g)) by (unfold depth; lia). split.
    - eapply wrote_from; [exact (wf_retain0 sec cfg _ _ _ _ _ _ _ _ Em)| |].
      + replace (gbranches g) with ((0 + 1) * gbranches g) by lia.
        eapply (grows_retain0 cfg sec logged 0 1); [..|exact Rg|exact Hd|exact W|exact Em];
          intros; (apply grows_persist_log || (apply grows_read; [now unfold logged; intros ? ? ->|])); apply rf_load_branch_from_link.
      + replace 0 with ((0 + 0) * gbranches g) by lia.
        eapply (grows_retain0 cfg sec leaves_logged 0 0); [..|exact Rg|exact Hd|exact W|exact Em];
          intros; (apply grows_persist_leaves || (apply grows_read; [now unfold leaves_logged; intros ? ? ->|])); apply rf_load_branch_from_link.
    - intros seen Hs. set (ga := fun w : world => seen (w_store w)).
      change (ga (wof fo' (b_off b1)) <= ga (wof (sy_fo s) (b_off (sy_b s))) + gbranches g).
      replace (gbranches g) with ((1 + 0) * gbranches g) by lia.
      eapply (grows_retain0 cfg sec ga 1 0); [..|exact Rg|exact Hd|exact W|exact Em].
      + intros l. exact (within_load_branch sec seen (proj1 Hs) l).
      + intros items. now apply grows_persist_seen.
  Qed.

  (** [repair] hands at most one block for each branch of the tree to the store,
      and no leaf, and asks for at most one block for each node. *)
  Theorem C99_repair s nds r fo' b' :
    reach anything cfg sec s -> has_nodes sec (snapshot (sy_b s)) nds ->
    repair (sy_fo s) (sy_b s) = (r, fo', b') ->
    wrote_branches (sy_fo s) fo' (branches_in nds)
    /\ forall seen, gets_only seen -> asked seen (sy_fo s) fo' (List.length nds).
  Proof.
    intros R N E. destruct (swept s nds R N) as (g & lim & Er & Rg & W & Es & Ec & -> & ->). unfold repair in E. rewrite Er, Es, Ec in E.
    destruct (run _ _ _) as [[r0 fo1] b1] eqn:Erun. assert (fo1 = fo') as -> by (destruct r0 as [[[]]| | |]; now injection E).
    apply run_inv in Erun as (Em & _). assert (Hd : ilevel (root_ix g) < depth (root_ix g)) by (unfold depth; lia). split.
    - eapply wrote_from; [exact (wf_repair0 sec cfg _ _ _ _ _ _ Em)| |].
      + replace (gbranches g) with (0 * nodes g + 1 * gbranches g) by lia.
        eapply (grows_repair0 cfg sec logged 0 1); [..|exact Rg|exact Hd|exact W|exact Em];
          intros; (apply grows_persist_log || (apply grows_read; [now unfold logged; intros ? ? ->|])); (apply rf_load_branch_from_link || apply rf_load_leaf_from_link).
      + replace 0 with (0 * nodes g + 0 * gbranches g) by lia.
        eapply (grows_repair0 cfg sec leaves_logged 0 0); [..|exact Rg|exact Hd|exact W|exact Em];
          intros; (apply grows_persist_leaves || (apply grows_read; [now unfold leaves_logged; intros ? ? ->|])); (apply rf_load_branch_from_link || apply rf_load_leaf_from_link).
    - intros seen Hs. set (ga := fun w : world => seen (w_store w)).
      change (ga (wof fo' (b_off b1)) <= ga (wof (sy_fo s) (b_off (sy_b s))) + nodes g).
      replace (nodes g) with (1 * nodes g + 0 * gbranches g) by lia.
      eapply (grows_repair0 cfg sec ga 1 0); [..|exact Rg|exact Hd|exact W|exact Em].
      + intros l. exact (within_load_leaf sec seen (proj1 Hs) l).
      + intros l. exact (within_load_branch sec seen (proj1 Hs) l).
      + intros items. now apply grows_persist_seen.
  Qed.

  (** A tree of a history that loses no block has such nodes, also after blocks
      were lost later, as long as it is the builder's tree. *)
  Lemma reach_faithful s : reach anything cfg sec s -> faithful sec (sy_fo s).
  Proof. intros R. destruct (known_good cfg sec Hcfg _ _ _ R (or_introl eq_refl)) as (F & _). exact F. Qed.

  Theorem C99_nodes s (RR : ReliableReads T B) :
    reach no_loss cfg sec s -> small_branches (sy_fo s) -> b_root (sy_b s) <> None ->
    exists nds, has_nodes sec (snapshot (sy_b s)) nds.
  Proof.
    intros R Hs Hr.
    destruct (C53_dump_graph_total cfg sec Hcfg s (snapshot (sy_b s)) (fun _ i => i) RR R (or_introl eq_refl) Hs) as ([es ns] & fo' & E).
    { unfold snapshot. now destruct (b_root (sy_b s)). }
    exists (map snd ns), (sy_fo s), es, ns, fo'. split; [|auto]. destruct (known_good cfg sec Hcfg _ _ _ R (or_introl eq_refl)) as (F & _). exact F.
  Qed.
End Sweep.

(** * A concrete case *)
Section Case.
  Local Existing Instance CBackend.
  Local Existing Instance CBackendLaws.

  Definition nodes_of (r : res (list (nat * nat) * list (nat * Index)) * @Forest ITypes CBackend) : list Index :=
    match fst r with Ok (_, ns) => map snd ns | _ => [] end.
  Lemma nodes_of_has (s : @sys ITypes CBackend) : reach anything ecfg esec s -> config_ok ecfg ->
    nodes_of (dump_graph (sy_fo s) (snapshot (sy_b s)) (fun _ i => i)) <> [] ->
    has_nodes esec (snapshot (sy_b s)) (nodes_of (dump_graph (sy_fo s) (snapshot (sy_b s)) (fun _ i => i))).
  Proof.
    intros R C H. destruct (dump_graph _ _ _) as [[[es ns]|e|p|] fo'] eqn:E; try easy.
    exists (sy_fo s), es, ns, fo'. split; [|auto]. exact (reach_faithful ecfg esec C s R).
  Qed.

  (** The store keeps the last [n] blocks it was given. *)
  Definition lossy (n : nat) (s : @sys ITypes CBackend) : @op ITypes CBackend :=
    OLose ((fst (fo_store (sy_fo s)), (fst (snd (fo_store (sy_fo s))), firstn n (snd (snd (fo_store (sy_fo s)))))) : @Store ITypes CBackend).
  Definition c2 (n : nat) : @sys ITypes CBackend := snd (exec (lossy n c1) c1).

  (** Nodes and branches; then blocks handed over and requests, for [retain] and for [repair] after a loss. *)
  Definition swept_by {A} (s : @sys ITypes CBackend) (r : res A * @Forest ITypes CBackend * @Builder ITypes) : bool * nat * nat :=
    (match fst (fst r) with Ok _ => true | _ => false end,
     List.length (fo_log (snd (fst r))) - List.length (fo_log (sy_fo s)),
     fst (fo_store (snd (fst r))) - fst (fo_store (sy_fo s))).

  Lemma exists_firstn {A} (f : A -> bool) n : forall l, existsb f (firstn n l) = true -> existsb f l = true.
  Proof.
    induction n as [|n IH]; intros [|b l] H; try easy. cbn in *. apply orb_true_iff in H as [->|H]; [easy|].
    rewrite (IH _ H). apply orb_true_r.
  Qed.

  Lemma lossy_reach n s : reach anything ecfg esec s ->
    reach anything ecfg esec (snd (exec (lossy n s) s)) /\ snapshot (sy_b (snd (exec (lossy n s) s))) = snapshot (sy_b s).
  Proof.
    intros (s0 & H0 & H1). split; [|reflexivity]. exists s0. split; [exact H0|].
    apply (hist_step _ _ s (lossy n s) (fst (exec (lossy n s) s))); [exact H1| |exact Logic.eq_refl|apply surjective_pairing].
    intros l d. cbn. destruct (existsb (bytes_eqb l) (firstn n (snd (snd (fo_store (sy_fo s)))))) eqn:E; [|discriminate].
    now rewrite (exists_firstn _ _ _ E).
  Qed.
  Example C99_case_reach n : reach anything ecfg esec (c2 n) /\ snapshot (sy_b (c2 n)) = snapshot (sy_b c1).
  Proof. exact (lossy_reach n c1 (reach_anything ecfg esec _ _ C67_case_reach)). Qed.

  (** The tree has twelve nodes, six of them branches. Asked to keep one entry,
      [retain] rewrites five branches. After the two oldest blocks were lost [repair]
      asks for all twelve nodes and rewrites three branches. *)
  Definition nds1 : list Index := nodes_of (dump_graph (sy_fo c1) (snapshot (sy_b c1)) (fun _ i => i)).
  Lemma nds1_counts : (List.length nds1, branches_in nds1) = (12, 6).
  Proof. vm_compute. reflexivity. Qed.
  Lemma nds1_has : has_nodes esec (snapshot (sy_b c1)) nds1.
  Proof.
    apply (nodes_of_has c1); [exact (reach_anything ecfg esec _ _ C67_case_reach)|exact ecfg_ok|].
    change (nds1 <> []). intros H. pose proof nds1_counts as H1. rewrite H in H1. discriminate.
  Qed.
  Lemma fst_gets : gets_only (fst : @Store ITypes CBackend -> nat).
  Proof. split; [intros s l; cbn; lia|]. intros s d. cbn [CBackend sput]. destruct (@sput ITypes IBackend (snd s) d). cbn. lia. Qed.
  Lemma retain1 : swept_by c1 (retain (sy_fo c1) (sy_b c1) (offset_range_query {| r_start := Included 5; r_end := Excluded 6 |})) = (true, 5, 5).
  Proof. vm_compute. reflexivity. Qed.
  Lemma repair1 : swept_by (c2 10) (repair (sy_fo (c2 10)) (sy_b (c2 10))) = (true, 3, 12).
  Proof. vm_compute. reflexivity. Qed.
  Example C99_case : has_nodes esec (snapshot (sy_b (c2 10))) nds1
    /\ (List.length nds1, branches_in nds1) = (12, 6)
    /\ gets_only (fst : @Store ITypes CBackend -> nat)
    /\ swept_by c1 (retain (sy_fo c1) (sy_b c1) (offset_range_query {| r_start := Included 5; r_end := Excluded 6 |})) = (true, 5, 5)
    /\ swept_by (c2 10) (repair (sy_fo (c2 10)) (sy_b (c2 10))) = (true, 3, 12).
  Proof.
    split; [|split; [exact nds1_counts|split; [exact fst_gets|split; [exact retain1|exact repair1]]]].
    rewrite (proj2 (C99_case_reach 10)). exact nds1_has.
  Qed.
End Case.

(** Writing although blocks of the tree have been lost: more of C63. *)
From Coq Require Import List NArith ZArith Lia Bool String Arith.
From Verif Require Import Base BaseProofs Cbor Types Seq SeqProofs Query QuerySpec World Read Write Api Iter History Spec Ghost Frame ReadProofs Packable WriteProofs QueryProofs PackProofs RetainProofs RepairProofs NoPurged ApiProofs SysProofs HistProofs IterProofs IndexProofs Instance Example PropsWrite PropsRead PropsQuery PropsMaintain PropsIter PropsLocal PropsCheck PropsProgress.
Import ListNotations.

(** ** Specification *)
Section Spec.
  Context {T : Types} {X : Ext} {B : Backend T}.
  Variable sec : Secrets.
  Variable s : Store.

  (** The blocks of all branches from the node [i] down are in the store; nothing
      is said about the leaves. *)
  Inductive branches_there : Index -> Prop :=
  | there_leaf x : branches_there (ILeaf x)
  | there_purged x : bi_link x = None -> branches_there (IBranch x)
  | there_branch x cs : opens sec s x cs -> (forall c, In c cs -> branches_there c) -> branches_there (IBranch x).

  (** From the node [i] down, always to the last child, the blocks of unsealed
      nodes are in the store. *)
  Inductive open_edge : Index -> Prop :=
  | open_sealed i : isealed i = true -> open_edge i
  | open_purged i : ilink i = None -> open_edge i
  | open_leaf x l d : li_link x = Some l -> sblocks s l = Some d -> open_edge (ILeaf x)
  | open_branch x pre c : opens sec s x (pre ++ [c]) -> open_edge c -> open_edge (IBranch x).
End Spec.

Section Props.
  Context {T : Types} {TL : TypesLaws T} {X : Ext} {XL : ExtLaws X}
          {B : Backend T} {BL : BackendLaws T B}.
  Variable cfg : Config.
  Variable sec : Secrets.
  Hypothesis Hcfg : config_ok cfg.
  Notation key := (index_key sec).

  Lemma there_grow s s' i : (forall l d, sblocks s l = Some d -> sblocks s' l = Some d) ->
    branches_there sec s i -> branches_there sec s' i.
  Proof.
    intros H. induction 1; [apply there_leaf|now apply there_purged|]. eapply there_branch; eauto using opens_grow.
  Qed.

  Section Retain.
    Context {Rl : Rel T X B}.
    Hypothesis RR : rel -> ReliableReads T B.
    Variable lim : N.

    Lemma retain0_there q d : forall t off cur w, wok key w -> repr sec lim t ->
      branches_there sec (w_store w) (root_ix t) ->
      post (retain0 cfg sec q d off (root_ix t) cur) w False (fun _ _ => True).
    Proof.
      induction d as [|d IH]; intros t off cur w W R A.
      { destruct t as [x vs|x|x cs|x]; cbn [root_ix retain0]; try exact I;
          match goal with |- context [match bi_link ?y with _ => _ end] => destruct (bi_link y) end; try exact I; intros []. }
      destruct t as [x vs|x|x cs|x]; cbn [root_ix retain0]; try exact I.
      - destruct (repr_branch_load _ _ _ _ R) as (l & r & Hl & Hld & Hch & _ & _ & Hrc & Hnec & Hlv).
        rewrite Hl. cbn [andb]. destruct (_ && _ && _); cbn [bi_link branch_set_link]; [exact I|]. rewrite Hl.
        pose proof R as R'. apply repr_branch in R' as (Hne & _ & _ & _ & blk & r' & Hl' & Hb & _ & _).
        assert (Hne' : map root_ix cs <> []) by (destruct cs; [congruence|discriminate]).
        rewrite Hl' in Hl. injection Hl as <-.
        cbn [root_ix] in A. inversion A as [|? C|? cs' Ho Hc]; [congruence|]. subst.
        destruct (opens_children sec _ _ _ _ _ (proj1 W) R Ho) as [-> Hav].
        eapply post_rd; [apply rf_load_branch_from_link|exact W|apply rd_load_branch_from_link; eassumption| |].
        { intros s _. split; [now apply RR|]. now apply Hav. }
        intros w1 R1. cbn [br_children]. apply rext_wext in R1 as W1. pose proof (wext_ok _ _ _ W1 W) as Wok1.
        assert (A1 : Forall (fun c => branches_there sec (w_store w1) (root_ix c)) cs).
        { apply Forall_forall. intros c Hi. eapply there_grow; [apply W1|]. apply Hc. now apply in_map. }
        set (go := fix go (cs : list Index) (offset : nat) (cur : option Z) : M (list Index * bool * option Z) :=
                      match cs with
                      | [] => ret ([], false, cur)
                      | c :: cs' => _
                      end).
        assert (Fgo : forall cs off cur, frame (wext key) (go cs off cur)).
        { induction cs0 as [|c cs0 IHc]; intros; cbn [go]; [apply wf_ret|].
          apply wf_bind; [apply wf_retain0|]. intros []. apply wf_bind; [apply IHc|]. intros [[]]. apply wf_ret. }
        assert (Hgo : forall cs off cur w, wok key w -> Forall (repr sec lim) cs ->
                  Forall (fun c => branches_there sec (w_store w) (root_ix c)) cs ->
                  post (go (map root_ix cs) off cur) w False (fun _ _ => True)).
        { clear -IH Fgo TL XL BL. intros cs. induction cs as [|c cs IHc]; intros off cur w W G Ha; cbn [map go]; [exact I|].
          inversion G; inversion Ha; subst.
          eapply post_bind with (sec := sec); [apply wf_retain0|apply IH; auto|].
          intros [i cur1] w1 W1 _. pose proof (wext_ok _ _ _ W1 W) as Wok1.
          eapply post_bind with (sec := sec); [apply Fgo|apply IHc; auto|intros [[]] ? ? ?; exact I].
          eapply Forall_impl; [|eassumption]. cbn beta. intros c0. apply there_grow. apply W1. }
        eapply post_bind with (sec := sec); [apply Fgo|apply Hgo; auto|].
        intros [[is ch] cur2] w2 W2 _. destruct ch; [|exact I].
        eapply post_bind with (sec := sec); [apply wf_persist_branch|apply (post_persist_branch cfg sec)|intros [] ? ? ?; exact I].
      - cbn in R. rewrite R. cbn [andb]. rewrite R. exact I.
    Qed.
  End Retain.

  Section Append.
    Context {Rl : Rel T X B} {RA : RelAv Rl True}.

    Lemma extend_unpacked0_new i from w : wok key w -> gsrc cfg from ->
      post (extend_unpacked0 cfg sec i from) w False (fun _ _ => True).
    Proof.
      intros W Hg. unfold extend_unpacked0. destruct from as [|p0 from0]; cbn [is_nil]; [exact I|].
      set (from := p0 :: from0) in *.
      eapply post_bind with (sec := sec); [apply wf_extend_above| |].
      { apply (post_extend_above cfg sec Hcfg True True False 1 None None from w); auto; try lia; discriminate. }
      intros [b from1] w1 W1 (tb & taken & H1 & H2 & H3 & H4 & H5 & H6 & H7 & H8). cbn [fst snd] in *.
      assert (from1 = []) as ->.
      { destruct from1; [easy|]. destruct H7 as [H7 _]; discriminate. }
      destruct i as [a|]; [|exact I].
      eapply post_bind with (sec := sec) (Q := fun _ _ => True); [apply wf_extend_branch| |intros [] ? ? ?; exact I].
      unfold extend_branch, extend_branch_with.
      do 3 (apply post_assert; [intros []|intros _]).
      replace (fill_children _ _ _ []) with (ret (T := T) ([a; b], @nil (K * V))) by now destruct (max_branches _ _ - _).
      eapply post_bind with (sec := sec) (Q := fun _ _ => True); [apply wf_ret|exact I|]. intros [cs' from'] w2 W2 _.
      eapply post_bind with (sec := sec) (Q := fun _ _ => True); [apply wf_new_branch| |].
      - unfold new_branch. do 2 (apply post_assert; [intros []|intros _]).
        eapply post_bind with (sec := sec); [apply wf_persist_branch|apply (post_persist_branch cfg sec)|intros [] ? ? ?; exact I].
      - intros x w3 W3 _. apply post_assert; [intros []|intros _; exact I].
    Qed.

    (** What is left of the input. *)
    Definition left_of (from : list (K * V)) {A} (p : A * list (K * V)) (w : world) : Prop := exists taken, from = taken ++ snd p.

    Definition fake (i : Index) : tree := match i with ILeaf x => TLeaf x [] | IBranch x => TBranch x [] end.
    Lemma map_fake is : map root_ix (map fake is) = is.
    Proof. rewrite map_map. rewrite <- (map_id is) at 2. apply map_ext. now intros []. Qed.

    Lemma extend_branch_left cs level from mode w : gsrc cfg from ->
      post (extend_branch cfg sec cs level from mode) w False (left_of from).
    Proof.
      intros Hg. unfold extend_branch, extend_branch_with.
      do 3 (apply post_assert; [intros []|intros _]).
      eapply post_bind with (sec := sec); [apply wf_fill_children; intros; apply wf_fill_node| |].
      { rewrite <- (map_fake cs) at 2.
        apply (post_fill_children cfg sec True True False (level - 1)); [apply (fills_fill_node cfg sec Hcfg True True False)|intros; apply wf_fill_node|exact Hg]. }
      intros [cs' from'] w1 W1 (new & taken & _ & _ & E & _). cbn [fst snd] in *.
      eapply post_bind with (sec := sec) (Q := fun _ _ => True); [apply wf_new_branch| |].
      - unfold new_branch. do 2 (apply post_assert; [intros []|intros _]).
        eapply post_bind with (sec := sec); [apply wf_persist_branch|apply (post_persist_branch cfg sec)|intros [] ? ? ?; exact I].
      - intros x w2 W2 _. apply post_assert; [intros []|]. intros _. apply post_ret. now exists taken.
    Qed.

    Lemma climb_left fuel : forall i bnd from w, gsrc cfg from ->
      post (climb cfg sec fuel i bnd from) w False (left_of from).
    Proof.
      induction fuel as [|fuel IH]; intros i bnd from w Hg; cbn [climb]; destruct (_ && _);
        try (apply post_ret; now exists []); [intros []|].
      eapply post_bind with (sec := sec); [apply wf_extend_branch|now apply extend_branch_left|].
      intros [x from1] w1 W1 (taken & E). cbn [snd] in E.
      eapply post_conseq; [apply IH; eapply gsrc_rest; eauto|]. intros [i' from2] w2 (taken2 & E2). cbn [snd] in *.
      exists (taken ++ taken2). cbn [snd]. now rewrite <- app_assoc, <- E2.
    Qed.

    Lemma edge_grow s s' i : (forall l d, sblocks s l = Some d -> sblocks s' l = Some d) ->
      open_edge sec s i -> open_edge sec s' i.
    Proof.
      intros H. induction 1; [now apply open_sealed|now apply open_purged|eapply open_leaf; eauto|].
      eapply open_branch; eauto using opens_grow.
    Qed.

    Lemma extend_above_edge d : forall lim t bnd from w, wok key w -> repr sec lim t -> inv cfg t ->
      ilevel (root_ix t) < d -> open_edge sec (w_store w) (root_ix t) -> from <> [] -> gsrc cfg from ->
      post (extend_above cfg sec d (Some (root_ix t)) bnd from) w False (left_of from).
    Proof.
      induction d as [|d IH]; intros lim t bnd from w W R V Hd A Hne Hg; [lia|].
      cbn [extend_above]. replace (Write.is_nil from) with false by now destruct from.
      apply post_assert; [intros []|intros _].
      eapply post_bind with (sec := sec) (Q := left_of from); [apply wf_extend0; intros; apply wf_extend_above| |].
      2:{ intros [i from1] w1 W1 (taken & E). cbn [snd] in E.
          eapply post_bind with (sec := sec); [apply wf_climb|apply climb_left; eapply gsrc_rest; eauto|].
          intros [i' from2] w2 W2 (taken2 & E2). apply post_assert; [intros []|]. intros _. apply post_ret.
          exists (taken ++ taken2). cbn [snd] in *. now rewrite <- app_assoc, <- E2. }
      unfold extend0. destruct (isealed (root_ix t) || Write.is_nil from) eqn:Ese; [apply post_ret; now exists []|].
      apply orb_false_elim in Ese as [Ese _].
      destruct t as [x vs|x|x cs|x]; cbn [root_ix node_info_of] in *.
      - pose proof R as (R1 & blk & r & Hl & R3 & R4). apply rd_load_leaf_from_link in R3 as (z & Z1 & Z2 & Z3 & Z4). rewrite Hl.
        eapply post_rd; [apply rf_load_leaf_from_link|exact W|exact Z1| |].
        { intros s _. split; [now apply rel_reads|]. inversion A; subst; cbn in *; try congruence. exists d0. congruence. }
        intros w1 _.
        destruct R as (R & blk0 & r0 & _ & (_ & _ & off0 & d0 & ls0 & Hls & _) & _). assert (Hpl : exists ls, payload_links (map v_enc vs) = Ok ls) by eauto. clear off0 d0 ls0 Hls. cbn in V.
        eapply post_bind with (sec := sec); [apply wf_extend_leaf| |].
        { apply (post_extend_leaf cfg sec Hcfg True True False (zs_data z) (leaf_keys x) from vs); auto; [|apply V]. intros _. cbn in *. lia. }
        intros [x' from'] w2 W2 (taken & H1 & _). apply post_ret. now exists taken.
      - cbn in R. rewrite R. apply post_ret. now exists [].
      - pose proof R as R'. apply repr_branch in R as (Hnec & _ & _ & Hlv & blk & r & Hl & Hb & _ & Hch). rewrite Hl.
        assert (Hne' : map root_ix cs <> []) by (destruct cs; [congruence|discriminate]).
        apply invs_branch in V as (_ & _ & _ & _ & V).
        inversion A as [i E0|i E0| |x0 pre c Ho Hc E0]; subst; cbn in *; try congruence.
        destruct (opens_children sec _ _ _ _ _ (proj1 W) R' Ho) as [Ecs Hav].
        eapply post_rd; [apply rf_load_branch_cached|exact W|apply rd_load_branch_cached; eassumption| |].
        { intros s _. split; [now apply rel_reads|]. now apply Hav. }
        intros w1 R1. cbn [br_children]. apply rext_wext in R1 as W1. pose proof (wext_ok _ _ _ W1 W) as Wok1.
        destruct (exists_last Hnec) as (cs0 & last & ->).
        rewrite map_app, rev_app_distr in *. cbn [map rev app] in *. rewrite rev_involutive.
        apply app_inj_tail in Ecs as [_ ->].
        apply Forall_app in Hch as [_ Hch]. apply Forall_inv in Hch.
        apply Forall_app in Hlv as [_ Hlv]. apply Forall_inv in Hlv.
        eapply post_bind with (sec := sec) (Q := left_of from).
        { apply wf_bind; [apply wf_extend_above|]. intros []. apply wf_ret. }
        { eapply post_bind with (sec := sec); [apply wf_extend_above| |].
          - apply (IH (fst r)); auto; [|lia|].
            + apply Forall_app in V as [_ V]. now apply Forall_inv in V.
            + eapply edge_grow; [apply W1|exact Hc].
          - intros [i from1] w2 W2 (taken & E). apply post_ret. now exists taken. }
        intros [children from1] w2 W2 (taken & E). cbn [snd] in E.
        eapply post_bind with (sec := sec); [apply wf_extend_branch|apply extend_branch_left; eapply gsrc_rest; eauto|].
        intros [x' from2] w3 W3 (taken2 & E2). apply post_ret.
        exists (taken ++ taken2). cbn [snd] in *. now rewrite <- app_assoc, <- E2.
      - cbn in R. rewrite R. apply post_ret. now exists [].
    Qed.
  End Append.

  (** ** Theorems *)

  (** Of the tree [extend] needs only the unsealed nodes at its right edge, with the
      last leaf: whatever else was lost, it succeeds for a packed builder, unless
      the store refuses a block. *)
  Theorem C63_extend s items r fo' b' (RR : ReliableReads T B) :
    types_good -> reach no_repair cfg sec s -> says_packed (sy_fo s) (snapshot (sy_b s)) true ->
    (forall i, b_root (sy_b s) = Some i -> open_edge sec (fo_store (sy_fo s)) i) ->
    (forall k v, In (k, v) items -> good_value cfg v) ->
    extend (sy_fo s) (sy_b s) items = (r, fo', b') -> small_branches fo' ->
    r = Ok tt \/ (r = Err EStoreFull /\ refuses B) \/ r = Panic POverflow.
  Proof.
    intros Ht R P H Hg E Hs. destruct (reach_b cfg sec Hcfg _ _ R) as (n & I). apply done_intro.
    - destruct (extend_api cfg sec Hcfg _ _ _ _ _ _ _ _ _ I E) as (_ & _ & _ & S). apply S. split; [easy|].
      apply opacked_b. symmetry. exact (packed_b _ _ _ _ _ _ _ _ I P).
    - intros e ->. pose proof I as (F & Es & Ec & Er & G). unfold extend in E. destruct items as [|p items]; [discriminate|].
      set (from := p :: items) in *. rewrite Es, Ec in E.
      destruct (run _ _ _) as [[r0 fo1] b1] eqn:Erun.
      destruct r0 as [[i rest]|e0|p0|]; try discriminate. injection E as -> -> ->.
      assert (RA : RelAv (works Ht) True) by (split; auto).
      assert (Hsrc : gsrc (Rl := works Ht) cfg from) by now apply good_src.
      eapply (run_err (Rl := works Ht)); [|exact Erun|exact Logic.I|exact Hs].
      rewrite Er in *. destruct n as [t|]; cbn [option_map node_depth].
      + eapply (extend_above_edge (Rl := works Ht)); [now apply fok_wok|apply G|apply G|apply depth_ok|now apply H|discriminate|exact Hsrc].
      + eapply post_conseq.
        * apply (post_extend_above (Rl := works Ht) cfg sec Hcfg True True False 1 None None from);
            [now apply fok_wok|lia|discriminate|exact Hsrc|intros []].
        * intros [i from'] w (t & taken & _ & _ & Et & _). now exists taken.
  Qed.

  (** [extend_unpacked] needs nothing of the tree: it succeeds whatever was lost,
      unless the store refuses a block. *)
  Theorem C63_extend_unpacked s items r fo' b' (RR : ReliableReads T B) :
    types_good -> reach anything cfg sec s -> (forall k v, In (k, v) items -> good_value cfg v) ->
    extend_unpacked (sy_fo s) (sy_b s) items = (r, fo', b') -> small_branches fo' ->
    r = Ok tt \/ (r = Err EStoreFull /\ refuses B) \/ r = Panic POverflow.
  Proof.
    intros Ht R Hg E Hs. destruct (reach_b cfg sec Hcfg _ _ R) as (n & I). apply done_intro.
    - destruct (extend_unpacked_api cfg sec Hcfg _ _ _ _ _ _ _ _ _ I E) as (_ & _ & _ & S). now apply S.
    - intros e ->. pose proof I as (F & Es & Ec & Er & G). unfold extend_unpacked in E. rewrite Es, Ec in E.
      destruct (run _ _ _) as [[r0 fo1] b1] eqn:Erun.
      destruct r0 as [i|e0|p0|]; try discriminate. injection E as -> -> ->.
      eapply (run_err (Rl := works Ht)); [|exact Erun|exact Logic.I|exact Hs].
      assert (RA : RelAv (works Ht) True) by (split; auto).
      apply (extend_unpacked0_new (Rl := works Ht)); [now apply fok_wok|now apply good_src].
  Qed.

  (** [retain] does not need the leaves: whatever else was lost, it succeeds if the
      branches are there, unless the store refuses a block. *)
  Theorem C63_retain s q r fo' b' (RR : ReliableReads T B) :
    types_good -> reach anything cfg sec s ->
    (forall i, b_root (sy_b s) = Some i -> branches_there sec (fo_store (sy_fo s)) i) ->
    retain (sy_fo s) (sy_b s) q = (r, fo', b') -> small_branches fo' ->
    r = Ok tt \/ (r = Err EStoreFull /\ refuses B) \/ r = Panic POverflow.
  Proof.
    intros Ht R H E Hs. destruct (reach_b cfg sec Hcfg _ _ R) as (n & I). apply done_intro.
    - destruct (retain_api cfg sec _ _ _ _ _ _ _ _ _ _ I (any_purge_ok cfg sec q) E) as (_ & _ & _ & S). now apply S.
    - intros e ->. pose proof I as (F & Es & Ec & Er & G). unfold retain in E. rewrite Er in E.
      destruct n as [t|]; cbn [option_map] in E; [|discriminate].
      rewrite Es, Ec in E. destruct (run _ _ _) as [[r0 fo1] b1] eqn:Erun.
      destruct r0 as [[i rest]|e0|p0|]; try discriminate. injection E as -> -> ->.
      eapply (run_err (Rl := works Ht)); [|exact Erun|exact Logic.I|exact Hs].
      eapply (retain0_there (Rl := works Ht)); [intros; exact RR|now apply fok_wok|apply G|].
      apply H. exact Er.
  Qed.
End Props.

(** * A concrete case *)
Section Tests.
  Variable sec : Secrets.
  Variable s : @Store ITypes IBackend.
  Fixpoint thereb (n : nat) (i : Index) : bool :=
    match i with
    | ILeaf _ => true
    | IBranch x =>
        match bi_link x with None => true | Some _ =>
          match n, PropsLocal.openb sec s x with
          | S n', Some cs => forallb (thereb n') cs
          | _, _ => false
          end
        end
    end.
  Lemma thereb_ok n : forall i, thereb n i = true -> branches_there sec s i.
  Proof.
    induction n as [|n IH]; intros [x|x] H; cbn [thereb] in H; try apply there_leaf;
      (destruct (bi_link x) as [l|] eqn:El; [|now apply there_purged]); [discriminate|].
    destruct (PropsLocal.openb sec s x) as [cs|] eqn:Eo; [|discriminate]. apply PropsLocal.openb_ok in Eo.
    eapply there_branch; [exact Eo|]. rewrite forallb_forall in H. auto.
  Qed.
  Fixpoint openedb (n : nat) (i : Index) : bool :=
    isealed i || match ilink i with
    | None => true
    | Some l =>
        match i with
        | ILeaf _ => match sblocks s l with Some _ => true | None => false end
        | IBranch x =>
            match n, PropsLocal.openb sec s x with
            | S n', Some cs => match rev cs with c :: _ => openedb n' c | [] => false end
            | _, _ => false
            end
        end
    end.
  Lemma openedb_ok n : forall i, openedb n i = true -> open_edge sec s i.
  Proof.
    induction n as [|n IH]; intros i H; cbn [openedb] in H; apply orb_prop in H as [H|H]; try now apply open_sealed.
    all: destruct (ilink i) as [l|] eqn:El; [|now apply open_purged].
    all: destruct i as [x|x]; try (destruct (sblocks s l) as [d|] eqn:Ed; [|discriminate]; eapply open_leaf; eauto); try discriminate.
    destruct (PropsLocal.openb sec s x) as [cs|] eqn:Eo; [|discriminate]. apply PropsLocal.openb_ok in Eo.
    destruct (rev cs) as [|c rest] eqn:Er; [discriminate|]. rewrite <- (rev_involutive cs), Er in Eo. cbn in Eo.
    eapply open_branch; [exact Eo|now apply IH].
  Qed.
End Tests.

(** The packed tree of twelve entries after the store lost the two oldest leaves
    with four entries, but no branch, and the cache was emptied. *)
Definition st63 : sys := state anything 1000000 (ops2 ++ [lose_to 21; OEvict ([] : @Cache ITypes IBackend)]).
Lemma st63_ok : reach anything ecfg esec st63. Proof. reached. Qed.
Definition st63r := retain (sy_fo st63) (sy_b st63) q69.

Lemma C63_there_of s : on_root (thereb esec (fo_store (sy_fo s)) 10) s = true ->
  forall i, b_root (sy_b s) = Some i -> branches_there esec (fo_store (sy_fo s)) i.
Proof.
  intros H i E. apply on_root_ok in H as (i' & sec & o & E' & H). unfold snapshot in E'. rewrite E in E'. injection E' as <- _ _.
  exact (thereb_ok _ _ _ _ H).
Qed.

(** [retain] drops the entries that cannot be read any more. *)
Example C63_retain_case :
  reach anything ecfg esec st63 /\ config_ok ecfg /\ types_good (T := ITypes)
  /\ (forall i, b_root (sy_b st63) = Some i -> branches_there esec (fo_store (sy_fo st63)) i)
  /\ small_branches (mid3 st63r)
  /\ map (fun k => isErr (fst (get (sy_fo st63) (snapshot (sy_b st63)) k))) (seq 0 6) = [true; true; true; true; false; false]
  /\ isErr (fst (collect (sy_fo st63) (snapshot (sy_b st63)))) = true
  /\ fst3 st63r = Ok tt
  /\ fst (collect (mid3 st63r) (snapshot (snd st63r))) = Ok (repeat None 6 ++ map Some (pairs 6 4) ++ repeat None 2).
Proof.
  refine (conj st63_ok (conj ecfg_ok (conj types_good_case _))).
  splits; [apply C63_there_of|apply smallb_ok|..]; vm_compute; reflexivity.
Qed.

(** The same tree after the store lost all but the six newest blocks: eight entries
    cannot be read, but more can be appended. *)
Definition st63e : sys := state no_repair 1000000 (ops2 ++ [lose_to 6; OEvict ([] : @Cache ITypes IBackend)]).
Lemma st63e_ok : reach no_repair ecfg esec st63e. Proof. reached. Qed.
Definition st63x := extend (sy_fo st63e) (sy_b st63e) (pairs 12 3).

Lemma C63_open_of s : on_root (openedb esec (fo_store (sy_fo s)) 10) s = true ->
  forall i, b_root (sy_b s) = Some i -> open_edge esec (fo_store (sy_fo s)) i.
Proof.
  intros H i E. apply on_root_ok in H as (i' & sec & o & E' & H). unfold snapshot in E'. rewrite E in E'. injection E' as <- _ _.
  exact (openedb_ok _ _ _ _ H).
Qed.

Example C63_extend_case :
  reach no_repair ecfg esec st63e /\ says_packed (sy_fo st63e) (snapshot (sy_b st63e)) true
  /\ on_root isealed st63e = false
  /\ (forall i, b_root (sy_b st63e) = Some i -> open_edge esec (fo_store (sy_fo st63e)) i)
  /\ (forall k v, In (k, v) (pairs 12 3) -> good_value ecfg v)
  /\ small_branches (mid3 st63x)
  /\ map (fun k => isErr (fst (get (sy_fo st63e) (snapshot (sy_b st63e)) k))) (seq 0 12) = repeat true 8 ++ repeat false 4
  /\ fst3 st63x = Ok tt
  /\ gets (mid3 st63x) (snapshot (snd st63x)) 14 (Some (14%N, 114%N)).
Proof.
  splits; [exact st63e_ok|apply packed_c| |apply C63_open_of|intros k v _; apply good_value_case|apply smallb_ok|..|apply gets_c]; vm_compute; reflexivity.
Qed.

(** After the store lost everything. *)
Definition st63n : sys := state anything 1000000 (ops2 ++ [lose_to 0; OEvict ([] : @Cache ITypes IBackend)]).
Lemma st63n_ok : reach anything ecfg esec st63n. Proof. reached. Qed.
Definition st63u := extend_unpacked (sy_fo st63n) (sy_b st63n) (pairs 12 3).
Example C63_extend_unpacked_case :
  reach anything ecfg esec st63n /\ small_branches (mid3 st63u)
  /\ map (fun k => isErr (fst (get (sy_fo st63n) (snapshot (sy_b st63n)) k))) (seq 0 12) = repeat true 12
  /\ isErr (fst3 (extend (sy_fo st63n) (sy_b st63n) (pairs 12 3))) = true
  /\ fst3 st63u = Ok tt
  /\ gets (mid3 st63u) (snapshot (snd st63u)) 14 (Some (14%N, 114%N)).
Proof.
  splits; [exact st63n_ok|apply smallb_ok|..|apply gets_c]; vm_compute; reflexivity.
Qed.

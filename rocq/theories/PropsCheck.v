(** Properties of the self check: C72. *)
From Coq Require Import List NArith ZArith Lia Bool String Arith.
From Verif Require Import Base BaseProofs Cbor Types Seq SeqProofs Query World Read Write Api Iter History Spec Ghost Frame ReadProofs Packable WriteProofs ApiProofs SysProofs HistProofs Instance Example PropsWrite PropsRead PropsMaintain PropsLocal PropsReuse PropsWaste.
Import ListNotations.

(** ** Specification *)

Section Spec.
  Context {T : Types} {X : Ext} {B : Backend T}.
  Variable cfg : Config.
  Variable sec : Secrets.
  Variable s : Store.

  (** The node [i] agrees with its block, as far as the self check looks.

      A leaf: the block is there, and holds as many values as the node has keys.
      A branch: one summary per child, each the summary of its child; the children
      are below it, and exactly one level below if it is sealed; it is sealed
      if and only if it is full of sealed children that are one level below. *)
  Definition agrees (i : Index) : Prop :=
    match i with
    | ILeaf x => forall l, li_link x = Some l ->
        exists d z r, sblocks s l = Some d /\ decrypt d (value_key sec) nonce = Ok (z, r)
          /\ zs_count z = Ok (List.length (leaf_keys x))
    | IBranch x => forall cs, opens sec s x cs ->
        List.length cs = List.length (branch_sums x)
        /\ (forall n c m, nth_error cs n = Some c -> nth_error (branch_sums x) n = Some m -> s_eqb (summarize c) m = true)
        /\ (forall c, In c cs -> if bi_sealed x then ilevel c = bi_level x - 1 else ilevel c < bi_level x)
        /\ (bi_sealed x = true <->
             (forall c, In c cs -> isealed c = true /\ ilevel c = bi_level x - 1)
             /\ (if Nat.eqb (bi_level x) 1 then max_key_branches cfg else max_summary_branches cfg) <= List.length cs)
    end.

  (** The block of a branch is there. *)
  Definition opened (i : Index) : Prop :=
    match i with IBranch x => bi_link x <> None -> exists cs, opens sec s x cs | ILeaf _ => True end.
End Spec.

Section Check.
  Context {T : Types} {TL : TypesLaws T} {X : Ext} {XL : ExtLaws X}
          {B : Backend T} {BL : BackendLaws T B} {AL : Alone T B}.
  Variable cfg : Config.
  Variable sec : Secrets.
  Notation key := (index_key sec).

  Definition same (w w' : world) : Prop := forall l, sblocks (w_store w') l = sblocks (w_store w) l.
  Lemma rext_same w w' : rext key w w' -> same w w'.
  Proof. intros (_ & (_ & H) & _). exact (H AL). Qed.
  Lemma opens_same w w' x cs : same w w' -> opens sec (w_store w) x cs <-> opens sec (w_store w') x cs.
  Proof. intros H. split; apply opens_ext; [exact H|]. intros l. now rewrite H. Qed.
  Lemma agrees_same w w' i : same w w' -> agrees cfg sec (w_store w) i -> agrees cfg sec (w_store w') i.
  Proof.
    intros H. destruct i as [x|x]; cbn.
    - intros A l Hl. destruct (A l Hl) as (d & z & r & H1 & H2). exists d, z, r. rewrite H. auto.
    - intros A cs Ho. apply A. now apply (opens_same _ _ _ _ H).
  Qed.
  Lemma opened_same w w' i : same w w' -> opened sec (w_store w) i -> opened sec (w_store w') i.
  Proof.
    intros H. destruct i as [x|x]; cbn; [easy|]. intros A Hl. destruct (A Hl) as (cs & Ho). exists cs. now apply (opens_same _ _ _ _ H).
  Qed.
  Lemma same_sym w w' : same w w' -> same w' w.
  Proof. intros H l. now rewrite H. Qed.
  Lemma node_same w w' i j : same w w' -> node_in sec (w_store w) i j -> node_in sec (w_store w') i j.
  Proof. intros H. apply node_mono. intros l d. now rewrite H. Qed.

  Lemma check_nil b v : check b v = [] <-> b = true.
  Proof. unfold check. destruct b; split; easy. Qed.
  Lemma flat_nil {A C} (f : A -> list C) l : flat_map f l = [] <-> forall a, In a l -> f a = [].
  Proof.
    induction l as [|x l IH]; cbn; [easy|]. split.
    - intros H a. apply app_eq_nil in H as [H1 H2]. intros [<-|Ha]; [exact H1|]. now apply IH.
    - intros H. rewrite (H x (or_introl eq_refl)). cbn. apply IH. auto.
  Qed.

  Lemma sealed_iff cs x : branch_sealed cfg cs (bi_level x) = true <->
     (forall c, In c cs -> isealed c = true /\ ilevel c = bi_level x - 1)
     /\ (if Nat.eqb (bi_level x) 1 then max_key_branches cfg else max_summary_branches cfg) <= List.length cs.
  Proof.
    unfold branch_sealed, max_branches. split.
    - destruct (existsb _ cs) eqn:E1; [discriminate|]. destruct (existsb (fun x0 => negb (Nat.eqb _ _)) cs) eqn:E2; [discriminate|].
      intros H. apply Nat.leb_le in H. split; [|exact H]. intros c Hc. split.
      + destruct (isealed c) eqn:E; [easy|]. assert (A : existsb (fun x0 => negb (isealed x0)) cs = true) by (apply existsb_exists; exists c; now rewrite E). congruence.
      + destruct (Nat.eqb_spec (ilevel c) (bi_level x - 1)) as [E|E]; [exact E|]. apply Nat.eqb_neq in E.
        assert (A : existsb (fun x0 => negb (Nat.eqb (ilevel x0) (bi_level x - 1))) cs = true) by (apply existsb_exists; exists c; now rewrite E). congruence.
    - intros [H1 H2]. destruct (existsb _ cs) eqn:E1.
      { apply existsb_exists in E1 as (c & Hc & E). destruct (H1 c Hc) as [E' _]. now rewrite E' in E. }
      destruct (existsb (fun x0 => negb (Nat.eqb _ _)) cs) eqn:E2.
      { apply existsb_exists in E2 as (c & Hc & E). destruct (H1 c Hc) as [_ E']. now rewrite E', Nat.eqb_refl in E. }
      now apply Nat.leb_le.
  Qed.

  Lemma combine_nth {A C} (l : list A) (l' : list C) a c : In (a, c) (combine l l') <->
    exists n, nth_error l n = Some a /\ nth_error l' n = Some c.
  Proof.
    revert l'. induction l as [|x l IH]; intros l'; cbn.
    - split; [easy|]. intros ([|n] & H & _); discriminate.
    - destruct l' as [|y l']; cbn.
      + split; [easy|]. intros ([|n] & _ & H); discriminate.
      + split.
        * intros [[= -> ->]|H]; [exists 0; auto|]. apply IH in H as (n & H). now exists (S n).
        * intros ([|n] & H1 & H2); cbn in *; [left; congruence|]. right. apply IH. eauto.
  Qed.

  (** The checks of a branch, and what they mean. *)
  Definition branch_msgs (x : BranchIndex) (cs : list Index) : list violation :=
    check (Nat.eqb (List.length cs) (List.length (branch_sums x))) BranchCountSummaryCount
    ++ flat_map (fun c => if bi_sealed x then check (Nat.eqb (ilevel c) (bi_level x - 1)) ChildLevelSealed
                          else check (Nat.ltb (ilevel c) (bi_level x)) ChildLevelUnsealed) cs
    ++ flat_map (fun p => check (s_eqb (summarize (fst p)) (snd p)) ChildSummary) (combine cs (branch_sums x))
    ++ check (Bool.eqb (bi_sealed x) (branch_sealed cfg cs (bi_level x))) BranchSealed.

  Lemma branch_msgs_nil x cs : branch_msgs x cs = [] <->
        List.length cs = List.length (branch_sums x)
        /\ (forall n c m, nth_error cs n = Some c -> nth_error (branch_sums x) n = Some m -> s_eqb (summarize c) m = true)
        /\ (forall c, In c cs -> if bi_sealed x then ilevel c = bi_level x - 1 else ilevel c < bi_level x)
        /\ (bi_sealed x = true <->
             (forall c, In c cs -> isealed c = true /\ ilevel c = bi_level x - 1)
             /\ (if Nat.eqb (bi_level x) 1 then max_key_branches cfg else max_summary_branches cfg) <= List.length cs).
  Proof.
    unfold branch_msgs. rewrite <- sealed_iff.
    assert (A : forall (a b : list violation), a ++ b = [] <-> a = [] /\ b = []).
    { intros a b. split; [apply app_eq_nil|]. intros [-> ->]. reflexivity. }
    rewrite !A, !flat_nil, !check_nil, Nat.eqb_eq, eqb_true_iff. split.
    - intros (H1 & H2 & H3 & H4). splits; auto.
      + intros n c m Hc Hm. assert (Hin : In (c, m) (combine cs (branch_sums x))) by (apply combine_nth; eauto).
        apply H3 in Hin. now apply check_nil in Hin.
      + intros c Hc. apply H2 in Hc. destruct (bi_sealed x); apply check_nil in Hc; [now apply Nat.eqb_eq|now apply Nat.ltb_lt].
      + rewrite <- H4. easy.
    - intros (H1 & H2 & H3 & H4). splits; auto.
      + intros c Hc. apply H3 in Hc. destruct (bi_sealed x); apply check_nil; [now apply Nat.eqb_eq|now apply Nat.ltb_lt].
      + intros [c m] Hp. apply check_nil. apply combine_nth in Hp as (n & P1 & P2). eauto.
      + destruct (bi_sealed x), (branch_sealed cfg cs (bi_level x)); auto; [symmetry|]; now apply H4.
  Qed.

  Definition all_agree (w : world) (i : Index) : Prop := forall j, node_in sec (w_store w) i j -> agrees cfg sec (w_store w) j.
  Definition all_open (w : world) (i : Index) : Prop := forall j, node_in sec (w_store w) i j -> opened sec (w_store w) j.

  Lemma all_agree_same w w' i : same w w' -> all_agree w i -> all_agree w' i.
  Proof. intros H A j Hj. apply (agrees_same _ _ _ H). apply A. apply (node_same _ _ _ _ (same_sym _ _ H) Hj). Qed.
  Lemma all_open_same w w' i : same w w' -> all_open w i -> all_open w' i.
  Proof. intros H A j Hj. apply (opened_same _ _ _ H). apply A. apply (node_same _ _ _ _ (same_sym _ _ H) Hj). Qed.

  Lemma check_means d : forall i w, wok key w ->
    ok (check_invariants0 sec cfg d i) w (fun vs _ =>
       (vs = [] -> all_agree w i) /\ (all_open w i -> all_agree w i -> vs = [])).
  Proof.
    induction d as [|d IH]; intros i w W; cbn [check_invariants0];
      (destruct (node_info_of i) as [x l|x l|x|x] eqn:En;
       [|apply ok_step; intros z w1 E1; apply ok_step; intros n w2 E2; apply ok_ret|apply ok_ret|apply ok_ret]).
    all: try (assert (i = ILeaf x /\ li_link x = Some l) as [-> Hl]
        by (destruct i as [y|y]; cbn in En; [destruct (li_link y) eqn:E; [|discriminate]; injection En as <- <-; auto|destruct (bi_link y); discriminate])).
    all: try (assert (i = IBranch x /\ bi_link x = Some l) as [-> Hl]
        by (destruct i as [y|y]; cbn in En; [destruct (li_link y); discriminate|destruct (bi_link y) eqn:E; [|discriminate]; injection En as <- <-; auto])).
    1: apply ok_none; discriminate.
    all: try (assert (i = IBranch x /\ bi_link x = None) as [-> Hl]
        by (destruct i as [y|y]; cbn in En; [destruct (li_link y); discriminate|destruct (bi_link y) eqn:E; [discriminate|]; injection En as <-; auto]);
      (split; [|easy]); intros _ j Hj; inversion Hj as [|y cs c j0 (l & d0 & r & H1 & _) _ _]; subst; [|congruence];
      intros cs (l & d0 & r & H1 & _); congruence).
    all: try (assert (i = ILeaf x /\ li_link x = None) as [-> Hl]
        by (destruct i as [y|y]; cbn in En; [destruct (li_link y) eqn:E; [discriminate|]; injection En as <-; auto|destruct (bi_link y); discriminate]);
      (split; [|easy]); intros _ j Hj; inversion Hj; subst; intros l Hl'; congruence).
    1, 3: (assert (exists dat r, sblocks (w_store w) l = Some dat /\ decrypt dat (value_key sec) nonce = Ok (z, r)) as (dat & r & Hd & Hz)
         by (unfold load_leaf_from_link, mbind, get_block in E1; destruct (sget (w_store w) l) as [[dat|] s'] eqn:Es; [|discriminate];
             pose proof (sget_alone _ _ _ _ l Es) as Ea; apply sget_sound in Es; rewrite Ea in Es; unfold lift in E1; destruct (decrypt dat (value_key sec) nonce) as [[z0 r]| | |] eqn:Ed; try discriminate;
             injection E1 as <- _; exists dat, r; auto);
       assert (zs_count z = Ok n) as Hn by (unfold lift in E2; now injection E2);
       rewrite check_nil, Nat.eqb_eq; split;
       [intros -> j Hj; inversion Hj; subst; intros l' Hl'; assert (l' = l) as -> by congruence; exists dat, z, r; auto
       |intros _ A; destruct (A (ILeaf x) ltac:(constructor) l Hl) as (dat' & z' & r' & A1 & A2 & A3); congruence]).
    apply ok_step. intros b w1 E1. pose proof (load_opens sec _ _ _ _ W E1 x) as Hld.
    pose proof (rf_load_branch_cached sec _ _ _ _ E1) as R1. apply rext_same in R1 as S1. destruct R1 as (W1 & _). apply proj1 in W1; specialize (W1 W).
    eapply ok_bind with (Q := fun ms _ =>
        (List.concat ms = [] -> Forall (all_agree w1) (br_children b))
        /\ (Forall (fun c => all_open w1 c /\ all_agree w1 c) (br_children b) -> List.concat ms = [])).
    { clear Hld E1 S1. revert w1 W1. induction (br_children b) as [|c cs IHc]; intros w1 W1; cbn [mmapM].
      - apply ok_ret. split; [constructor|easy].
      - apply ok_step. intros vs w2 E2. destruct (IH _ _ W1 _ _ E2) as [A1 A2].
        pose proof (rf_check_invariants0 sec cfg d c _ _ _ E2) as R2. apply rext_same in R2 as S2. destruct R2 as (W2 & _). apply proj1 in W2; specialize (W2 W1).
        eapply ok_bind; [apply (IHc _ W2)|]. intros ms w3 _ [B1 B2]. apply ok_ret. cbn [List.concat]. split.
        + intros H. apply app_eq_nil in H as [H1 H2]. constructor; [now apply A1|].
          eapply Forall_impl; [|exact (B1 H2)]. intros a. apply all_agree_same. now apply same_sym.
        + intros H. inversion H as [|? ? [H1 H2] H3]; subst. rewrite A2, B2; auto.
          eapply Forall_impl; [|exact H3]. intros a [P1 P2]. split; [eapply all_open_same|eapply all_agree_same]; eauto. }
    intros ms w2 _ [A1 A2]. apply ok_ret.
    rewrite !app_assoc. rewrite <- (app_assoc _ _ (flat_map _ (combine _ _))), <- (app_assoc _ _ (check (Bool.eqb _ _) _)), <- (app_assoc _ _ (check (Bool.eqb _ _) _)).
    fold (branch_msgs x (br_children b)). split.
    - intros H. apply app_eq_nil in H as [H1 H2]. intros j Hj. inversion Hj as [|y cs c j0 Ho Hc Hn]; subst.
      + intros cs Ho. rewrite <- (Hld cs Hl Ho). now apply branch_msgs_nil.
      + specialize (A1 H2). rewrite Forall_forall in A1. rewrite <- (Hld cs Hl Ho) in Hc.
        apply (agrees_same w1 w); [now apply same_sym|]. apply (A1 c Hc). now apply (node_same w w1).
    - intros HO HA. destruct (HO (IBranch x) ltac:(constructor)) as (cs & Ho); [congruence|].
      pose proof (Hld cs Hl Ho) as Hcs. rewrite Hcs in *.
      rewrite (proj2 (branch_msgs_nil x cs) (HA (IBranch x) ltac:(constructor) cs Ho)), A2; [easy|].
      apply Forall_forall. intros c Hc. split; [eapply all_open_same; [exact S1|]|eapply all_agree_same; [exact S1|]]; intros j Hj; [apply HO|apply HA];
        (eapply node_child; [exact Ho|exact Hc|exact Hj]).
  Qed.
End Check.

(** ** C72: a self check that finds nothing has looked at every node *)

Section Props.
  Context {T : Types} {TL : TypesLaws T} {X : Ext} {XL : ExtLaws X}
          {B : Backend T} {BL : BackendLaws T B} {AL : Alone T B}.

  (** Blocks are filed under their digests, and the cache holds what the blocks
      decode to, or branches of blocks that cannot be read. Nothing is assumed about what the blocks say. *)
  Definition faithful (sec : Secrets) (fo : Forest) : Prop :=
    (forall l d, sblocks (fo_store fo) l = Some d -> l = digest d)
    /\ (forall l b, cin (fo_cache fo) l b -> decodes (index_key sec) l b \/ foreign (index_key sec) l).

  Lemma faithful_wok sec fo : faithful sec fo -> wok (index_key sec) (wof fo 0).
  Proof. intros [H1 H2]. split; [exact H1|]. exact H2. Qed.

  (** No message: every node agrees with its block. *)
  Theorem C72_no_message_partial fo b fo' r j :
    faithful (b_sec b) fo -> b_root b = Some r ->
    check_invariants fo b = (Ok [], fo') ->
    node_in (b_sec b) (fo_store fo) r j -> agrees (b_cfg b) (b_sec b) (fo_store fo) j.
  Proof.
    intros F Er E. unfold check_invariants in E. rewrite Er in E. unfold read in E. destruct (check_invariants0 _ _ _ _ _) as [rr w'] eqn:Em.
    injection E as -> _. exact (proj1 (check_means _ _ _ _ _ (faithful_wok _ _ F) _ _ Em) eq_refl j).
  Qed.

  (** A message: some node does not. *)
  Theorem C72_message_partial fo b fo' r vs :
    faithful (b_sec b) fo -> b_root b = Some r ->
    check_invariants fo b = (Ok vs, fo') ->
    (forall j, node_in (b_sec b) (fo_store fo) r j ->
       opened (b_sec b) (fo_store fo) j /\ agrees (b_cfg b) (b_sec b) (fo_store fo) j) ->
    vs = [].
  Proof.
    intros F Er E H. unfold check_invariants in E. rewrite Er in E. unfold read in E. destruct (check_invariants0 _ _ _ _ _) as [rr w'] eqn:Em.
    injection E as -> _. refine (proj2 (check_means _ _ _ _ _ (faithful_wok _ _ F) _ _ Em) _ _); intros j Hj; now apply H.
  Qed.
End Props.

(** * Cases *)

Definition plain (st : @Store ITypes IBackend) : Forest :=
  {| fo_store := st; fo_cache := ([] : @Cache ITypes IBackend); fo_log := [] |}.
Lemma plain_faithful st : faithful esec (plain st).
Proof.
  split; [|intros l b []]. cbn. intros l d H. destruct (existsb _ _); [now injection H|discriminate].
Qed.

(** The check finds nothing, the tree has [n] nodes, and all branches are there. *)
Definition openb (st : @Store ITypes IBackend) (i : @Index ITypes) : bool :=
  match i with
  | IBranch x => match bi_link x with
                 | Some l => match sblocks st l with
                             | Some d => match deserialize_compressed (index_key esec) d with Ok _ => true | _ => false end
                             | None => false
                             end
                 | None => true
                 end
  | ILeaf _ => true
  end.
Lemma openb_ok st i : openb st i = true -> opened esec st i.
Proof.
  destruct i as [x|x]; [easy|]. unfold openb, opened. destruct (bi_link x) as [l|] eqn:E1; [|easy].
  cbn [sblocks IBackend]. destruct (existsb _ _) eqn:E2; [|discriminate]. destruct (deserialize_compressed (index_key esec) l) as [[cs r]| | |] eqn:E3; try discriminate.
  intros _ _. exists cs, l, l, r. splits; auto. cbn. now rewrite E2.
Qed.
Definition clean (n : nat) (st : @Store ITypes IBackend) (b : Builder) : bool :=
  match b_root b, fst (check_invariants (plain st) b) with
  | Some i, Ok [] => match all_nodes esec st 10 i with
                     | Some ns => Nat.eqb (List.length ns) n && forallb (openb st) ns
                     | None => false
                     end
  | _, _ => false
  end.
Lemma clean_ok n st b : b_sec b = esec -> clean n st b = true ->
  exists r fo', b_root b = Some r /\ faithful (b_sec b) (plain st) /\ check_invariants (plain st) b = (Ok [], fo')
    /\ forall j, node_in (b_sec b) st r j -> opened (b_sec b) st j /\ agrees (b_cfg b) (b_sec b) st j.
Proof.
  intros Es. unfold clean. destruct (b_root b) as [r|] eqn:Er; [|discriminate].
  destruct (check_invariants (plain st) b) as [[[|v vs]| | |] fo'] eqn:E; try discriminate. cbn [fst].
  destruct (all_nodes esec st 10 r) as [ns|] eqn:En; [|discriminate]. intros H. apply andb_prop in H as [_ H].
  rewrite forallb_forall in H. assert (F : faithful (b_sec b) (plain st)) by (rewrite Es; apply plain_faithful).
  exists r, fo'. splits; auto. intros j Hj. split.
  - rewrite Es in *. apply openb_ok, H. exact (all_nodes_complete _ _ _ _ _ _ En Hj).
  - exact (C72_no_message_partial (plain st) b fo' r j F Er E Hj).
Qed.

(** Twelve entries in a packed tree: six leaves and six
    branches. *)
Example C72_case : b_sec (sy_b st2) = esec /\ clean 12 (fo_store (sy_fo st2)) (sy_b st2) = true.
Proof. split; vm_compute; reflexivity. Qed.

(** The same tree, looked at with a configuration that has larger branches, is
    reported. *)
Example C72_case_message :
  fst (check_invariants (plain (fo_store (sy_fo st2)))
         {| b_root := b_root (sy_b st2); b_off := 0; b_sec := esec;
            b_cfg := {| target_leaf_size := 1000; max_leaf_count := 2; max_key_branches := 3; max_summary_branches := 2;
                        zstd_level := 10; max_uncompressed_leaf_size := 1000 |}%N |})
    = Ok [BranchSealed; BranchSealed; BranchSealed].
Proof. vm_compute. reflexivity. Qed.

(** ** What the check does not see

    A stored branch may claim any number of entries: the check never compares
    the count of a branch with the counts of its children. Here each child of
    the root claims one entry too many; the builder that is loaded from this
    root counts two entries more than there are. *)
Definition bump (i : @Index ITypes) : @Index ITypes :=
  match i with
  | IBranch x => IBranch {| bi_count := S (bi_count x); bi_level := bi_level x; bi_sealed := bi_sealed x;
                            bi_link := bi_link x; bi_sums := bi_sums x; bi_vbytes := bi_vbytes x; bi_kbytes := bi_kbytes x |}
  | ILeaf x => ILeaf x
  end.
Definition kids (s : @sys ITypes IBackend) : list Index :=
  match b_root (sy_b s) with
  | Some (IBranch x) =>
      match bi_link x with
      | Some l => match deserialize_compressed (index_key esec) l with Ok (cs, _) => cs | _ => [] end
      | None => []
      end
  | _ => []
  end.
(** A store with one more block, and the link of this block. *)
Definition crafted : (@Store ITypes IBackend) * option bytes :=
  match run (sy_fo st2) (sy_b st2) (persist_branch ecfg esec (map bump (kids st2))) with
  | (Ok (l, _), fo, _) => (fo_store fo, Some l)
  | (_, fo, _) => (fo_store fo, None)
  end.
Definition miscounted (p : (@Store ITypes IBackend) * option bytes) : bool :=
  match p with
  | (st, Some l) =>
      match fst (load_stream_builder (plain st) esec ecfg l) with
      | Ok b => match fst (check_invariants (plain st) b), fst (collect (plain st) (snapshot b)) with
                | Ok [], Ok c => negb (Nat.eqb (List.length c) (builder_count b))
                | _, _ => false
                end
      | _ => false
      end
  | _ => false
  end.
Lemma miscounted_ok p : miscounted p = true ->
  exists fo l b fo1 fo2 c, faithful esec fo /\ load_stream_builder fo esec ecfg l = (Ok b, fo1)
    /\ check_invariants fo b = (Ok [], fo2) /\ reads fo (snapshot b) c /\ List.length c <> builder_count b.
Proof.
  unfold miscounted. destruct p as [st [l|]]; [|discriminate]. destruct (load_stream_builder (plain st) esec ecfg l) as [[b| | |] fo1] eqn:E1; try discriminate.
  cbn [fst]. destruct (check_invariants (plain st) b) as [[[|v vs]| | |] fo2] eqn:E2; try discriminate. cbn [fst].
  destruct (collect (plain st) (snapshot b)) as [[c| | |] fo3] eqn:E3; try discriminate. cbn [fst]. intros H.
  exists (plain st), l, b, fo1, fo2, c. splits; auto; [apply plain_faithful|eexists; exact E3|].
  apply negb_true_iff, Nat.eqb_neq in H. exact H.
Qed.
Theorem C72_refuted :
  exists fo l b fo1 fo2 c, faithful esec fo /\ load_stream_builder fo esec ecfg l = (Ok b, fo1)
    /\ check_invariants fo b = (Ok [], fo2) /\ reads fo (snapshot b) c /\ List.length c <> builder_count b.
Proof. apply (miscounted_ok crafted). vm_compute. reflexivity. Qed.

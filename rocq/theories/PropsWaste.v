(** Properties of what writing leaves behind: C70, C71. *)
From Coq Require Import List NArith ZArith Lia Bool String Arith.
From Verif Require Import Base BaseProofs Cbor Types Seq SeqProofs Query World Read Write Api Iter History Spec Ghost Frame ReadProofs Packable WriteProofs ApiProofs SysProofs HistProofs Instance Example PropsWrite PropsRead PropsMaintain PropsLocal PropsReuse.
Import ListNotations.

(** ** Specification *)

Section Spec.
  Context {T : Types} {X : Ext} {B : Backend T}.

  (** Between [fo] and [fo'] the block with the link [l] was handed to the store. *)
  Definition handed (fo fo' : Forest) (l : L) : Prop :=
    exists new e, fo_log fo' = fo_log fo ++ new /\ In e new /\ l = digest (ev_block e).

  (** The block with the link [l] is part of the tree of [b]. *)
  Definition in_tree (sec : Secrets) (fo : Forest) (b : Builder) (l : L) : Prop :=
    exists r j, b_root b = Some r /\ node_in sec (fo_store fo) r j /\ ilink j = Some l.
End Spec.

Section Waste.
  Context {T : Types} {TL : TypesLaws T} {X : Ext} {XL : ExtLaws X}
          {B : Backend T} {BL : BackendLaws T B}.
  Variable cfg : Config.
  Variable sec : Secrets.
  Notation key := (index_key sec).
  Notation source := (list (K * V)).

  Definition added (w w' : world) (l : L) : Prop :=
    exists new e, w_log w' = w_log w ++ new /\ In e new /\ l = digest (ev_block e).
  Definition covers (s : Store) (rs : list Index) (l : L) : Prop :=
    exists r j, In r rs /\ node_in sec s r j /\ ilink j = Some l.
  (** All that was written between [w] and [w'] is below [rs]. *)
  Definition saves (w w' : world) (rs : list Index) : Prop :=
    log_fits w' -> forall l, added w w' l -> covers (w_store w') rs l.

  Lemma added_split w w1 w2 l : wext key w w1 -> wext key w1 w2 -> added w w2 l -> added w w1 l \/ added w1 w2 l.
  Proof.
    intros (_ & _ & n1 & E1 & _) (_ & _ & n2 & E2 & _) (n & e & E & Hin & ->).
    rewrite E2, E1, <- app_assoc in E. apply app_inv_head in E as <-. apply in_app_or in Hin as [H|H].
    - left. exists n1, e. auto.
    - right. exists n2, e. auto.
  Qed.
  Lemma added_same w w' l : w_log w' = w_log w -> ~ added w w' l.
  Proof. intros H (n & e & E & Hin & _). rewrite H in E. rewrite <- (app_nil_r (w_log w)) in E at 1. apply app_inv_head in E as <-. destruct Hin. Qed.
  Lemma saves_same w w' rs : w_log w' = w_log w -> saves w w' rs.
  Proof. intros H _ l Ha. now apply added_same in Ha. Qed.
  Lemma saves_r w w' rs : rext key w w' -> saves w w' rs.
  Proof. intros (_ & _ & _ & H). now apply saves_same. Qed.

  Lemma covers_mono w w' rs l : wext key w w' -> covers (w_store w) rs l -> covers (w_store w') rs l.
  Proof. intros W (r & j & H1 & H2 & H3). exists r, j. splits; auto. eapply node_wext; eauto. Qed.
  Lemma covers_incl s rs rs' l : incl rs rs' -> covers s rs l -> covers s rs' l.
  Proof. intros H (r & j & H1 & H2). exists r, j. split; auto. Qed.
  Lemma covers_opens s x cs l : opens sec s x cs -> covers s cs l -> covers s [IBranch x] l.
  Proof. intros Ho (r & j & H1 & H2 & H3). exists (IBranch x), j. splits; [now left| |exact H3]. eapply node_child; eauto. Qed.

  Lemma saves_trans w w1 w2 rs1 rs2 : wext key w w1 -> wext key w1 w2 -> saves w w1 rs1 -> saves w1 w2 rs2 ->
    (log_fits w2 -> forall l, covers (w_store w2) rs1 l -> covers (w_store w2) rs2 l) -> saves w w2 rs2.
  Proof.
    intros W1 W2 S1 S2 H Hf l Ha. apply (added_split _ _ _ _ W1 W2) in Ha as [Ha|Ha]; [|now apply S2].
    apply H; [exact Hf|]. eapply covers_mono; [exact W2|]. apply S1; [|exact Ha]. eapply log_fits_mono; eauto.
  Qed.

  Ltac okp := intros ? ?.

  (** ** Blocks *)
  Lemma ok_put leaf k z raw w e l w' :
    mbind (encrypt_block leaf k z raw) (fun e => mbind (put_block e) (fun l => ret (e, l))) w = (Ok (e, l), w') ->
    forall x, added w w' x -> x = l.
  Proof.
    intros E x (new & e' & El & Hin & ->). unfold mbind in E.
    destruct (encrypt_block leaf k z raw w) as [r1 w1] eqn:E1.
    assert (L1 : w_log w1 = w_log w).
    { unfold encrypt_block in E1. destruct (reserve _ _) as [[o o']| | |]; injection E1 as _ <-; reflexivity. }
    destruct r1 as [e1| | |]; try discriminate. destruct (put_block e1 w1) as [r2 w2] eqn:E2. unfold put_block in E2.
    destruct (sput _ _) as [[l2|] s2] eqn:Es; injection E2 as <- <-; [|discriminate]. injection E as <- <- <-.
    apply sput_link in Es as [-> _]. cbn in El. rewrite L1 in El. apply app_inv_head in El as <-. destruct Hin as [<-|[]]. reflexivity.
  Qed.

  Lemma ok_extend_leaf c keys from w : ok (extend_leaf cfg sec c keys from) w (fun p w' => forall l, added w w' l -> li_link (fst p) = Some l).
  Proof.
    unfold extend_leaf. apply ok_assert. intros _. apply ok_step. intros [[[z full] keys'] from'] w1 E1.
    assert (w1 = w) as -> by now injection E1. intros [x rest] w' E l Ha.
    unfold mbind in E. destruct (encrypt_block _ _ _ _ w) as [r1 w1] eqn:Ee. destruct r1 as [e| | |]; try discriminate.
    destruct (put_block e w1) as [r2 w2] eqn:Ep. destruct r2 as [l2| | |]; try discriminate. injection E as <- _ <-. cbn. f_equal. symmetry.
    eapply (ok_put true (value_key sec) z _ w e l2); [|exact Ha]. unfold mbind. rewrite Ee, Ep. reflexivity.
  Qed.
  Lemma ok_persist cs w : ok (persist_branch cfg sec cs) w (fun p w' => forall l, added w w' l -> fst p = l).
  Proof.
    unfold persist_branch. apply ok_step. intros z w1 E1. assert (w1 = w) as -> by now injection E1. intros [l0 n] w' E l Ha.
    unfold mbind in E. destruct (encrypt_block _ _ _ _ w) as [r1 w1] eqn:Ee. destruct r1 as [e| | |]; try discriminate.
    destruct (put_block e w1) as [r2 w2] eqn:Ep. destruct r2 as [l2| | |]; try discriminate. injection E as <- _ <-. symmetry.
    eapply (ok_put false (index_key sec) z _ w e l2); [|exact Ha]. unfold mbind. rewrite Ee, Ep. reflexivity.
  Qed.

  Lemma saves_root w w' i : (forall l, added w w' l -> ilink i = Some l) -> saves w w' [i].
  Proof. intros H _ l Ha. exists i, i. splits; [now left|constructor|auto]. Qed.

  Lemma save_leaf_from_iter from w : ok (leaf_from_iter cfg sec from) w (fun p w' => saves w w' [ILeaf (fst p)]).
  Proof.
    unfold leaf_from_iter. apply ok_assert. intros _. eapply ok_conseq; [apply ok_extend_leaf|].
    intros p w' H. now apply saves_root.
  Qed.

  Lemma save_new_branch cs mode w : ok (new_branch cfg sec cs mode) w (fun x w' => saves w w' [IBranch x]).
  Proof.
    unfold new_branch. apply ok_assert. intros _. apply ok_assert. intros _.
    eapply ok_bind; [apply ok_persist|]. intros [l n] w1 _ H. apply ok_ret. apply saves_root. intros x Ha. cbn. f_equal. now apply H.
  Qed.

  (** ** Branches *)
  Definition saver (f : source -> M (Index * source)) : Prop :=
    forall from w, ok (f from) w (fun p w' => saves w w' [fst p]).

  Lemma save_fill_children f (Hf : saver f) (Ff : forall from, frame (wext key) (f from)) n : forall cs from w,
    ok (fill_children f n cs from) w (fun p w' => saves w w' (fst p)).
  Proof.
    induction n as [|n IH]; intros cs from w; cbn [fill_children].
    - apply ok_ret. now apply saves_same.
    - destruct from as [|p from]; [apply ok_ret; now apply saves_same|].
      eapply ok_bind; [apply Hf|]. intros [c from1] w1 E1 H1 [cs' from'] w' E2. cbn [fst] in *.
      destruct (ok_fill_children _ _ _ _ _ _ _ E2) as (new & Hnew). cbn [fst] in Hnew.
      eapply saves_trans; [exact (Ff _ _ _ _ E1)|exact (wf_fill_children sec f n Ff _ _ _ _ _ E2)|exact H1|exact (IH _ _ _ _ _ E2)|].
      intros _ l. apply covers_incl. intros x [<-|[]]. cbn. rewrite Hnew, <- app_assoc. apply in_or_app. right. now left.
  Qed.

  Lemma save_extend_branch_with f (Hf : saver f) (Ff : forall from, frame (wext key) (f from)) cs level from mode w :
    ok (extend_branch_with cfg sec f cs level from mode) w
       (fun p w' => saves w w' [IBranch (fst p)]
          /\ (log_fits w' -> exists new, opens sec (w_store w') (fst p) (cs ++ new))).
  Proof.
    unfold extend_branch_with. do 3 (apply ok_assert; intros _).
    apply ok_step. intros [cs1 from1] w1 E1.
    destruct (ok_fill_children _ _ _ _ _ _ _ E1) as (new & Hnew). pose proof (save_fill_children f Hf Ff _ _ _ _ _ _ E1) as S1.
    pose proof (wf_fill_children sec f _ Ff _ _ _ _ _ E1) as W1. cbn [fst] in Hnew, S1. subst cs1.
    apply ok_step. intros x w2 E2. pose proof (save_new_branch _ _ _ _ _ E2) as S2. pose proof (ok_new_branch cfg sec _ _ _ _ _ E2) as O2.
    pose proof (wf_new_branch sec cfg _ _ _ _ _ E2) as W2.
    apply ok_assert. intros _. apply ok_ret. cbn [fst]. split; [|eauto].
    eapply saves_trans; [exact W1|exact W2|exact S1|exact S2|]. intros Hfit l. apply covers_opens. now apply O2.
  Qed.

  Lemma save_fill_node level : saver (fill_node cfg sec level).
  Proof.
    induction level as [|l IH]; intros from w; cbn [fill_node]; apply ok_assert; intros _.
    - eapply ok_bind; [apply save_leaf_from_iter|]. intros [x from1] w1 _ H. now apply ok_ret.
    - eapply ok_bind; [apply save_extend_branch_with; [exact IH|intros; apply wf_fill_node]|]. intros [x from1] w1 _ [H _]. now apply ok_ret.
  Qed.

  Lemma save_extend_branch cs level from mode w :
    ok (extend_branch cfg sec cs level from mode) w
       (fun p w' => saves w w' [IBranch (fst p)]
          /\ (log_fits w' -> exists new, opens sec (w_store w') (fst p) (cs ++ new))).
  Proof. unfold extend_branch. apply save_extend_branch_with; [apply save_fill_node|intros; apply wf_fill_node]. Qed.

  Lemma node_trans s a b c : node_in sec s a b -> node_in sec s b c -> node_in sec s a c.
  Proof. induction 1 as [i|x cs d j Ho Hin _ IH]; intros H; [exact H|]. eapply node_child; eauto. Qed.
  Lemma covers_node s r i l : node_in sec s r i -> covers s [i] l -> covers s [r] l.
  Proof. intros Hn (i' & j & [<-|[]] & H2 & H3). exists r, j. splits; [now left| |exact H3]. eapply node_trans; eauto. Qed.
  Lemma opens_node s x cs c : opens sec s x cs -> In c cs -> node_in sec s (IBranch x) c.
  Proof. intros Ho Hc. eapply node_child; [exact Ho|exact Hc|constructor]. Qed.

  Lemma save_climb fuel : forall i bnd from w,
    ok (climb cfg sec fuel i bnd from) w (fun p w' => saves w w' [fst p]
       /\ (log_fits w' -> node_in sec (w_store w') (fst p) i)).
  Proof.
    induction fuel as [|fuel IH]; intros i bnd from w; cbn [climb];
      (match goal with |- ok (if ?b then _ else _) _ _ => destruct b end; [|apply ok_ret; split; [now apply saves_same|constructor]]).
    - apply ok_none. discriminate.
    - apply ok_step. intros [x from1] w1 E1. destruct (save_extend_branch _ _ _ _ _ _ _ E1) as [S1 C1]. cbn [fst] in *.
      pose proof (wf_extend_branch sec cfg _ _ _ _ _ _ _ E1) as W1.
      intros p w2 E2. destruct (IH _ _ _ _ _ _ E2) as [S2 C2]. pose proof (wf_climb sec cfg _ _ _ _ _ _ _ E2) as W2. split.
      + eapply saves_trans; [exact W1|exact W2|exact S1|exact S2|]. intros Hf l. apply covers_node. now apply C2.
      + intros Hf. eapply node_trans; [now apply C2|]. eapply node_wext; [exact W2|].
        destruct (C1 (log_fits_mono sec _ _ W2 Hf)) as (new & Ho). eapply opens_node; [exact Ho|now left].
  Qed.

  (** ** Extending *)
  Lemma save_extend0 rec i from w :
    (forall c lvl from w, ok (rec c lvl from) w (fun p w' => saves w w' [fst p])) ->
    (forall i l f, frame (wext key) (rec i l f)) ->
    ok (extend0 cfg sec rec i from) w (fun p w' => saves w w' [fst p]).
  Proof.
    intros Hrec Frec. unfold extend0. destruct (isealed i || Write.is_nil from); [apply ok_ret; now apply saves_same|].
    destruct (node_info_of i) as [x l|x l|x|x]; try (apply ok_ret; now apply saves_same).
    - apply ok_step. intros b w1 E1. pose proof (rf_load_branch_cached sec _ _ _ _ E1) as R1.
      apply rext_wext in R1 as W1.
      eapply ok_bind with (Q := fun p w2 => wext key w1 w2 /\ saves w1 w2 (fst p)).
      { destruct (rev (br_children b)) as [|last rest] eqn:Er; [apply ok_ret; split; [apply wext_refl|now apply saves_same]|].
        apply ok_step. intros [last' from1] w2 E2. pose proof (Hrec _ _ _ _ _ _ E2) as H2. apply ok_ret. split; [exact (Frec _ _ _ _ _ _ E2)|].
        cbn [fst] in *. intros Hf l' Ha. eapply covers_incl; [|exact (H2 Hf l' Ha)]. intros y [<-|[]]. apply in_or_app. right. now left. }
      intros [cs1 from1] w2 _ [W2 S2]. cbn [fst] in S2. apply ok_step. intros [x' from2] w3 E3.
      destruct (save_extend_branch _ _ _ _ _ _ _ E3) as [S3 C3]. pose proof (wf_extend_branch sec cfg _ _ _ _ _ _ _ E3) as W3.
      apply ok_ret. cbn [fst] in *.
      assert (S23 : saves w1 w3 [IBranch x']).
      { eapply saves_trans; [exact W2|exact W3|exact S2|exact S3|]. intros Hf l' Hc. destruct (C3 Hf) as (new & Ho).
        eapply covers_opens; [exact Ho|]. revert Hc. apply covers_incl. intros y Hy. now apply in_or_app; left. }
      eapply saves_trans; [exact W1|exact (wext_trans _ _ _ _ W2 W3)|now apply (saves_r w w1 [])|exact S23|].
      intros _ l' (r & j & [] & _).
    - apply ok_step. intros z w1 E1. pose proof (rf_load_leaf_from_link sec _ _ _ _ E1) as R1.
      apply rext_wext in R1 as W1. apply ok_step. intros [x' from1] w2 E2. pose proof (ok_extend_leaf _ _ _ _ _ _ E2) as H2. apply ok_ret. cbn [fst] in *.
      eapply saves_trans; [exact W1|exact (wf_extend_leaf sec cfg _ _ _ _ _ _ E2)|now apply (saves_r w w1 [])|now apply saves_root|].
      intros _ l' (r & j & [] & _).
  Qed.

  Lemma save_extend_above d : forall node bnd from w,
    ok (extend_above cfg sec d node bnd from) w (fun p w' => saves w w' [fst p]).
  Proof.
    induction d as [|d IH]; intros node bnd from w; cbn [extend_above]; [apply ok_none; discriminate|].
    destruct (Write.is_nil from); [apply ok_none; discriminate|]. apply ok_assert. intros _.
    eapply ok_bind with (Q := fun p w' => wext key w w' /\ saves w w' [fst p]).
    - intros p w' E. destruct node as [i|].
      + split; [revert E; apply wf_extend0; intros; apply wf_extend_above|]. revert p w' E. apply save_extend0; [|intros; apply wf_extend_above].
        intros. apply IH.
      + unfold mbind in E. destruct (leaf_from_iter cfg sec from w) as [[[x f1]| | |] w1] eqn:E1; try discriminate. injection E as <- <-.
        split; [exact (wf_leaf_from_iter sec cfg _ _ _ _ E1)|]. exact (save_leaf_from_iter _ _ _ _ E1).
    - intros [i1 from1] w1 _ [W1 S1]. cbn [fst] in S1. apply ok_step. intros [i2 from2] w2 E2.
      destruct (save_climb _ _ _ _ _ _ _ E2) as [S2 C2]. cbn [fst] in *. apply ok_assert. intros _. apply ok_ret. cbn [fst].
      eapply saves_trans; [exact W1|exact (wf_climb sec cfg _ _ _ _ _ _ _ E2)|exact S1|exact S2|].
      intros Hf l. apply covers_node. now apply C2.
  Qed.

  Definition ol (o : option Index) : list Index := match o with Some i => [i] | None => [] end.

  Lemma save_extend_unpacked0 index from w :
    ok (extend_unpacked0 cfg sec index from) w (fun r w' => saves w w' (ol r)).
  Proof.
    unfold extend_unpacked0. destruct (Write.is_nil from); [apply ok_ret; now apply saves_same|].
    apply ok_step. intros [b from1] w1 E1. pose proof (save_extend_above _ _ _ _ _ _ _ E1) as S1. cbn [fst] in S1.
    pose proof (wf_extend_above sec cfg _ _ _ _ _ _ _ E1) as W1.
    destruct index as [a|]; [|apply ok_ret; exact S1].
    apply ok_step. intros [x from2] w2 E2. destruct (save_extend_branch _ _ _ _ _ _ _ E2) as [S2 C2]. cbn [fst] in *. apply ok_ret.
    cbn [ol]. eapply saves_trans; [exact W1|exact (wf_extend_branch sec cfg _ _ _ _ _ _ _ E2)|exact S1|exact S2|].
    intros Hf l. destruct (C2 Hf) as (new & Ho). apply covers_node. eapply opens_node; [exact Ho|right; now left].
  Qed.

  (** ** Purging *)

  (** The same link and kind: the same nodes below. *)
  Definition kind_eq (i j : Index) : Prop :=
    match i, j with IBranch _, IBranch _ | ILeaf _, ILeaf _ => True | _, _ => False end.
  Lemma covers_relink s i i' l : kind_eq i i' -> ilink i = ilink i' -> covers s [i] l -> covers s [i'] l.
  Proof.
    intros Hk El (r & j & [<-|[]] & Hn & Hj). exists i'. inversion Hn as [|x cs c j0 Ho Hc Hn']; subst.
    - exists i'. splits; [now left|constructor|congruence].
    - destruct i' as [y|y]; [destruct Hk|]. exists j. splits; [now left| |exact Hj]. eapply node_child; [|exact Hc|exact Hn'].
      destruct Ho as (l0 & d & r & H1 & H2 & H3). cbn in El. exists l0, d, r. splits; auto. congruence.
  Qed.
  Lemma link_eqb_eq a b : link_eqb a b = true -> a = b.
  Proof. destruct a, b; cbn; try discriminate; [|easy]. intros H. f_equal. now apply l_eqb_eq. Qed.

  Lemma kind_eq_refl i : kind_eq i i.
  Proof. destruct i; exact Logic.I. Qed.

  Lemma load_opens' l w b w' : load_branch_from_link sec l w = (Ok b, w') ->
    forall x, bi_link x = Some l -> opens sec (w_store w') x (br_children b).
  Proof.
    intros E x Hl. unfold load_branch_from_link, mbind, get_block in E.
    destruct (sget (w_store w) l) as [[d|] s'] eqn:Es; try discriminate. apply sget_sound in Es.
    unfold lift in E. destruct (deserialize_compressed key d) as [[cs r]| | |] eqn:Ed; try discriminate.
    unfold new_branch_data in E. cbn in E. destruct cs; [discriminate|]. injection E as <- <-.
    exists l, d, r. splits; auto.
  Qed.

  Lemma opens_wext w w' x cs : wext key w w' -> opens sec (w_store w) x cs -> opens sec (w_store w') x cs.
  Proof. intros W (l & d & r & H1 & H2 & H3). exists l, d, r. splits; auto. eapply wext_blocks; eauto. Qed.

  Lemma persist_opens cs w l n w' x : persist_branch cfg sec cs w = (Ok (l, n), w') -> log_fits w' ->
    opens sec (w_store w') (branch_set_link x (Some l)) cs.
  Proof.
    intros E Hf. pose proof (post_persist_branch cfg sec cs w False) as P. unfold post in P. cbn [s_now only] in P. rewrite E in P. cbn [fst] in P.
    destruct P as (blk & r & -> & Hb & _ & _ & Hfit & Hst).
    exists (digest blk), blk, r. splits; auto. now rewrite (deserialize_spec _ _ _ _ Hb), (Hfit Hf).
  Qed.

  (** What a rewritten branch covers. *)
  Lemma saves_rewrite x w cs cs' w1 w2 l n w3 : opens sec (w_store w) x cs -> wext key w w1 -> saves w w1 cs' ->
    persist_branch cfg sec cs' w1 = (Ok (l, n), w2) -> w3 = w2 -> saves w w3 [IBranch (branch_set_link x (Some l))].
  Proof.
    intros Ho W1 S1 E ->. pose proof (wf_persist_branch sec cfg _ _ _ _ E) as W2.
    eapply saves_trans; [exact W1|exact W2|exact S1| |].
    - apply saves_root. intros l' Ha. cbn. f_equal. now apply (ok_persist _ _ _ _ E).
    - intros Hf l'. apply covers_opens. eapply persist_opens; eauto.
  Qed.
  Lemma saves_kept x w cs w1 : opens sec (w_store w) x cs -> wext key w w1 -> saves w w1 cs -> saves w w1 [IBranch x].
  Proof. intros Ho W1 S1 Hf l Ha. eapply covers_opens; [|now apply S1]. eapply opens_wext; eauto. Qed.

  Lemma saves_child w w' c c1 : kind_eq c c1 -> saves w w' [c1] ->
    saves w w' [if negb (link_eqb (ilink c1) (ilink c)) then c1 else c].
  Proof.
    intros Hk S. destruct (link_eqb (ilink c1) (ilink c)) eqn:E; [|exact S]. cbn [negb]. intros Hf l Ha.
    apply link_eqb_eq in E. eapply covers_relink; [|exact E|now apply S]. destruct c, c1; auto.
  Qed.
  Lemma saves_cons w w1 w2 c cs : wext key w w1 -> wext key w1 w2 -> saves w w1 [c] -> saves w1 w2 cs -> saves w w2 (c :: cs).
  Proof.
    intros W1 W2 S1 S2. apply (saves_trans w w1 w2 [c]); auto.
    - intros Hf l Ha. apply (covers_incl _ cs); [intros y Hy; now right|]. now apply S2.
    - intros _ l. apply covers_incl. intros y [<-|[]]. now left.
  Qed.

  Lemma save_retain0 q d : forall off i cur w,
    ok (retain0 cfg sec q d off i cur) w (fun p w' => saves w w' [fst p] /\ kind_eq i (fst p)).
  Proof.
    induction d as [|d IH]; intros off i cur w; (destruct i as [x|x]; [cbn [retain0]; apply ok_ret; split; [now apply saves_same|exact Logic.I]|]);
      cbn [retain0];
      (match goal with |- ok (match bi_link ?y with _ => _ end) _ _ => set (z := y); clearbody z end);
      (destruct (bi_link z) as [l|] eqn:El; [|apply ok_ret; split; [now apply saves_same|exact Logic.I]]).
    - apply ok_none. discriminate.
    - apply ok_step. intros b w1 E1. pose proof (load_opens' _ _ _ _ E1 z El) as Ho.
      pose proof (rf_load_branch_from_link sec _ _ _ _ E1) as R1. apply rext_wext in R1 as W1.
      eapply ok_bind with (Q := fun r w2 => wext key w1 w2 /\ saves w1 w2 (fst (fst r)) /\ (snd (fst r) = false -> fst (fst r) = br_children b)).
      { clear Ho E1 R1 W1. generalize (retain_cursor (IBranch x) cur) off w1. clear w1.
        induction (br_children b) as [|c cs IHc]; intros cur' off' w1.
        - apply ok_ret. splits; [apply wext_refl|now apply saves_same|easy].
        - apply ok_step. intros [c1 cur1] w2 E2. destruct (IH _ _ _ _ _ _ E2) as [S2 K2]. cbn [fst] in *.
          pose proof (wf_retain0 sec cfg _ _ _ _ _ _ _ _ E2) as W2.
          eapply ok_bind; [apply IHc|]. intros [[cs1 ch2] cur2] w3 _ (W3 & S3 & H3). cbn [fst snd] in *. apply ok_ret. cbn [fst snd].
          splits; [exact (wext_trans _ _ _ _ W2 W3)| |].
          + apply (saves_cons _ _ _ _ _ W2 W3); [|exact S3]. now apply saves_child.
          + intros Hc. apply orb_false_elim in Hc as [Hc1 Hc2]. rewrite Hc1, (H3 Hc2). reflexivity. }
      intros [[cs ch] cur1] w2 _ (W2 & S2 & H2). cbn [fst snd] in *. destruct ch.
      + apply ok_step. intros [l1 n1] w3 E3. apply ok_ret. cbn [fst]. split; [|exact Logic.I].
        eapply saves_trans; [exact W1|exact (wext_trans _ _ _ _ W2 (wf_persist_branch sec cfg _ _ _ _ E3))|now apply (saves_r w w1 [])| |].
        * eapply saves_rewrite; eauto.
        * intros _ l' (r & j & [] & _).
      + apply ok_ret. cbn [fst]. split; [|exact Logic.I].
        eapply saves_trans; [exact W1|exact W2|now apply (saves_r w w1 [])| |].
        * eapply saves_kept; eauto. rewrite <- H2 by easy. exact S2.
        * intros _ l' (r & j & [] & _).
  Qed.

  Lemma save_repair0 d : forall i cur w,
    ok (repair0 cfg sec d i cur) w (fun p w' => saves w w' [fst (fst p)] /\ kind_eq i (fst (fst p))).
  Proof.
    induction d as [|d IH]; intros i cur w; (destruct i as [x|x];
      [cbn [repair0]; apply ok_step; intros r w1 E1;
       pose proof (frame_try _ _ (rf_load_leaf sec x) _ _ _ E1) as R1; destruct r; apply ok_ret; (split; [now apply saves_r|exact Logic.I])|]);
      cbn [repair0]; apply ok_step; intros r w1 E1; pose proof (frame_try _ _ (rf_load_branch sec x) _ _ _ E1) as R1;
      (destruct r as [[b|]|e]; [|apply ok_ret; (split; [now apply saves_r|exact Logic.I])..]).
    - apply ok_none. discriminate.
    - assert (Ho : opens sec (w_store w1) x (br_children b)).
      { unfold try, load_branch in E1. destruct (bi_link x) as [l|] eqn:El; [|discriminate]. unfold mbind in E1.
        destruct (load_branch_from_link sec l w) as [[b1|e|p|] w1'] eqn:Eb; try discriminate. injection E1 as -> ->.
        eapply load_opens'; eauto. }
      apply rext_wext in R1 as W1.
      eapply ok_bind with (Q := fun r w2 => wext key w1 w2 /\ saves w1 w2 (fst (fst (fst r)))
                                   /\ (snd (fst (fst r)) = false -> fst (fst (fst r)) = br_children b)).
      { clear Ho E1 R1 W1. generalize (repair_cursor (IBranch x) cur) w1. clear w1.
        induction (br_children b) as [|c cs IHc]; intros cur' w1.
        - apply ok_ret. splits; [apply wext_refl|now apply saves_same|easy].
        - apply ok_step. intros [[c1 rep1] cur1] w2 E2. destruct (IH _ _ _ _ _ E2) as [S2 K2]. cbn [fst] in *.
          pose proof (wf_repair0 sec cfg _ _ _ _ _ _ E2) as W2.
          eapply ok_bind; [apply IHc|]. intros [[[cs1 ch2] rep2] cur2] w3 _ (W3 & S3 & H3). cbn [fst snd] in *. apply ok_ret. cbn [fst snd].
          splits; [exact (wext_trans _ _ _ _ W2 W3)| |].
          + apply (saves_cons _ _ _ _ _ W2 W3); [|exact S3]. now apply saves_child.
          + intros Hc. apply orb_false_elim in Hc as [Hc1 Hc2]. rewrite Hc1, (H3 Hc2). reflexivity. }
      intros [[[cs ch] rep] cur1] w2 _ (W2 & S2 & H2). cbn [fst snd] in *. destruct ch.
      + apply ok_step. intros [l1 n1] w3 E3. apply ok_ret. cbn [fst]. split; [|exact Logic.I].
        eapply saves_trans; [exact W1|exact (wext_trans _ _ _ _ W2 (wf_persist_branch sec cfg _ _ _ _ E3))|now apply (saves_r w w1 [])| |].
        * eapply saves_rewrite; eauto.
        * intros _ l' (r & j & [] & _).
      + apply ok_ret. cbn [fst]. split; [|exact Logic.I].
        eapply saves_trans; [exact W1|exact W2|now apply (saves_r w w1 [])| |].
        * eapply saves_kept; eauto. rewrite <- H2 by easy. exact S2.
        * intros _ l' (r & j & [] & _).
  Qed.

  (** ** Packing *)
  Lemma new_branch_count cs mode w : ok (new_branch cfg sec cs mode) w (fun x _ => bi_count x = total cs).
  Proof. unfold new_branch. do 2 (apply ok_assert; intros _). apply ok_step. intros [l n] w1 _. now apply ok_ret. Qed.

  (** Now and later all that is below [rs] is below [rs']. *)
  Definition under (w : world) (rs rs' : list Index) : Prop :=
    forall w', wext key w w' -> forall l, covers (w_store w') rs l -> covers (w_store w') rs' l.

  Lemma save_simplify_roots fuel : forall rs from w,
    ok (simplify_roots cfg sec fuel rs from) w (fun rs' w' => saves w w' rs' /\ (log_fits w' -> under w' rs rs') /\ total rs' = total rs).
  Proof.
    induction fuel as [|fuel IH]; intros rs from w; cbn [simplify_roots];
      do 2 (apply ok_assert; intros _); apply ok_step; intros r w1 E1;
      (assert (w1 = w) as -> by now injection E1);
      (destruct r as [n|n|n]; [| |first [apply ok_none; discriminate|apply IH]]).
    all: apply ok_step; intros x w2 E2; pose proof (save_new_branch _ _ _ _ _ E2) as S2; pose proof (new_branch_count _ _ _ _ _ E2) as Hc;
      pose proof (ok_new_branch cfg sec _ _ _ _ _ E2) as O2; apply ok_ret; splits.
    all: try (intros Hf l Ha; apply (covers_incl _ [IBranch x]); [|now apply S2]; intros y [<-|[]]; apply in_or_app; right; now left).
    all: try (intros Hf w3 W3 l (r & j & Hr & Hn & Hj);
      rewrite <- (firstn_skipn from rs) in Hr; apply in_app_or in Hr as [Hr|Hr];
      [exists r, j; splits; auto; now apply in_or_app; left|];
      rewrite <- (firstn_skipn n (skipn from rs)) in Hr; apply in_app_or in Hr as [Hr|Hr];
      [exists (IBranch x), j; splits; [apply in_or_app; right; now left|eapply node_child; [exact (opens_wext _ _ _ _ W3 (O2 Hf))|exact Hr|exact Hn]|exact Hj]|];
      exists r, j; splits; auto; apply in_or_app; right; right; rewrite skipn_plus in Hr; exact Hr).
    all: transitivity (total (firstn from rs ++ firstn n (skipn from rs) ++ skipn (from + n) rs));
      [unfold total in *; rewrite !map_app, !sum_nat_app; cbn [map icount]; unfold sum_nat in *; cbn [fold_right]; lia
      |rewrite <- skipn_plus, !firstn_skipn; reflexivity].
  Qed.

  Lemma save_simplify_all fuel : forall rs w,
    ok (simplify_all cfg sec fuel rs) w (fun rs' w' => List.length rs' <= 1 /\ saves w w' rs' /\ (log_fits w' -> under w' rs rs') /\ total rs' = total rs).
  Proof.
    induction fuel as [|fuel IH]; intros rs w; cbn [simplify_all];
      (destruct (Nat.ltb_spec 1 (List.length rs)); [|apply ok_ret; splits; [lia|now apply saves_same|intros _ w' _ l; auto|easy]]).
    - apply ok_none; discriminate.
    - apply ok_step. intros rs1 w1 E1. destruct (save_simplify_roots _ _ _ _ _ _ E1) as (S1 & C1 & T1).
      pose proof (wf_simplify_roots sec cfg _ _ _ _ _ _ E1) as W1.
      intros rs2 w2 E2. destruct (IH _ _ _ _ E2) as (L2 & S2 & C2 & T2). pose proof (wf_simplify_all sec cfg _ _ _ _ _ E2) as W2.
      splits; [exact L2| | |congruence].
      + eapply saves_trans; [exact W1|exact W2|exact S1|exact S2|]. intros Hf. apply (C2 Hf). apply wext_refl.
      + intros Hf w3 W3 l Hc. apply (C2 Hf _ W3). apply C1; [eapply log_fits_mono; eauto|exact (wext_trans _ _ _ _ W2 W3)|exact Hc].
  Qed.

  Lemma save_tree_from_roots rs w :
    ok (tree_from_roots cfg sec rs) w (fun o w' => saves w w' (ol o) /\ total (ol o) = total rs).
  Proof.
    unfold tree_from_roots. do 2 (apply ok_assert; intros _). apply ok_step. intros rs1 w1 E1.
    destruct (save_simplify_all _ _ _ _ _ E1) as (L1 & S1 & _ & T1). apply ok_ret.
    assert (ol (last (map Some rs1) None) = rs1) as -> by (destruct rs1 as [|a [|]]; cbn in *; auto; lia). auto.
  Qed.
End Waste.

(** ** C70: what is handed to the store is part of the tree *)

Section Props.
  Context {T : Types} {TL : TypesLaws T} {X : Ext} {XL : ExtLaws X}
          {B : Backend T} {BL : BackendLaws T B}.
  Variable cfg : Config.
  Variable sec : Secrets.

  Lemma saves_handed sc fo fo' lim lim' b l : saves sc (wof fo lim) (wof fo' lim') (ol (b_root b)) ->
    small_branches fo' -> handed fo fo' l -> in_tree sc fo' b l.
  Proof.
    intros S Hs Hh. destruct (S (proj1 (small_fits fo' lim') Hs) l Hh) as (r & j & Hr & Hn & Hj).
    exists r, j. splits; auto. destruct (b_root b) as [i|]; [destruct Hr as [->|[]]; easy|destruct Hr].
  Qed.
  Lemma handed_same fo fo' l : fo_log fo' = fo_log fo -> ~ handed fo fo' l.
  Proof. intros H (n & e & E & Hin & _). rewrite H in E. rewrite <- (app_nil_r (fo_log fo)) in E at 1. apply app_inv_head in E as <-. destruct Hin. Qed.

  Theorem C70_extend fo b items fo' b' l :
    extend fo b items = (Ok tt, fo', b') -> small_branches fo' ->
    handed fo fo' l -> in_tree (b_sec b) fo' b' l.
  Proof.
    intros E Hs Hh. unfold extend in E. destruct items as [|p items].
    { injection E as <- <-. now apply handed_same in Hh. }
    set (from := p :: items) in *. destruct (run fo b _) as [[r0 fo1] b1] eqn:Erun. apply run_inv in Erun as (Em & _).
    destruct r0 as [[i rest]|e|p0|]; try discriminate. injection E as <- <-.
    eapply saves_handed; [|exact Hs|exact Hh]. exact (save_extend_above _ _ _ _ _ _ _ _ _ Em).
  Qed.

  Theorem C70_push fo b k v fo' b' l :
    push fo b k v = (Ok tt, fo', b') -> small_branches fo' ->
    handed fo fo' l -> in_tree (b_sec b) fo' b' l.
  Proof. apply C70_extend. Qed.

  Theorem C70_extend_unpacked fo b items fo' b' l :
    extend_unpacked fo b items = (Ok tt, fo', b') -> small_branches fo' ->
    handed fo fo' l -> in_tree (b_sec b) fo' b' l.
  Proof.
    intros E Hs Hh. unfold extend_unpacked in E. destruct (run fo b _) as [[r0 fo1] b1] eqn:Erun. apply run_inv in Erun as (Em & _).
    destruct r0 as [i|e|p0|]; try discriminate. injection E as <- <-.
    eapply saves_handed; [|exact Hs|exact Hh]. exact (save_extend_unpacked0 _ _ _ _ _ _ _ Em).
  Qed.

  Theorem C70_retain fo b q fo' b' l :
    retain fo b q = (Ok tt, fo', b') -> small_branches fo' ->
    handed fo fo' l -> in_tree (b_sec b) fo' b' l.
  Proof.
    intros E Hs Hh. unfold retain in E. destruct (b_root b) as [i|]; [|injection E as <- <-; now apply handed_same in Hh].
    destruct (run fo b _) as [[r0 fo1] b1] eqn:Erun. apply run_inv in Erun as (Em & _).
    destruct r0 as [[i' c]|e|p0|]; try discriminate. injection E as <- <-.
    eapply saves_handed; [|exact Hs|exact Hh]. exact (proj1 (save_retain0 _ _ _ _ _ _ _ _ _ _ Em)).
  Qed.

  Theorem C70_repair fo b rep fo' b' l :
    repair fo b = (Ok rep, fo', b') -> small_branches fo' ->
    handed fo fo' l -> in_tree (b_sec b) fo' b' l.
  Proof.
    intros E Hs Hh. unfold repair in E. destruct (b_root b) as [i|]; [|injection E as _ <- <-; now apply handed_same in Hh].
    destruct (run fo b _) as [[r0 fo1] b1] eqn:Erun. apply run_inv in Erun as (Em & _).
    destruct r0 as [[[i' rp] c]|e|p0|]; try discriminate. injection E as _ <- <-.
    eapply saves_handed; [|exact Hs|exact Hh]. exact (proj1 (save_repair0 _ _ _ _ _ _ _ _ Em)).
  Qed.

  (** [pack], if there are no entries after the roots that [roots] lists. *)
  Theorem C71_pack_partial s rs fo1 fo' b' l :
    config_ok cfg -> reach anything cfg sec s ->
    roots (sy_fo s) (sy_b s) = (Ok rs, fo1) -> total rs = builder_count (sy_b s) ->
    pack (sy_fo s) (sy_b s) = (Ok tt, fo', b') -> small_branches fo' ->
    handed (sy_fo s) fo' l -> in_tree sec fo' b' l.
  Proof.
    intros Hcfg R Ers Ht E Hs Hh. destruct (reach_b cfg sec Hcfg _ _ R) as (t & I). pose proof I as (F & Es & Ec & Er & G).
    unfold pack in E. rewrite Ers in E. pose proof (roots_api cfg sec _ _ _ _ _ _ _ I Ers) as (S1 & _).
    rewrite Ec, Es in E. destruct (run fo1 (sy_b s) _) as [[r1 fo2] b1] eqn:Erun.
    apply run_inv in Erun as (Em & Er1 & Es1 & Ec1). pose proof (wf_tree_from_roots sec cfg rs _ _ _ Em) as W2.
    destruct r1 as [i|e|p|]; try discriminate. destruct (save_tree_from_roots cfg sec _ _ _ _ Em) as [S2 T2].
    destruct (collect_from fo2 _ _) as [rr3 fo3] eqn:Ecol. destruct rr3 as [cl|e|p|]; try discriminate.
    assert (Wall : fext sec (sy_fo s) (b_off (sy_b s)) fo2 (b_off b1)) by (eapply fext_trans; [exact (fsame_fext sec _ _ _ S1)|exact W2]).
    assert (I2 : bgood cfg sec (k_lose anything = false) (k_repair anything = false) fo2
                     {| b_root := b_root (sy_b s); b_off := b_off b1; b_sec := b_sec (sy_b s); b_cfg := b_cfg (sy_b s) |} t).
    { split; [eapply fext_fok; eauto|]. splits; auto. exact (gn_mono cfg sec _ _ _ _ _ _ _ Wall G). }
    set (b2 := {| b_root := _ |}) in I2.
    assert (Ecol' : collect_from fo2 (snapshot b2) (builder_count (set_root b1 i)) = (Ok cl, fo3)).
    { rewrite <- Ecol. unfold snapshot. cbn. now destruct (b_root (sy_b s)). }
    destruct (collect_api cfg sec _ _ _ _ _ _ _ _ I2 Ecol') as (S3 & [Hl|[e Hl]] & _); [|discriminate]. injection Hl as ->.
    assert (Hc : builder_count (set_root b1 i) = List.length (ocontent t)).
    { rewrite <- (b_count _ _ _ _ _ _ _ I), <- Ht, <- T2. unfold builder_count, total, sum_nat. destruct i; cbn; lia. }
    rewrite Hc, skipn_all in E. cbn in E. injection E as <- <-.
    assert (L1 : fo_log fo1 = fo_log (sy_fo s)) by (destruct S1 as (_ & _ & _ & H); exact H).
    assert (L3 : fo_log fo3 = fo_log fo2) by (destruct S3 as (_ & _ & _ & H); exact H).
    assert (Hs2 : small_branches fo2) by (unfold small_branches in *; now rewrite <- L3).
    assert (Hh2 : handed fo1 fo2 l) by (unfold handed in *; now rewrite L1, <- L3).
    pose proof (saves_handed _ _ _ _ _ (set_root b1 i) l S2 Hs2 Hh2) as (r & j & Hr & Hn & Hj).
    exists r, j. splits; auto. exact (node_fsame _ _ _ _ _ S3 Hn).
  Qed.
End Props.

(** * Cases *)

Section Tests.
  Context {T : Types} {X : Ext} {B : Backend T}.
  Variable sec : Secrets.
  Variable s : Store.

  (** All nodes below [i], if the depth [d] suffices. *)
  Fixpoint all_nodes (d : nat) (i : Index) : option (list Index) :=
    match i with
    | ILeaf _ => Some [i]
    | IBranch x =>
        match bi_link x with
        | Some l => match sblocks s l with
                    | Some b => match deserialize_compressed (index_key sec) b with
                                | Ok (cs, _) =>
                                    match d with
                                    | O => None
                                    | S d => match omapM (all_nodes d) cs with
                                             | Some ls => Some (i :: List.concat ls)
                                             | None => None
                                             end
                                    end
                                | _ => Some [i]
                                end
                    | None => Some [i]
                    end
        | None => Some [i]
        end
    end.

  Lemma omapM_in {A C} (f : A -> option C) l r a : omapM f l = Some r -> In a l -> exists c, f a = Some c /\ In c r.
  Proof.
    revert r. induction l as [|x l IH]; intros r E Hin; [destruct Hin|]. cbn in E.
    destruct (f x) as [c|] eqn:Ef; [|discriminate]. destruct (omapM f l) as [r'|] eqn:Er; [|discriminate]. injection E as <-.
    destruct Hin as [->|Hin]; [exists c; split; [exact Ef|now left]|]. destruct (IH _ eq_refl Hin) as (c' & H1 & H2). exists c'. split; [exact H1|now right].
  Qed.

  Lemma all_nodes_complete d : forall i ns j, all_nodes d i = Some ns -> node_in sec s i j -> In j ns.
  Proof.
    induction d as [|d IH]; intros i ns j E Hn; (destruct i as [x|x]; [injection E as <-; inversion Hn; subst; now left|]); cbn [all_nodes] in E;
      (inversion Hn as [i|x0 cs c j0 (l & b & r & H1 & H2 & H3) Hc Hn' E1 E2]; subst;
       [repeat match type of E with context [match ?e with _ => _ end] => destruct e; try discriminate end; injection E as <-; now left|]);
      rewrite H1, H2, H3 in E; [discriminate|].
    destruct (omapM (all_nodes d) cs) as [ls|] eqn:El; [|discriminate]. injection E as <-. right.
    destruct (omapM_in _ _ _ _ El Hc) as (cl & Hcl & Hin). apply in_concat. exists cl. split; [exact Hin|]. eapply IH; eauto.
  Qed.
End Tests.

Definition ev_eqb (a b : event) : bool :=
  Bool.eqb (ev_leaf a) (ev_leaf b) && bytes_eqb (ev_key a) (ev_key b) && N.eqb (ev_off a) (ev_off b)
  && N.eqb (ev_len a) (ev_len b) && bytes_eqb (ev_raw a) (ev_raw b) && bytes_eqb (ev_block a) (ev_block b).
Lemma ev_eqb_eq a b : ev_eqb a b = true -> a = b.
Proof.
  destruct a, b. unfold ev_eqb. cbn. rewrite !andb_true_iff. intros (((((H1 & H2) & H3) & H4) & H5) & H6).
  apply eqb_prop in H1. apply bytes_eqb_eq in H2, H5, H6. apply N.eqb_eq in H3, H4. congruence.
Qed.
(** What a log has more than another one. *)
Fixpoint newer (a b : list event) : option (list event) :=
  match a, b with
  | [], _ => Some b
  | x :: a, y :: b => if ev_eqb x y then newer a b else None
  | _, _ => None
  end.
Lemma newer_ok a : forall b n, newer a b = Some n -> b = a ++ n.
Proof.
  induction a as [|x a IH]; intros b n H; cbn in H; [now injection H as ->|]. destruct b as [|y b]; [discriminate|].
  destruct (ev_eqb x y) eqn:E; [|discriminate]. apply ev_eqb_eq in E as ->. cbn. f_equal. now apply IH.
Qed.

(** The call succeeds and hands [n] blocks to the store. *)
Definition case70 {A} (n : nat) (s : @sys ITypes IBackend) (r : res A * Forest * Builder) : bool :=
  match r with
  | (Ok _, fo', b') =>
      smallb fo' && match newer (fo_log (sy_fo s)) (fo_log fo') with Some l => Nat.eqb (List.length l) (S n) | None => false end
  | _ => false
  end.
Lemma case70_ok {A} n s (r : res A * Forest * Builder) : case70 n s r = true ->
  exists a fo' b' l, r = (Ok a, fo', b') /\ small_branches fo' /\ handed (sy_fo s) fo' l.
Proof.
  unfold case70. destruct r as [[[a|e|p|] fo'] b']; try discriminate. intros H. apply andb_prop in H as [H1 H2].
  destruct (newer _ _) as [[|e l]|] eqn:E; try discriminate. apply newer_ok in E.
  exists a, fo', b', (digest (ev_block e)). splits; [easy|now apply smallb_ok|]. exists (e :: l), e. splits; auto. now left.
Qed.

Example C70_case :
  case70 12 st2 (extend (sy_fo st2) (sy_b st2) (pairs 12 9)) = true
  /\ case70 3 st2 (push (sy_fo st2) (sy_b st2) 12%N 112%N) = true
  /\ case70 11 st2 (extend_unpacked (sy_fo st2) (sy_b st2) (pairs 12 9)) = true
  /\ case70 3 st2 (retain (sy_fo st2) (sy_b st2) rq) = true
  /\ case70 2 st5 (repair (sy_fo st5) (sy_b st5)) = true.
Proof. splits; vm_compute; reflexivity. Qed.

(** Eight entries in three roots, and nothing after them: [pack] writes two
    branches above them. *)
Definition st70 : sys := state no_loss 1000000 [OExtend (pairs 0 4); OExtendUnpacked (pairs 4 2); OExtendUnpacked (pairs 6 2)].
Lemma st70_ok : reach no_loss ecfg esec st70. Proof. reached. Qed.
Definition roots_cover (s : @sys ITypes IBackend) : bool :=
  match roots (sy_fo s) (sy_b s) with
  | (Ok rs, _) => Nat.eqb (total rs) (builder_count (sy_b s)) && Nat.ltb 2 (List.length rs)
  | _ => false
  end.
Example C71_case : roots_cover st70 = true /\ case70 1 st70 (pack (sy_fo st70) (sy_b st70)) = true.
Proof. split; vm_compute; reflexivity. Qed.

(** In general [pack] leaves blocks behind. Here it finds two roots with six
    entries, writes a branch above them, which is not sealed, and then appends
    the last entry: that branch is replaced before anybody saw it. *)
Definition st70w : sys := state no_loss 1000000 [OExtend (pairs 0 4); OExtendUnpacked (pairs 4 2); OExtendUnpacked (pairs 6 1)].
Lemma st70w_ok : reach no_loss ecfg esec st70w. Proof. reached. Qed.

Definition left_behind (s : @sys ITypes IBackend) (r : res unit * Forest * Builder) : bool :=
  match r with
  | (Ok _, fo', b') =>
      match newer (fo_log (sy_fo s)) (fo_log fo'), b_root b' with
      | Some l, Some i =>
          match all_nodes esec (fo_store fo') 10 i with
          | Some ns =>
              smallb fo' &&
              existsb (fun e => negb (existsb (fun j => match ilink j with
                                                        | Some x => bytes_eqb x (digest (ev_block e))
                                                        | None => false
                                                        end) ns)) l
          | None => false
          end
      | _, _ => false
      end
  | _ => false
  end.
Lemma left_behind_ok s r : left_behind s r = true ->
  exists fo' b' l, r = (Ok tt, fo', b') /\ small_branches fo' /\ handed (sy_fo s) fo' l /\ ~ in_tree esec fo' b' l.
Proof.
  unfold left_behind. destruct r as [[[[]|e|p|] fo'] b']; try discriminate.
  destruct (newer _ _) as [new|] eqn:E; [|discriminate]. destruct (b_root b') as [i|] eqn:Er; [|discriminate].
  destruct (all_nodes esec (fo_store fo') 10 i) as [ns|] eqn:En; [|discriminate]. intros H. apply andb_prop in H as [Hs H].
  apply existsb_exists in H as (e & He & H). apply newer_ok in E. exists fo', b', (digest (ev_block e)).
  splits; [easy|now apply smallb_ok|exists new, e; auto|].
  intros (r & j & Hr & Hn & Hj). rewrite Er in Hr. injection Hr as <-. apply (all_nodes_complete _ _ _ _ _ _ En) in Hn.
  apply negb_true_iff in H. assert (Ht : existsb (fun j => match ilink j with Some x => bytes_eqb x (digest (ev_block e)) | None => false end) ns = true).
  { apply existsb_exists. exists j. split; [exact Hn|]. rewrite Hj. now apply bytes_eqb_eq. }
  rewrite Ht in H. discriminate.
Qed.
Theorem C71_refuted :
  exists s fo' b' l, reach no_loss ecfg esec s /\ pack (sy_fo s) (sy_b s) = (Ok tt, fo', b') /\ small_branches fo'
    /\ handed (sy_fo s) fo' l /\ ~ in_tree esec fo' b' l.
Proof.
  exists st70w. assert (H : left_behind st70w (pack (sy_fo st70w) (sy_b st70w)) = true) by (vm_compute; reflexivity).
  apply left_behind_ok in H as (fo' & b' & l & H). exists fo', b', l. split; [exact st70w_ok|exact H].
Qed.

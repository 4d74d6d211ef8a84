(** The index iterators return what the tree says. *)
From Coq Require Import List NArith ZArith Lia Bool String Arith.
From Verif Require Import Base BaseProofs Cbor Types Seq SeqProofs Query QuerySpec World Read Write Api Iter History Spec IterSpec Ghost Frame IterFrame ReadProofs QueryProofs IterProofs.
Import ListNotations.

Section IndexProofs.
  Context {T : Types} {TL : TypesLaws T} {X : Ext} {XL : ExtLaws X}
          {B : Backend T} {BL : BackendLaws T B}.
  Variable sec : Secrets.
  Notation key := (index_key sec).
  Variable q : Query.
  Hypothesis Hq : q_sized q.
  Variable m : mode.

  (** ** The nodes that are visited *)

  (** The nodes below and including [t], whose first entry is at [off]. *)
  Fixpoint nodes (off : nat) (t : tree) : list Index :=
    match t with
    | TBranch x cs =>
        IBranch x ::
        List.concat (ordered m
          ((fix go (off : nat) (f : list bool) (cs : list tree) {struct cs} : list (list Index) :=
              match f, cs with
              | b :: f', c :: cs' => (if b then nodes off c else []) :: go (off + cnt c) f' cs'
              | _, _ => []
              end) off (branch_mask q off x) cs))
    | t => [root_ix t]
    end.

  Definition ind (off : nat) (p : work) : list Index := if fst p then nodes off (snd p) else [].
  Fixpoint parts (off : nat) (w : list work) : list (list Index) :=
    match w with
    | [] => []
    | p :: w' => ind off p :: parts (off + cnt (snd p)) w'
    end.

  Lemma nodes_branch off x cs :
    nodes off (TBranch x cs) = IBranch x :: List.concat (ordered m (parts off (combine (branch_mask q off x) cs))).
  Proof.
    cbn [nodes]. f_equal. f_equal. f_equal. generalize (branch_mask q off x). intros f. revert off cs.
    induction f as [|b f IH]; intros off [|c cs]; cbn [parts combine]; auto. unfold ind at 1. cbn [fst snd]. now rewrite IH.
  Qed.

  (** Remaining items, for an iterator at offset [off]. *)
  Fixpoint irem (off : nat) (w : list work) : list Index :=
    match w with
    | [] => []
    | p :: w' => ind (fst (range_at m off (cnt (snd p)))) p ++ irem (moved m off (cnt (snd p))) w'
    end.

  Lemma irem_app off a b : irem off (a ++ b) = irem off a ++ irem (moved m off (wcnt a)) b.
  Proof.
    revert off. induction a as [|[b0 t] a IH]; intros off; cbn [app irem].
    - destruct m; cbn; f_equal; lia.
    - rewrite IH, app_assoc, moved_moved. reflexivity.
  Qed.
  Lemma irem_ordered off a : enough m off (wcnt a) ->
    irem off (ordered m a) = List.concat (ordered m (parts (fst (range_at m off (wcnt a))) a)).
  Proof.
    destruct m eqn:Em; cbn [ordered range_at fst enough].
    - intros _. revert off. induction a as [|[b t] a IH]; intros off; cbn [irem parts List.concat]; [easy|].
      rewrite Em. cbn [range_at fst moved]. now rewrite IH.
    - revert off. induction a as [|[b t] a IH]; intros off H; cbn [rev parts]; [easy|]. change (wcnt ((b, t) :: a)) with (cnt t + wcnt a) in *.
      rewrite irem_app, wcnt_rev, concat_app, Em, IH by lia. cbn [irem moved snd]. rewrite app_nil_r, Em. cbn [range_at fst moved List.concat].
      rewrite app_nil_r. f_equal; [f_equal; f_equal; f_equal; lia|]. f_equal. lia.
  Qed.

  Lemma wcnt_ordered (a : list work) : wcnt (ordered m a) = wcnt a.
  Proof. destruct m; [easy|apply wcnt_rev]. Qed.

  Lemma first_le n : first m n <= n.
  Proof. destruct m; cbn; lia. Qed.

  (** ** The iterator *)

  Variable g : tree.
  Variable lim : N.
  Hypothesis Rg : repr sec lim g.
  Notation rd := (rd sec).

  Definition ii_ok (it : iiter) (w : list work) : Prop :=
    ii_sec it = sec /\ ii_mode it = m /\ ii_query it = q
    /\ top m g (ii_stack it) w /\ enough m (ii_off it) (wcnt w).
  Definition iremains (it : iiter) (w : list work) : list Index := irem (ii_off it) w.

  Lemma ii_ok_set it w off st w' : ii_ok it w -> top m g st w' -> enough m off (wcnt w') -> ii_ok (ii_set it off st) w'.
  Proof. intros (E1 & E2 & E3 & _) H1 H2. unfold ii_ok. cbn. splits; auto. Qed.

  Lemma sub_avail_b s t : avail_branches s g -> sub g t -> avail_branches s t.
  Proof.
    intros A. induction 1 as [|x cs c H IH Hin]; [easy|]. apply avail_branches_branch in IH as (_ & _ & H1).
    rewrite Forall_forall in H1. now apply H1.
  Qed.

  (** The number of turns that may be needed. *)
  Definition mu (it : iiter) (w : list work) : nat := List.length (ii_stack it) + List.length w.
  Definition fresh (it : iiter) : Prop := exists i st, ii_stack it = ts_new i :: st.

  Definition ioutcome it w it' (o : option (option Index)) : Prop :=
    match o with
    | None => exists w', ii_ok it' w' /\ iremains it' w' = iremains it w /\ ~ fresh it /\ (mu it' w' < mu it w \/ fresh it')
    | Some None => iremains it w = [] /\ ii_stack it = [] /\ it' = it
    | Some (Some c) => exists w', ii_ok it' w' /\ iremains it w = c :: iremains it' w'
    end.

  Lemma istep_ok it w : ii_ok it w -> exists it' o, rd (istep it) (fun s => avail_branches s g) (it', o) /\ ioutcome it w it' o.
  Proof.
    intros Ho. pose proof Ho as (E1 & E2 & E3 & Ht & He). destruct (ii_stack it) as [|h st] eqn:Est.
    { exists it, (Some None). unfold istep. rewrite Est. split; [apply rd_ret|]. inversion Ht; subst. easy. }
    inversion Ht as [|t st0 w0 Hs Hb Eh Ew|x cs f n st0 w0 Hs Hl Hne Hn Hb Eh Ew]; subst h st0 w.
    - (* a fresh node *)
      pose proof (sub_repr _ _ _ _ Rg Hs) as Rt. rewrite wcnt_cons in He.
      assert (He' : enough m (ii_off it) (cnt t)) by (eapply enough_le; [exact He|lia]).
      unfold istep. rewrite Est, E2, new_not_exhausted. cbn [ts_index ts_new ts_filter ts_pos is_nil andb].
      change (icount (root_ix t)) with (cnt t).
      assert (Hleaf : nodes (fst (range_at m (ii_off it) (cnt t))) t = [root_ix t] ->
        exists it' o,
          rd (mbind (move_off m (ii_off it) (cnt t)) (fun off =>
                ret (ii_set it off (ascend m (ts_new (root_ix t) :: st)), Some (Some (root_ix t))))) (fun s => avail_branches s g) (it', o)
          /\ ioutcome it ((true, t) :: w0) it' o).
      { intros Hi. eexists _, (Some (Some _)). split.
        - eapply rd_bind; [apply (rf_move_off sec)|apply stable_avail_branches|now apply rd_move_off|]. apply rd_ret.
        - cbn [ioutcome]. exists w0. split.
          + eapply ii_ok_set; [exact Ho|now apply ascend_top|]. now apply enough_moved.
          + unfold iremains. cbn [irem snd ii_set ii_off]. unfold ind. cbn [fst snd]. rewrite Hi. reflexivity. }
      destruct t as [x vs|x|x cs|x]; cbn [root_ix node_info_of].
      + destruct (repr_leaf_avail _ _ _ _ Rt) as (l & z & El & _). rewrite El. apply Hleaf. reflexivity.
      + cbn in Rt. rewrite Rt. apply Hleaf. reflexivity.
      + clear Hleaf. destruct (repr_branch_load _ _ _ _ Rt) as (l & r & El & Hld & Hch & _ & _ & _ & Hne & Hlev). rewrite El.
        apply repr_branch in Rt as (_ & Hcnt & Hlen & _). rewrite E1, E3.
        destruct (Hld (fun s => avail_branches s g)) as [Hld' _].
        { intros s A. eapply sub_avail_b; eauto. }
        set (a := fst (range_at m (ii_off it) (cnt (TBranch x cs)))) in *.
        assert (Hstart : rd (match m with Forward => ret (ii_off it) | Backward => move_off Backward (ii_off it) (bi_count x) end) (fun s => avail_branches s g) a).
        { subst a. destruct m; [apply rd_ret|]. now apply rd_move_off with (m := Backward). }
        assert (Hrf : forall a0, frame (rext key) (match m with Forward => ret (ii_off it) | Backward => move_off Backward (ii_off it) a0 end)).
        { intros a0. destruct m; [apply rf_ret|apply (rf_move_off sec)]. }
        pose proof (branch_mask_length q Hq a x) as Hml. rewrite Hlen in Hml.
        eexists _, (Some (Some _)). split.
        * eapply rd_bind; [apply rf_load_branch_cached|apply stable_avail_branches|exact Hld'|].
          eapply rd_bind; [apply Hrf|apply stable_avail_branches|exact Hstart|].
          fold (branch_mask q a x). cbn [br_children]. rewrite map_length, Hml, Nat.eqb_refl. cbn [negb]. apply rd_ret.
        * cbn [ioutcome]. exists (pend m (first m (List.length cs)) (branch_mask q a x) cs ++ w0).
          assert (Hwc : wcnt (combine (branch_mask q a x) cs) = cnt (TBranch x cs)) by (rewrite wcnt_combine by easy; symmetry; exact Hcnt).
          assert (Hwp : wcnt (pend m (first m (List.length cs)) (branch_mask q a x) cs) = cnt (TBranch x cs)).
          { rewrite pend_first, wcnt_ordered by easy. exact Hwc. }
          split.
          -- eapply ii_ok_set; [exact Ho| |].
             ++ replace (first_pos m (List.length cs)) with (pos m (first m (List.length cs))) by now destruct m.
                fold (frame_at x (pos m (first m (List.length cs))) (branch_mask q a x)). apply (top_frame m g x cs); auto. apply first_le.
             ++ rewrite wcnt_app, Hwp. exact He.
          -- unfold iremains. cbn [ii_set ii_off]. cbn [irem snd]. unfold ind. cbn [fst snd]. fold a.
             rewrite nodes_branch. cbn [app]. f_equal. rewrite irem_app, Hwp, pend_first by easy.
             rewrite irem_ordered by (rewrite Hwc; exact He'). now rewrite Hwc.
      + cbn in Rt. rewrite Rt. apply Hleaf. reflexivity.
    - (* a branch in progress *)
      assert (Hnil : is_nil f = false) by (destruct f; [destruct cs; [congruence|discriminate]|easy]).
      assert (Hnf : ~ fresh it).
      { intros (i & st' & Ef). rewrite Est in Ef. injection Ef as _ _ Ef _. now rewrite Ef in Hnil. }
      destruct (exhausted m (frame_at x (pos m n) f)) eqn:Hx.
      { pose proof (is_exhausted _ _ _ _ _ Hl Hn Hx) as Hp. rewrite Hp in *. cbn [app] in *.
        eexists _, None. split.
        - unfold istep. rewrite Est, E2, Hx. apply rd_ret.
        - cbn [ioutcome]. exists w0. split; [eapply ii_ok_set; [exact Ho|now apply ascend_top|exact He]|]. split; [easy|]. split; [exact Hnf|].
          left. unfold mu. cbn [ii_set ii_stack]. rewrite Est. destruct st; cbn [ascend List.length]; lia. }
      pose proof (sub_repr _ _ _ _ Rg Hs) as Rt.
      pose proof (not_exhausted m x f cs n Hl Hne Hn Hx) as Hlive.
      destruct (repr_branch_load _ _ _ _ Rt) as (l & r & El & Hld & Hch & _ & _ & _ & _ & Hlev).
      destruct (pend_cons m _ f cs Hl Hlive) as (b & c & P1 & P2 & P3 & P4 & P5 & P6 & P7).
      assert (Hsc : sub g c) by (eapply sub_step; eauto).
      destruct (Hld (fun s => avail_branches s g)) as [Hld' _].
      { intros s A. eapply sub_avail_b; eauto. }
      unfold istep. rewrite Est, E2, Hx. cbn [ts_index frame_at ts_filter ts_pos node_info_of]. rewrite El, Hnil.
      assert (He' : enough m (ii_off it) (cnt c)).
      { eapply enough_le; [exact He|]. rewrite wcnt_app, P5, wcnt_cons. lia. }
      destruct b.
      + eexists _, None. split.
        * rewrite E1. eapply rd_bind; [apply rf_load_branch_cached|apply stable_avail_branches|exact Hld'|].
          eapply rd_bind; [apply (rf_at_pos sec)|apply stable_avail_branches|apply rd_at_pos; eassumption|].
          eapply rd_bind; [apply (rf_at_pos sec)|apply stable_avail_branches|apply rd_at_pos; [exact P1|cbn [br_children]; apply map_nth_error; exact P3]|].
          apply rd_ret.
        * cbn [ioutcome]. exists ((true, c) :: pend m (adv m n) f cs ++ w0). split; [|split; [|split; [exact Hnf|]]].
          -- eapply ii_ok_set; [exact Ho| |].
             ++ fold (frame_at x (pos m n) f). apply (top_fresh m g c); [exact Hsc|]. eapply (below_cons m g x cs f); eauto.
             ++ rewrite wcnt_app, P5, wcnt_cons in He. rewrite wcnt_cons, wcnt_app. eapply enough_le; [exact He|lia].
          -- unfold iremains. cbn [ii_set ii_off]. now rewrite P5.
          -- right. unfold fresh. cbn [ii_set ii_stack]. eauto.
      + eexists _, None. split.
        * rewrite E1. eapply rd_bind; [apply rf_load_branch_cached|apply stable_avail_branches|exact Hld'|].
          eapply rd_bind; [apply (rf_at_pos sec)|apply stable_avail_branches|apply rd_at_pos; eassumption|].
          eapply rd_bind; [apply (rf_at_pos sec)|apply stable_avail_branches|apply rd_at_pos; [exact P1|cbn [br_children]; apply map_nth_error; exact P3]|].
          cbn iota. eapply rd_bind; [apply (rf_move_off sec)|apply stable_avail_branches|apply rd_move_off; exact He'|].
          apply rd_ret.
        * cbn [ioutcome]. exists (pend m (adv m n) f cs ++ w0). split; [|split; [|split; [exact Hnf|]]].
          -- eapply ii_ok_set; [exact Ho| |].
             ++ fold (frame_at x (pos m n) f).
                destruct (next_pos_frame m x _ _ _ Hl Hlive) as [-> H5]. constructor; auto.
             ++ rewrite wcnt_app, P5, wcnt_cons in He. rewrite wcnt_app. apply enough_moved. eapply enough_le; [exact He|unfold cnt; lia].
          -- unfold iremains. rewrite P5. cbn [app irem snd ii_set ii_off]. reflexivity.
          -- left. unfold mu. cbn [ii_set ii_stack]. rewrite Est, P5. cbn [app List.length]. lia.
  Qed.

  (** ** The loop *)

  Definition igot (it : iiter) (w : list work) (r : option (res Index)) (it' : iiter) : Prop :=
    (exists c w', r = Some (Ok c) /\ ii_ok it' w' /\ iremains it w = c :: iremains it' w')
    \/ (r = None /\ iremains it w = [] /\ ii_stack it' = [])
    \/ (exists e w', r = Some (Err e) /\ ii_ok it' w' /\ iremains it w = iremains it' w').

  Lemma iloop_ok fuel : forall it w wd r it' wd', ii_ok it w -> (fresh it /\ 1 <= fuel \/ mu it w + 2 <= fuel) ->
    wok key wd -> iloop fuel it wd = (r, it', wd') ->
    igot it w r it' /\ (ReliableReads T B -> avail_branches (w_store wd) g -> forall e, r <> Some (Err e)).
  Proof.
    induction fuel as [|fuel IH]; intros it w wd r it' wd' Ho Hf W E0; [destruct Hf as [[_ Hf]|Hf]; lia|]. cbn [iloop] in E0.
    destruct (istep_ok _ _ Ho) as (it1 & o & Hrd & Hout).
    destruct (istep it wd) as [r1 wd1] eqn:Et.
    assert (Es : ii_sec it = sec) by apply Ho.
    pose proof (rf_istep sec it Es _ _ _ Et) as Fr.
    destruct (Hrd _ _ _ W Et) as [[->|[e ->]] Hrel].
    - destruct o as [[c|]|]; cbn [ioutcome] in Hout.
      + injection E0 as <- <- <-. destruct Hout as (w' & H1 & H2). split; [left; eauto|]. discriminate.
      + injection E0 as <- <- <-. destruct Hout as (H1 & H2 & ->). split; [right; left; auto|]. discriminate.
      + destruct Hout as (w' & H1 & H2 & H3 & H4).
        eapply IH in E0 as [G1 G2]; [|exact H1| |now apply Fr].
        * split; [unfold igot in *; rewrite <- H2; exact G1|]. intros Re A. apply G2; [exact Re|]. eapply stable_avail_branches; [apply Fr|exact A].
        * destruct Hf as [[Hf _]|Hf]; [easy|]. destruct H4 as [H4|H4]; [right; lia|left; split; [easy|lia]].
    - injection E0 as <- <- <-. split; [right; right; cbn; eauto 6|]. intros Re A. discriminate (Hrel Re A).
  Qed.

  Lemma pend_length n f cs : List.length (pend m n f cs) <= List.length f.
  Proof.
    destruct m; cbn [pend].
    - pose proof (combine_length (skipn n f) (skipn n cs)) as H. rewrite skipn_length in H. unfold work in *. lia.
    - rewrite rev_length. pose proof (combine_length (firstn n f) (firstn n cs)) as H. rewrite firstn_length in H. unfold work in *. lia.
  Qed.
  Lemma below_length st w : below m g st w -> List.length w <= sum_nat (map (fun s => List.length (ts_filter s)) st).
  Proof.
    induction 1 as [|x cs f n st w H1 H2 H3 H4 IH]; cbn [List.length]; [lia|]. rewrite app_length. unfold sum_nat in *. cbn [map fold_right ts_filter frame_at].
    pose proof (pend_length (adv m n) f cs). lia.
  Qed.

  Lemma iturns_ok it w : ii_ok it w -> fresh it /\ 1 <= iturns (ii_stack it) \/ mu it w + 2 <= iturns (ii_stack it).
  Proof.
    intros (_ & _ & _ & Ht & _). unfold fresh, mu, iturns. destruct Ht as [|t st w Hs Hb|x cs f n st w Hs Hl Hne Hn Hb].
    - right. cbn. lia.
    - left. split; [eauto|lia].
    - right. apply below_length in Hb. rewrite app_length. unfold sum_nat in *. cbn [map fold_right ts_filter frame_at List.length].
      pose proof (pend_length n f cs). lia.
  Qed.

  Lemma next_index_ok it w fo r fo' it' : ii_ok it w -> wok key {| w_store := fo_store fo; w_cache := fo_cache fo; w_off := 0; w_log := fo_log fo |} -> next_index fo (Some it) = (r, fo', it') ->
    ((exists c w' it1, r = Some (Ok c) /\ it' = Some it1 /\ ii_ok it1 w' /\ iremains it w = c :: iremains it1 w')
     \/ (exists it1, r = None /\ it' = Some it1 /\ iremains it w = [] /\ ii_stack it1 = [])
     \/ (exists e w' it1, r = Some (Err e) /\ it' = Some it1 /\ ii_ok it1 w' /\ iremains it w = iremains it1 w'))
    /\ (ReliableReads T B -> avail_branches (fo_store fo) g -> forall e, r <> Some (Err e)).
  Proof.
    intros Ho F. cbn [next_index]. destruct (iloop _ it _) as [[r1 it1] wd1] eqn:El. intros [= <- <- <-].
    apply (iloop_ok _ it w) in El; [|exact Ho|now apply iturns_ok|exact F].
    destruct El as [[(c & w' & -> & H1 & H2)|[(-> & H1 & H2)|(e & w' & -> & H1 & H2)]] G].
    - split; [left; eauto 10|]. exact G.
    - split; [right; left; eauto 10|]. exact G.
    - split; [right; right; eauto 10|]. exact G.
  Qed.

  (** An iterator that has ended stays so. *)
  Lemma next_index_over it fo : ii_stack it = [] -> next_index fo (Some it) = (None, fo, Some it).
  Proof. intros H. cbn [next_index]. unfold iturns. cbn [iloop]. unfold istep. rewrite H. cbn. now destruct fo. Qed.
End IndexProofs.

Section Start.
  Context {T : Types} {TL : TypesLaws T} {X : Ext} {XL : ExtLaws X}
          {B : Backend T} {BL : BackendLaws T B}.
  Variable sec : Secrets.
  Variable q : Query.
  Variable g : tree.

  Lemma istart_fw : ii_ok sec q Forward g (ii_new sec q (root_ix g)) [(true, g)]
    /\ iremains q Forward (ii_new sec q (root_ix g)) [(true, g)] = nodes q Forward 0 g.
  Proof.
    split.
    - unfold ii_ok. cbn [ii_new ii_sec ii_mode ii_query ii_stack ii_off]. splits; auto.
      + apply top_fresh; constructor.
      + exact Logic.I.
    - unfold iremains. cbn. apply app_nil_r.
  Qed.
  Lemma istart_bw : ii_ok sec q Backward g (ii_new_rev sec q (root_ix g)) [(true, g)]
    /\ iremains q Backward (ii_new_rev sec q (root_ix g)) [(true, g)] = nodes q Backward 0 g.
  Proof.
    split.
    - unfold ii_ok. cbn [ii_new_rev ii_sec ii_mode ii_query ii_stack ii_off]. splits; auto.
      + apply top_fresh; constructor.
      + unfold wcnt, cnt, sum_nat. cbn [map snd fold_right enough]. lia.
    - unfold iremains. cbn [irem ii_new_rev ii_off snd ind fst range_at]. fold (cnt g). rewrite Nat.sub_diag. apply app_nil_r.
  Qed.
End Start.

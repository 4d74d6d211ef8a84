(** The iterators return what the tree says. *)
From Coq Require Import List NArith ZArith Lia Bool String Arith.
From Verif Require Import Base BaseProofs Cbor Types Seq SeqProofs Query QuerySpec World Read Write Api Iter History Spec IterSpec Ghost Frame IterFrame ReadProofs QueryProofs.
Import ListNotations.

Section IterProofs.
  Context {T : Types} {TL : TypesLaws T} {X : Ext} {XL : ExtLaws X}
          {B : Backend T} {BL : BackendLaws T B}.
  Variable sec : Secrets.
  Notation key := (index_key sec).

  Definition cnt (t : tree) : nat := icount (root_ix t).

  (** ** Parts of a tree *)

  Inductive sub (g : tree) : tree -> Prop :=
  | sub_refl : sub g g
  | sub_step x cs c : sub g (TBranch x cs) -> In c cs -> sub g c.

  Lemma sub_repr lim g t : repr sec lim g -> sub g t -> repr sec lim t.
  Proof.
    intros R. induction 1 as [|x cs c H IH Hin]; [easy|].
    destruct (repr_branch_load _ _ _ _ IH) as (l & r & _ & _ & _ & _ & _ & H1 & _).
    rewrite Forall_forall in H1. now apply H1.
  Qed.
  Lemma sub_avail s g t : avail s g -> sub g t -> avail s t.
  Proof.
    intros R. induction 1 as [|x cs c H IH Hin]; [easy|]. apply avail_branch in IH as (_ & _ & H1).
    rewrite Forall_forall in H1. now apply H1.
  Qed.
  Lemma sub_avail_branches s g t : avail_branches s g -> sub g t -> avail_branches s t.
  Proof.
    intros R. induction 1 as [|x cs c H IH Hin]; [easy|]. apply avail_branches_branch in IH as (_ & _ & H1).
    rewrite Forall_forall in H1. now apply H1.
  Qed.
  Lemma sub_inv (cfg : Setting) g t : inv cfg g -> sub g t -> inv cfg t.
  Proof.
    intros R. induction 1 as [|x cs c H IH Hin]; [easy|]. apply invs_branch in IH as (_ & _ & _ & _ & H1).
    rewrite Forall_forall in H1. now apply H1.
  Qed.

  (** ** What is left to do *)

  Definition work : Type := bool * tree.
  Definition wcnt (w : list work) : nat := sum_nat (map (fun p => cnt (snd p)) w).

  Lemma wcnt_app a b : wcnt (a ++ b) = wcnt a + wcnt b.
  Proof. unfold wcnt. now rewrite map_app, sum_nat_app. Qed.
  Lemma wcnt_rev a : wcnt (rev a) = wcnt a.
  Proof. induction a as [|x a IH]; cbn [rev]; [easy|]. rewrite wcnt_app, IH. unfold wcnt, sum_nat. cbn [map fold_right]. lia. Qed.
  Lemma wcnt_cons b t w : wcnt ((b, t) :: w) = cnt t + wcnt w.
  Proof. reflexivity. Qed.
  Lemma wcnt_combine (f : list bool) cs : List.length f = List.length cs ->
    wcnt (combine f cs) = sum_nat (map icount (map root_ix cs)).
  Proof.
    revert cs. induction f as [|b f IH]; intros [|c cs] E; try discriminate; [easy|].
    cbn [combine map sum_nat fold_right]. rewrite wcnt_cons, IH by (cbn in E; lia). reflexivity.
  Qed.

  Definition ordered {A} (m : mode) (l : list A) : list A := match m with Forward => l | Backward => rev l end.

  (** The children from position [n] on ([Forward]), or up to it ([Backward]). *)
  Definition pend (m : mode) (n : nat) (f : list bool) (cs : list tree) : list work :=
    match m with
    | Forward => combine (skipn n f) (skipn n cs)
    | Backward => rev (combine (firstn n f) (firstn n cs))
    end.
  Definition pos (m : mode) (n : nat) : Z := match m with Forward => Z.of_nat n | Backward => Z.of_nat n - 1 end.
  Definition adv (m : mode) (n : nat) : nat := match m with Forward => S n | Backward => n - 1 end.
  Definition live (m : mode) (n len : nat) : Prop := match m with Forward => n < len | Backward => 0 < n <= len end.
  Definition first (m : mode) (len : nat) : nat := match m with Forward => 0 | Backward => len end.

  Lemma skipn_nth {A} n : forall (l : list A) a, nth_error l n = Some a -> skipn n l = a :: skipn (S n) l.
  Proof. induction n as [|n IH]; intros [|x l] a E; try discriminate; cbn in *; [congruence|]. now apply IH. Qed.
  Lemma firstn_nth {A} n : forall (l : list A) a, nth_error l n = Some a -> firstn (S n) l = firstn n l ++ [a].
  Proof. induction n as [|n IH]; intros [|x l] a E; try discriminate; cbn in *; [congruence|]. f_equal. now apply IH. Qed.
  Lemma combine_app_len {A C} (a a' : list A) (c c' : list C) : List.length a = List.length c ->
    combine (a ++ a') (c ++ c') = combine a c ++ combine a' c'.
  Proof. revert c. induction a as [|x a IH]; intros [|y c] E; try discriminate; cbn; [easy|]. f_equal. apply IH. now injection E. Qed.

  Lemma pend_cons m n f cs : List.length f = List.length cs -> live m n (List.length cs) ->
    exists b c, (0 <= pos m n)%Z /\ nth_error f (Z.to_nat (pos m n)) = Some b
      /\ nth_error cs (Z.to_nat (pos m n)) = Some c /\ In c cs
      /\ pend m n f cs = (b, c) :: pend m (adv m n) f cs /\ adv m n <= List.length cs
      /\ (match m with Forward => pos m n + 1 | Backward => pos m n - 1 end = pos m (adv m n))%Z.
  Proof.
    intros El Hl. destruct m; cbn [pend pos adv live] in *.
    - destruct (nth_error f n) as [b|] eqn:E1; [|apply nth_error_None in E1; lia].
      destruct (nth_error cs n) as [c|] eqn:E2; [|apply nth_error_None in E2; lia].
      exists b, c. rewrite Nat2Z.id. splits; auto; try lia; [eapply nth_error_In; eauto|].
      rewrite (skipn_nth _ _ _ E1), (skipn_nth _ _ _ E2). reflexivity.
    - destruct n as [|n]; [lia|]. replace (Z.to_nat (Z.of_nat (S n) - 1)) with n by lia.
      replace (S n - 1) with n by lia.
      destruct (nth_error f n) as [b|] eqn:E1; [|apply nth_error_None in E1; lia].
      destruct (nth_error cs n) as [c|] eqn:E2; [|apply nth_error_None in E2; lia].
      exists b, c. splits; auto; try lia; [eapply nth_error_In; eauto|].
      rewrite (firstn_nth _ _ _ E1), (firstn_nth _ _ _ E2).
      rewrite combine_app_len by (rewrite !firstn_length; lia). cbn [combine]. rewrite rev_app_distr. reflexivity.
  Qed.
  Lemma pend_first m f cs : List.length f = List.length cs ->
    pend m (first m (List.length cs)) f cs = ordered m (combine f cs).
  Proof.
    intros E. destruct m; cbn [pend first ordered skipn]; [easy|]. f_equal. f_equal; [rewrite <- E|]; apply firstn_all.
  Qed.

  (** ** The stack *)

  Definition frame_at (x : BranchIndex) (p : Z) (f : list bool) : tstate :=
    {| ts_index := IBranch x; ts_pos := p; ts_filter := f |}.

  Section Stack.
    Variable m : mode.
    Variable g : tree.

    Inductive below : list tstate -> list work -> Prop :=
    | below_nil : below [] []
    | below_cons x cs f n st w :
        sub g (TBranch x cs) -> List.length f = List.length cs -> live m n (List.length cs) -> below st w ->
        below (frame_at x (pos m n) f :: st) (pend m (adv m n) f cs ++ w).

    Inductive top : list tstate -> list work -> Prop :=
    | top_nil : top [] []
    | top_fresh t st w : sub g t -> below st w -> top (ts_new (root_ix t) :: st) ((true, t) :: w)
    | top_frame x cs f n st w :
        sub g (TBranch x cs) -> List.length f = List.length cs -> cs <> [] -> n <= List.length cs -> below st w ->
        top (frame_at x (pos m n) f :: st) (pend m n f cs ++ w).

    Lemma live_ne n (cs : list tree) : live m n (List.length cs) -> cs <> [].
    Proof. destruct cs, m; cbn; [lia|lia|easy|easy]. Qed.

    Lemma next_pos_frame x f (cs : list tree) n : List.length f = List.length cs -> live m n (List.length cs) ->
      next_pos m (frame_at x (pos m n) f) = frame_at x (pos m (adv m n)) f /\ adv m n <= List.length cs.
    Proof.
      intros E Hl. destruct (pend_cons m n f cs E Hl) as (b & c & _ & _ & _ & _ & _ & H1 & H2).
      split; [|easy]. unfold next_pos, frame_at. cbn. now rewrite <- H2.
    Qed.

    Lemma ascend_top h st w : below st w -> top (ascend m (h :: st)) w.
    Proof.
      intros H. destruct H as [|x cs f n st w H1 H2 H3 H4]; [constructor|]. cbn [ascend].
      destruct (next_pos_frame x _ _ _ H2 H3) as [-> H5]. constructor; auto. now apply (live_ne n).
    Qed.

    Lemma not_exhausted x f (cs : list tree) n : List.length f = List.length cs -> cs <> [] -> n <= List.length cs ->
      exhausted m (frame_at x (pos m n) f) = false -> live m n (List.length cs).
    Proof.
      intros E Hne Hn. unfold exhausted, frame_at, pos, live. cbn [ts_filter ts_pos]. destruct m.
      - destruct f as [|b f]; [destruct cs; [congruence|discriminate]|]. cbn [is_nil negb andb].
        rewrite Z.leb_gt. lia.
      - rewrite Z.ltb_ge. lia.
    Qed.
    Lemma is_exhausted x f (cs : list tree) n : List.length f = List.length cs -> n <= List.length cs ->
      exhausted m (frame_at x (pos m n) f) = true -> pend m n f cs = [].
    Proof.
      intros E Hn. unfold exhausted, frame_at, pos, pend. cbn [ts_filter ts_pos]. destruct m.
      - rewrite andb_true_iff, Z.leb_le. intros [_ H]. now rewrite !skipn_all2 by lia.
      - rewrite Z.ltb_lt. intros H. replace n with 0 by lia. reflexivity.
    Qed.
    Lemma new_not_exhausted i : exhausted m (ts_new i) = false.
    Proof. now destruct m. Qed.
  End Stack.

  (** ** The chunks of a tree *)

  Section Chunks.
    Context {E : Type}.
    Variable q : Query.
    Variable mk : node_info -> E.
    Hypothesis Hq : q_sized q.

    Definition skip_chunk (off : nat) (t : tree) : chunk E :=
      {| c_range := (off, off + cnt t); c_data := []; c_extra := mk (node_info_of (root_ix t)) |}.

    Definition leaf_mask (off : nat) (x : LeafIndex) : list bool :=
      q_containing q off x (repeat true (List.length (leaf_keys x))).
    Definition branch_mask (off : nat) (x : BranchIndex) : list bool :=
      q_intersecting q off x (repeat true (List.length (branch_sums x))).

    Definition leaf_data (off : nat) (x : LeafIndex) (vs : list V) : list (nat * K * V) :=
      let m := leaf_mask off x in
      combine (combine (mask_select m (seq off (List.length m))) (mask_select m (leaf_keys x))) (mask_select m vs).

    Fixpoint chunks (off : nat) (t : tree) : list (chunk E) :=
      match t with
      | TLeaf x vs =>
          [{| c_range := (off, off + List.length (leaf_keys x)); c_data := leaf_data off x vs;
              c_extra := mk (node_info_of (ILeaf x)) |}]
      | TBranch x cs =>
          let f := branch_mask off x in
          if any f then
            (fix go (off : nat) (f : list bool) (cs : list tree) {struct cs} : list (chunk E) :=
               match f, cs with
               | b :: f', c :: cs' =>
                   (if b then chunks off c else [skip_chunk off c]) ++ go (off + cnt c) f' cs'
               | _, _ => []
               end) off f cs
          else [skip_chunk off t]
      | _ => [skip_chunk off t]
      end.

    Definition ich (off : nat) (p : work) : list (chunk E) :=
      if fst p then chunks off (snd p) else [skip_chunk off (snd p)].
    Fixpoint fw (off : nat) (w : list work) : list (chunk E) :=
      match w with
      | [] => []
      | p :: w' => ich off p ++ fw (off + cnt (snd p)) w'
      end.

    Lemma chunks_branch off x cs : chunks off (TBranch x cs) =
      let f := branch_mask off x in if any f then fw off (combine f cs) else [skip_chunk off (TBranch x cs)].
    Proof.
      cbn [chunks]. destruct (any (branch_mask off x)); [|easy]. generalize (branch_mask off x). intros f. revert off cs.
      induction f as [|b f IH]; intros off [|c cs]; cbn [fw combine]; auto. unfold ich at 1. cbn [fst snd].
      now rewrite IH.
    Qed.

    Lemma fw_app off a b : fw off (a ++ b) = fw off a ++ fw (off + wcnt a) b.
    Proof.
      revert off. induction a as [|[b0 t] a IH]; intros off; cbn [app fw].
      - now rewrite Nat.add_0_r.
      - rewrite IH, app_assoc. cbn [snd]. f_equal. f_equal. rewrite wcnt_cons. lia.
    Qed.

    (** Remaining items, for an iterator at offset [off]. *)
    Fixpoint bw (off : nat) (w : list work) : list (chunk E) :=
      match w with
      | [] => []
      | p :: w' => rev (ich (off - cnt (snd p)) p) ++ bw (off - cnt (snd p)) w'
      end.
    Definition rem (m : mode) (off : nat) (w : list work) : list (chunk E) :=
      match m with Forward => fw off w | Backward => bw off w end.
    Definition moved (m : mode) (off n : nat) : nat := match m with Forward => off + n | Backward => off - n end.
    Definition enough (m : mode) (off n : nat) : Prop := match m with Forward => True | Backward => n <= off end.

    Lemma enough_le m off n n' : enough m off n -> n' <= n -> enough m off n'.
    Proof. destruct m; cbn; lia. Qed.
    Lemma enough_moved m off a b : enough m off (a + b) -> enough m (moved m off a) b.
    Proof. destruct m; cbn; lia. Qed.
    Lemma moved_moved m off a b : moved m (moved m off a) b = moved m off (a + b).
    Proof. destruct m; cbn; lia. Qed.

    Lemma rem_cons m off p w : rem m off (p :: w) =
      ordered m (ich (fst (range_at m off (cnt (snd p)))) p) ++ rem m (moved m off (cnt (snd p))) w.
    Proof. now destruct m. Qed.

    Lemma bw_app off a b : bw off (a ++ b) = bw off a ++ bw (off - wcnt a) b.
    Proof.
      revert off. induction a as [|[b0 t] a IH]; intros off; cbn [app bw].
      - now rewrite Nat.sub_0_r.
      - rewrite IH, app_assoc. cbn [snd]. f_equal. f_equal. rewrite wcnt_cons. lia.
    Qed.
    Lemma bw_rev w : forall off, wcnt w <= off -> bw off (rev w) = rev (fw (off - wcnt w) w).
    Proof.
      induction w as [|[b t] w IH]; intros off H; cbn [rev fw]; [easy|]. rewrite wcnt_cons in *.
      rewrite bw_app, rev_app_distr, wcnt_rev, IH by lia. cbn [bw snd].
      rewrite app_nil_r. f_equal; [|f_equal; f_equal; lia]. f_equal. f_equal. lia.
    Qed.

    Lemma rem_ordered m off a w : enough m off (wcnt a) ->
      rem m off (ordered m a ++ w) =
      ordered m (fw (fst (range_at m off (wcnt a))) a) ++ rem m (moved m off (wcnt a)) w.
    Proof.
      destruct m; cbn [rem ordered enough moved range_at fst]; intros H; [apply fw_app|].
      rewrite bw_app, wcnt_rev, bw_rev by easy. reflexivity.
    Qed.

    (** ** The iterator *)

    Variable g : tree.
    Variable lim : N.
    Hypothesis Rg : repr sec lim g.
    Notation rd := (rd sec).

    Definition it_ok (m : mode) (it : titer E) (w : list work) : Prop :=
      ti_sec it = sec /\ ti_mode it = m /\ ti_query it = q /\ ti_extra it = mk
      /\ top m g (ti_stack it) w /\ enough m (ti_off it) (wcnt w).
    Definition remains (m : mode) (it : titer E) (w : list work) : list (chunk E) := rem m (ti_off it) w.

    Lemma rd_move_off m off n P : enough m off n -> rd (move_off m off n) P (moved m off n).
    Proof.
      destruct m; cbn [enough move_off moved]; intros H; [apply rd_ret|].
      destruct (Nat.ltb_spec off n); [lia|]. apply rd_ret.
    Qed.
    Lemma rd_at_pos {A} (l : list A) p a P : (0 <= p)%Z -> nth_error l (Z.to_nat p) = Some a -> rd (at_pos l p) P a.
    Proof.
      intros H En. unfold at_pos. destruct (Z.ltb_spec p 0); [lia|]. rewrite En. apply rd_ret.
    Qed.
    Lemma leaf_mask_length off x : List.length (leaf_mask off x) = List.length (leaf_keys x).
    Proof. unfold leaf_mask. rewrite (qs_leaf _ Hq); rewrite repeat_length; reflexivity. Qed.
    Lemma branch_mask_length off x : List.length (branch_mask off x) = List.length (branch_sums x).
    Proof. unfold branch_mask. rewrite (qs_branch _ Hq); rewrite repeat_length; reflexivity. Qed.

    Lemma rd_visit_leaf (it : titer E) range x vs l : ti_sec it = sec -> ti_extra it = mk -> sub g (TLeaf x vs) ->
      li_link x = Some l -> snd range = fst range + List.length (leaf_keys x) ->
      rd (visit_leaf it range x l (leaf_mask (fst range) x)) (fun s => avail s g)
         {| c_range := range; c_data := leaf_data (fst range) x vs; c_extra := mk (node_info_of (ILeaf x)) |}.
    Proof.
      intros Es Ek Hs El Hr. unfold visit_leaf. rewrite Es, Ek.
      replace (node_info_of (ILeaf x)) with (NLeaf x l) by (cbn; now rewrite El).
      destruct (repr_leaf_avail _ _ _ _ (sub_repr _ _ _ Rg Hs)) as (l' & z & El' & Hz & Z1 & Z2 & Z3).
      rewrite El in El'. injection El' as <-.
      assert (Ha : forall s, avail s g -> avail s (TLeaf x vs)) by (intros s A; eapply sub_avail; eauto).
      assert (Hz' : rd (load_leaf_from_link sec l) (fun s => avail s g) z) by (eapply rd_weaken; [exact Ha|exact Hz]).
      eapply rd_bind with (a := leaf_data (fst range) x vs); [|apply stable_avail| |apply rd_ret].
      - destruct (any _); [|apply rf_ret]. apply rf_bind; [apply rf_load_leaf_from_link|]. intros z0.
        apply rf_bind; [apply rf_lift|]. intros; apply rf_ret.
      - unfold leaf_data. set (m := leaf_mask (fst range) x).
        destruct (any m) eqn:Em.
        + eapply rd_bind; [apply rf_load_leaf_from_link|apply stable_avail|exact Hz'|].
          pose proof (zs_select_spec z vs m Z1 Z3) as Hsel. change (existsb (fun b : bool => b) m) with (any m) in Hsel.
          rewrite Em, orb_false_r in Hsel. destruct (fits (vals_raw vs)) eqn:Ef; rewrite Hsel.
          * eapply rd_mbind_lift; [left; reflexivity|reflexivity|]. apply rd_ret.
          * eapply rd_mbind_lift with (a := mask_select m vs); [right; eauto| |apply rd_ret].
            intros s A. apply Ha in A. cbn in A. destruct A as [_ A]. congruence.
        + replace (mask_select m (seq _ _)) with (@nil nat); [apply rd_ret|]. symmetry. apply mask_select_false.
          intros b Hb. destruct b; [|easy]. exfalso.
          assert (any m = true) by (unfold any; apply existsb_exists; exists true; auto). congruence.
    Qed.

    (** Leaving an exhausted branch. *)
    Lemma tstep_exhausted m it w h st : it_ok m it w -> ti_stack it = h :: st -> exhausted m h = true ->
      tstep it = ret (ti_set it (ti_off it) (ascend m (h :: st)), None)
      /\ exists w', it_ok m (ti_set it (ti_off it) (ascend m (h :: st))) w' /\ remains m (ti_set it (ti_off it) (ascend m (h :: st))) w' = remains m it w.
    Proof.
      intros (E1 & E2 & E3 & E4 & Ht & He) Est Hx. split.
      - unfold tstep. rewrite Est, E2, Hx. reflexivity.
      - rewrite Est in Ht. inversion Ht; subst.
        + rewrite new_not_exhausted in Hx. discriminate.
        + pose proof (is_exhausted _ _ _ _ _ H2 H4 Hx) as Hp. rewrite Hp in *. cbn [app] in *.
          exists w0. split; [|reflexivity]. unfold it_ok. cbn [ti_set ti_sec ti_mode ti_query ti_extra ti_stack ti_off].
          splits; auto. now apply ascend_top.
    Qed.

    Definition outcome m it w it' (o : option (option (chunk E))) (h : tstate) : Prop :=
      match o with
      | None => exists w' i st', ti_stack it' = ts_new i :: st' /\ ilevel i < ilevel (ts_index h)
                  /\ it_ok m it' w' /\ remains m it' w' = remains m it w
      | Some None => False
      | Some (Some c) => exists w', it_ok m it' w' /\ remains m it w = c :: remains m it' w'
      end.

    Lemma it_ok_set m it w off st w' : it_ok m it w -> top m g st w' -> enough m off (wcnt w') ->
      it_ok m (ti_set it off st) w'.
    Proof. intros (E1 & E2 & E3 & E4 & _) H1 H2. unfold it_ok. cbn. splits; auto. Qed.

    Lemma range_snd m off n : enough m off n -> snd (range_at m off n) = fst (range_at m off n) + n.
    Proof. destruct m; cbn; lia. Qed.

    Lemma skip_eq m (it : titer E) off t : ti_extra it = mk -> enough m off (cnt t) ->
      visit_skip it (range_at m off (cnt t)) (node_info_of (root_ix t)) = skip_chunk (fst (range_at m off (cnt t))) t.
    Proof.
      intros Ek H. unfold visit_skip, skip_chunk. rewrite Ek, <- range_snd by easy. now destruct (range_at _ _ _).
    Qed.

    Lemma ordered_one {A} m (a : A) : ordered m [a] = [a].
    Proof. now destruct m. Qed.

    (** A turn that skips the subtree on top of the stack. *)
    Lemma skip_turn m it w t st : it_ok m it ((true, t) :: w) -> ti_stack it = ts_new (root_ix t) :: st -> below m g st w ->
      ich (fst (range_at m (ti_off it) (cnt t))) (true, t) = [skip_chunk (fst (range_at m (ti_off it) (cnt t))) t] ->
      exists it', rd (mbind (move_off m (ti_off it) (cnt t)) (fun off =>
                        ret (ti_set it off (ascend m (ts_new (root_ix t) :: st)),
                             Some (Some (visit_skip it (range_at m (ti_off it) (cnt t)) (node_info_of (root_ix t)))))))
                     (fun s => avail s g)
                     (it', Some (Some (skip_chunk (fst (range_at m (ti_off it) (cnt t))) t)))
        /\ exists w', it_ok m it' w' /\ remains m it ((true, t) :: w) = skip_chunk (fst (range_at m (ti_off it) (cnt t))) t :: remains m it' w'.
    Proof.
      intros Ho Est Hb Hc. pose proof Ho as (E1 & E2 & E3 & E4 & Ht & He). rewrite wcnt_cons in He.
      assert (He' : enough m (ti_off it) (cnt t)) by (eapply enough_le; [exact He|lia]).
      eexists. split.
      - eapply rd_bind; [apply (rf_move_off sec)|apply stable_avail|now apply rd_move_off|]. rewrite skip_eq by easy. apply rd_ret.
      - exists w. split.
        + eapply it_ok_set; [exact Ho|now apply ascend_top|]. now apply enough_moved.
        + unfold remains. rewrite rem_cons. cbn [snd]. rewrite Hc, ordered_one. reflexivity.
    Qed.

    Lemma tstep_go m it w h st : it_ok m it w -> ti_stack it = h :: st -> exhausted m h = false ->
      exists it' o, rd (tstep it) (fun s => avail s g) (it', o) /\ outcome m it w it' o h.
    Proof.
      intros Ho Est Hx. pose proof Ho as (E1 & E2 & E3 & E4 & Ht & He).
      rewrite Est in Ht. inversion Ht as [|t st0 w0 Hs Hb Eh Ew|x cs f n st0 w0 Hs Hl Hne Hn Hb Eh Ew]; subst h st0 w.
      - (* a fresh node *)
        pose proof (sub_repr _ _ _ Rg Hs) as Rt. rewrite wcnt_cons in He.
        assert (He' : enough m (ti_off it) (cnt t)) by (eapply enough_le; [exact He|lia]).
        unfold tstep. rewrite Est, E2, Hx. cbn [ts_index ts_new ts_filter ts_pos is_nil andb].
        change (icount (root_ix t)) with (cnt t).
        destruct t as [x vs|x|x cs|x]; cbn [root_ix node_info_of].
        + destruct (repr_leaf_avail _ _ _ _ Rt) as (l & z & El & _). rewrite El.
          eexists _, (Some (Some _)). split.
          * eapply rd_bind; [| apply stable_avail | |].
            -- unfold visit_leaf. rewrite E1. apply rf_bind; [|intros; apply rf_ret]. destruct (any _); [|apply rf_ret].
               apply rf_bind; [apply rf_load_leaf_from_link|intros z0]. apply rf_bind; [apply rf_lift|intros; apply rf_ret].
            -- rewrite E3. apply rd_visit_leaf; eauto. now apply range_snd.
            -- eapply rd_bind; [apply (rf_move_off sec)|apply stable_avail|now apply rd_move_off|]. apply rd_ret.
          * cbn [outcome]. exists w0. split.
            -- eapply it_ok_set; [exact Ho|now apply ascend_top|]. now apply enough_moved.
            -- unfold remains. rewrite rem_cons. cbn [snd ich fst chunks]. rewrite ordered_one. cbn [app ti_set ti_off].
               f_equal. f_equal. rewrite <- (range_snd m _ (cnt (TLeaf x vs))) by easy. now destruct (range_at _ _ _).
        + cbn in Rt. rewrite Rt. destruct (skip_turn _ _ _ _ _ Ho Est Hb eq_refl) as (it' & H1 & H2).
          cbn [root_ix node_info_of] in H1. rewrite Rt in H1. eexists it', _. split; [exact H1|exact H2].
        + destruct (repr_branch_load _ _ _ _ Rt) as (l & r & El & Hld & Hch & _ & _ & _ & Hne & Hlev). rewrite El.
          apply repr_branch in Rt as (_ & Hcnt & Hlen & _). rewrite E3.
          fold (branch_mask (fst (range_at m (ti_off it) (cnt (TBranch x cs)))) x).
          pose proof (chunks_branch (fst (range_at m (ti_off it) (cnt (TBranch x cs)))) x cs) as Hcb.
          pose proof (branch_mask_length (fst (range_at m (ti_off it) (cnt (TBranch x cs)))) x) as Hml.
          set (f := branch_mask (fst (range_at m (ti_off it) (cnt (TBranch x cs)))) x) in *. cbn zeta in Hcb.
          destruct (any f) eqn:Ef; cbn [negb].
          * rewrite Hlen in Hml.
            assert (Hw : remains m it ((true, TBranch x cs) :: w0) = rem m (ti_off it) (pend m (first m (List.length cs)) f cs ++ w0)).
            { unfold remains. rewrite rem_cons, pend_first by easy. cbn [snd].
              assert (Hwc : wcnt (combine f cs) = cnt (TBranch x cs)) by (rewrite wcnt_combine by easy; symmetry; exact Hcnt).
              rewrite rem_ordered by (rewrite Hwc; exact He'). rewrite Hwc. unfold ich. cbn [fst snd]. now rewrite Hcb. }
            assert (Hlive : live m (first m (List.length cs)) (List.length cs)).
            { destruct cs; [congruence|]. destruct m; cbn; lia. }
            replace (first_pos m (List.length (branch_sums x))) with (pos m (first m (List.length cs))) by (rewrite Hlen; now destruct m).
            destruct (pend_cons m _ f cs Hml Hlive) as (b & c & P1 & P2 & P3 & P4 & P5 & P6 & P7).
            rewrite P5 in Hw. cbn [app] in Hw.
            assert (Hsc : sub g c) by (eapply sub_step; eauto).
            assert (Hwc : cnt (TBranch x cs) = cnt c + wcnt (pend m (adv m (first m (List.length cs))) f cs)).
            { replace (cnt (TBranch x cs)) with (wcnt (combine f cs)) by (rewrite wcnt_combine by easy; symmetry; exact Hcnt).
              rewrite <- wcnt_cons with (b := b), <- P5, pend_first by easy. destruct m; cbn [ordered]; now rewrite ?wcnt_rev. }
            destruct (Hld (fun s => avail s g)) as [Hld' _].
            { intros s A. apply avail_avail_branches. eapply sub_avail; eauto. }
            destruct b.
            -- eexists _, None. split.
               ++ rewrite E1. eapply rd_bind; [apply rf_load_branch_cached|apply stable_avail|exact Hld'|].
                  eapply rd_bind; [apply (rf_at_pos sec)|apply stable_avail|apply rd_at_pos; eassumption|].
                  eapply rd_bind; [apply (rf_at_pos sec)|apply stable_avail|apply rd_at_pos; [exact P1|cbn [br_children]; apply map_nth_error; exact P3]|].
                  apply rd_ret.
               ++ cbn [outcome]. eexists _, _, _. split; [reflexivity|]. split.
                  { rewrite Forall_forall in Hlev. now apply Hlev. }
                  split.
                  ** eapply it_ok_set; [exact Ho| |].
                     --- apply (top_fresh m g c); [exact Hsc|]. eapply (below_cons m g x cs f); eauto.
                     --- rewrite wcnt_cons, wcnt_app. rewrite Hwc in He. eapply enough_le; [exact He|lia].
                  ** unfold remains in *. cbn [ti_set ti_off]. now rewrite Hw.
            -- eexists _, (Some (Some _)). split.
               ++ rewrite E1. eapply rd_bind; [apply rf_load_branch_cached|apply stable_avail|exact Hld'|].
                  eapply rd_bind; [apply (rf_at_pos sec)|apply stable_avail|apply rd_at_pos; eassumption|].
                  eapply rd_bind; [apply (rf_at_pos sec)|apply stable_avail|apply rd_at_pos; [exact P1|cbn [br_children]; apply map_nth_error; exact P3]|].
                  cbn iota. eapply rd_bind; [apply (rf_move_off sec)|apply stable_avail|apply rd_move_off|].
                  { eapply enough_le; [exact He'|]. rewrite Hwc. unfold cnt. lia. }
                  apply rd_ret.
               ++ cbn [outcome]. exists (pend m (adv m (first m (List.length cs))) f cs ++ w0). split.
                  ** eapply it_ok_set; [exact Ho| |].
                     --- fold (frame_at x (pos m (first m (List.length cs))) f).
                         destruct (next_pos_frame m x _ _ _ Hml Hlive) as [-> H5]. constructor; auto.
                     --- rewrite wcnt_app. apply enough_moved. rewrite Hwc in He. eapply enough_le; [exact He|unfold cnt in *; lia].
                  ** rewrite Hw. unfold remains. rewrite rem_cons. cbn [snd ti_set ti_off]. unfold ich at 1. cbn [fst snd].
                     rewrite ordered_one. cbn [app]. f_equal. symmetry. apply skip_eq; auto.
                     eapply enough_le; [exact He'|]. rewrite Hwc. lia.
          * destruct (skip_turn _ _ _ _ _ Ho Est Hb) as (it' & H1 & H2).
            { unfold ich. cbn [fst snd]. exact Hcb. }
            cbn [root_ix node_info_of] in H1. rewrite El in H1. eexists it', _. split; [exact H1|exact H2].
        + cbn in Rt. rewrite Rt. destruct (skip_turn _ _ _ _ _ Ho Est Hb eq_refl) as (it' & H1 & H2).
          cbn [root_ix node_info_of] in H1. rewrite Rt in H1. eexists it', _. split; [exact H1|exact H2].
      - (* a branch in progress *)
        pose proof (sub_repr _ _ _ Rg Hs) as Rt.
        pose proof (not_exhausted m x f cs n Hl Hne Hn Hx) as Hlive.
        destruct (repr_branch_load _ _ _ _ Rt) as (l & r & El & Hld & Hch & _ & _ & _ & _ & Hlev).
        destruct (pend_cons m _ f cs Hl Hlive) as (b & c & P1 & P2 & P3 & P4 & P5 & P6 & P7).
        assert (Hsc : sub g c) by (eapply sub_step; eauto).
        destruct (Hld (fun s => avail s g)) as [Hld' _].
        { intros s A. apply avail_avail_branches. eapply sub_avail; eauto. }
        unfold tstep. rewrite Est, E2, Hx. cbn [ts_index frame_at ts_filter ts_pos node_info_of]. rewrite El.
        assert (Hnil : is_nil f = false) by (destruct f; [destruct cs; [congruence|discriminate]|easy]).
        rewrite Hnil. cbn [andb].
        assert (He' : enough m (ti_off it) (cnt c)).
        { eapply enough_le; [exact He|]. rewrite wcnt_app, P5, wcnt_cons. lia. }
        destruct b.
        + eexists _, None. split.
          * rewrite E1. eapply rd_bind; [apply rf_load_branch_cached|apply stable_avail|exact Hld'|].
            eapply rd_bind; [apply (rf_at_pos sec)|apply stable_avail|apply rd_at_pos; eassumption|].
            eapply rd_bind; [apply (rf_at_pos sec)|apply stable_avail|apply rd_at_pos; [exact P1|cbn [br_children]; apply map_nth_error; exact P3]|].
            apply rd_ret.
          * cbn [outcome]. eexists _, _, _. split; [reflexivity|]. split.
            { rewrite Forall_forall in Hlev. now apply Hlev. }
            split.
            -- eapply it_ok_set; [exact Ho| |].
               ++ apply (top_fresh m g c); [exact Hsc|]. eapply (below_cons m g x cs f); eauto.
               ++ rewrite wcnt_cons, wcnt_app. rewrite wcnt_app, P5, wcnt_cons in He. eapply enough_le; [exact He|lia].
            -- unfold remains in *. cbn [ti_set ti_off]. now rewrite P5.
        + eexists _, (Some (Some _)). split.
          * rewrite E1. eapply rd_bind; [apply rf_load_branch_cached|apply stable_avail|exact Hld'|].
            eapply rd_bind; [apply (rf_at_pos sec)|apply stable_avail|apply rd_at_pos; eassumption|].
            eapply rd_bind; [apply (rf_at_pos sec)|apply stable_avail|apply rd_at_pos; [exact P1|cbn [br_children]; apply map_nth_error; exact P3]|].
            cbn iota. eapply rd_bind; [apply (rf_move_off sec)|apply stable_avail|apply rd_move_off; exact He'|].
            apply rd_ret.
          * cbn [outcome]. exists (pend m (adv m n) f cs ++ w0). split.
            -- eapply it_ok_set; [exact Ho| |].
               ++ fold (frame_at x (pos m n) f).
                  destruct (next_pos_frame m x _ _ _ Hl Hlive) as [-> H5]. constructor; auto.
               ++ rewrite wcnt_app, P5, wcnt_cons in He. rewrite wcnt_app. apply enough_moved. eapply enough_le; [exact He|unfold cnt; lia].
            -- unfold remains. rewrite P5. cbn [app]. rewrite rem_cons. cbn [snd ti_set ti_off]. unfold ich at 1. cbn [fst snd].
               rewrite ordered_one. cbn [app]. f_equal. symmetry. apply skip_eq; auto.
    Qed.

    (** ** The loop *)

    Definition got m (it : titer E) (w : list work) (r : res (option (chunk E))) (it' : titer E) : Prop :=
      (exists c w', r = Ok (Some c) /\ it_ok m it' w' /\ remains m it w = c :: remains m it' w')
      \/ (r = Ok None /\ remains m it w = [] /\ ti_stack it' = [])
      \/ (exists e, r = Err e).

    Lemma got_trans m it w it1 w1 r it' : remains m it1 w1 = remains m it w -> got m it1 w1 r it' -> got m it w r it'.
    Proof. intros H [G|[G|G]]; unfold got; rewrite <- H; auto. Qed.

    Lemma loop_down m fuel : forall it w h st wd r it' wd', it_ok m it w -> ti_stack it = h :: st -> exhausted m h = false ->
      ilevel (ts_index h) < fuel -> wok key wd -> tloop fuel it wd = (r, it', wd') ->
      got m it w r it' /\ (ReliableReads T B -> avail (w_store wd) g -> forall e, r <> Err e).
    Proof.
      induction fuel as [|fuel IH]; intros it w h st wd r it' wd' Ho Est Hx Hf W E0; [lia|]. cbn [tloop] in E0.
      destruct (tstep_go _ _ _ _ _ Ho Est Hx) as (it1 & o & Hrd & Hout).
      destruct (tstep it wd) as [r1 wd1] eqn:Et.
      assert (Es : ti_sec it = sec) by apply Ho.
      pose proof (rf_tstep sec it Es _ _ _ Et) as Fr.
      destruct (Hrd _ _ _ W Et) as [[->|[e ->]] Hrel].
      - destruct o as [[c|]|]; cbn [outcome] in Hout.
        + injection E0 as <- <- <-. destruct Hout as (w' & H1 & H2). split; [left; eauto|]. discriminate.
        + easy.
        + destruct Hout as (w' & i & st' & H1 & H2 & H3 & H4).
          eapply IH in E0 as [G1 G2]; [|exact H3|exact H1|apply new_not_exhausted|cbn [ts_index ts_new]; lia|now apply Fr].
          split; [eapply got_trans; eauto|]. intros Re A. apply G2; [exact Re|]. eapply stable_avail; [apply Fr|exact A].
      - injection E0 as <- <- <-. split; [right; right; cbn; eauto|]. intros Re A. discriminate (Hrel Re A).
    Qed.

    Lemma max_in n l : In n l -> n <= max_nat l.
    Proof. unfold max_nat. induction l as [|x l IH]; cbn [fold_right]; [easy|]. intros [->|H]; [lia|]. apply IH in H. lia. Qed.

    Definition maxlev (st : list tstate) : nat := max_nat (map (fun s => ilevel (ts_index s)) st).

    Lemma maxlev_cons h st : maxlev (h :: st) = Nat.max (ilevel (ts_index h)) (maxlev st).
    Proof. reflexivity. Qed.

    Lemma loop_up m fuel : forall it w wd r it' wd', it_ok m it w ->
      List.length (ti_stack it) + maxlev (ti_stack it) + 1 <= fuel -> wok key wd -> tloop fuel it wd = (r, it', wd') ->
      got m it w r it' /\ (ReliableReads T B -> avail (w_store wd) g -> forall e, r <> Err e).
    Proof.
      induction fuel as [|fuel IH]; intros it w wd r it' wd' Ho Hf W E0; [lia|].
      destruct (ti_stack it) as [|h st] eqn:Est.
      - cbn [tloop] in E0. unfold tstep in E0. rewrite Est in E0. cbn in E0. injection E0 as <- <- <-.
        pose proof Ho as (_ & _ & _ & _ & Ht & _). rewrite Est in Ht. inversion Ht; subst. unfold got.
        assert (Hnil : remains m it [] = []) by now destruct m. rewrite Hnil.
        split; [right; left; auto|]. discriminate.
      - destruct (exhausted m h) eqn:Hx.
        + destruct (tstep_exhausted _ _ _ _ _ Ho Est Hx) as (E1 & w' & Ho' & Hr).
          cbn [tloop] in E0. rewrite E1 in E0. cbn [ret] in E0.
          eapply IH in E0 as [G1 G2]; [|exact Ho'| |exact W].
          * split; [eapply got_trans; eauto|exact G2].
          * cbn [ti_stack ti_set]. destruct st as [|p st]; cbn [ascend]; [cbn in Hf |- *; lia|].
            rewrite !maxlev_cons in *. cbn [List.length ts_index next_pos] in *. lia.
        + eapply loop_down in E0; eauto. rewrite maxlev_cons in Hf. cbn [List.length] in Hf. lia.
    Qed.

    (** An iterator that has failed, or ended. *)
    Definition over (it : titer E) : Prop := ti_stack it = [].

    Lemma tnext_over it w : over it -> exists it', tnext it w = (None, it', w) /\ over it'.
    Proof.
      unfold over, tnext, turns. intros H. cbn [tloop]. unfold tstep. rewrite H. cbn [ret]. eauto.
    Qed.

    Lemma tnext_ok m it w wd r it' wd' : it_ok m it w -> wok key wd -> tnext it wd = (r, it', wd') ->
      ((exists c w', r = Some (Ok c) /\ it_ok m it' w' /\ remains m it w = c :: remains m it' w')
       \/ (r = None /\ remains m it w = [] /\ over it')
       \/ (exists e, r = Some (Err e) /\ over it'))
      /\ (ReliableReads T B -> avail (w_store wd) g -> forall e, r <> Some (Err e)).
    Proof.
      intros Ho W. unfold tnext. destruct (tloop _ it wd) as [[r1 it1] wd1] eqn:El.
      apply (loop_up m _ it w) in El; [|exact Ho|unfold turns; fold (maxlev (ti_stack it)); lia|exact W].
      destruct El as [[(c & w' & -> & H1 & H2)|[(-> & H1 & H2)|(e & ->)]] G].
      - intros [= <- <- <-]. split; [left; eauto|]. discriminate.
      - intros [= <- <- <-]. split; [right; left; eauto|]. discriminate.
      - intros [= <- <- <-]. split; [right; right; exists e; split; reflexivity|]. intros Re A. now destruct (G Re A e).
    Qed.

    Lemma start_fw : it_ok Forward (ti_new sec q mk (root_ix g)) [(true, g)]
      /\ remains Forward (ti_new sec q mk (root_ix g)) [(true, g)] = chunks 0 g.
    Proof.
      split.
      - unfold it_ok. cbn [ti_new ti_sec ti_mode ti_query ti_extra ti_stack ti_off]. splits; auto.
        + apply top_fresh; constructor.
        + exact Logic.I.
      - unfold remains. cbn. apply app_nil_r.
    Qed.
    Lemma start_bw : it_ok Backward (ti_new_rev sec q mk (root_ix g)) [(true, g)]
      /\ remains Backward (ti_new_rev sec q mk (root_ix g)) [(true, g)] = rev (chunks 0 g).
    Proof.
      split.
      - unfold it_ok. cbn [ti_new_rev ti_sec ti_mode ti_query ti_extra ti_stack ti_off]. splits; auto.
        + apply top_fresh; constructor.
        + unfold wcnt, cnt, sum_nat. cbn [map snd fold_right enough]. lia.
      - unfold remains. cbn [rem bw ti_new_rev ti_off snd ich fst]. fold (cnt g). rewrite Nat.sub_diag. apply app_nil_r.
    Qed.

    (** ** Properties of the chunks *)

    Lemma tiles_app lo mid hi a b : tiles lo mid a -> tiles mid hi b -> tiles lo hi (a ++ b).
    Proof.
      revert lo. induction a as [|[x y] a IH]; intros lo; cbn [tiles app]; [now intros ->|].
      intros (H1 & H2 & H3) H4. splits; auto.
    Qed.

    Definition fullt (t : tree) : Prop := forall t', sub t t' -> 1 <= cnt t'.

    Lemma full_child x cs : fullt (TBranch x cs) -> Forall fullt cs.
    Proof.
      intros H. apply Forall_forall. intros c Hc t' Hs. apply H. clear H.
      induction Hs as [|x' cs' c' Hs IH Hin]; [eapply sub_step; [apply sub_refl|exact Hc]|]. eapply sub_step; eauto.
    Qed.

    Lemma tiles_skip off t : 1 <= cnt t -> tiles off (off + cnt t) (map c_range [skip_chunk off t]).
    Proof. intros H. cbn [map c_range skip_chunk tiles]. splits; auto. lia. Qed.

    Lemma chunks_tile t : forall lim off, repr sec lim t -> fullt t -> tiles off (off + cnt t) (map c_range (chunks off t)).
    Proof.
      induction t as [x vs|x|x cs IH|x] using tree_ind'; intros lim0 off R F;
        pose proof (F _ (sub_refl _)) as F0; try (now apply tiles_skip).
      - rewrite chunks_branch. cbn zeta. destruct (any _) eqn:Ea; [|now apply tiles_skip].
        pose proof (branch_mask_length off x) as Hml. apply full_child in F.
        apply repr_branch in R as (_ & Hcnt & Hlen & _ & blk & r & _ & _ & _ & Hch).
        rewrite Hlen in Hml. unfold cnt at 1. cbn [root_ix icount]. rewrite Hcnt. clear -IH Hml Hch F TL XL BL.
        generalize dependent (branch_mask off x). revert off.
        induction cs as [|c cs IHcs]; intros off [|b f] El; try discriminate; cbn [combine fw map].
        + cbn. lia.
        + inversion IH; subst. inversion Hch; subst. inversion F; subst. rewrite map_app.
          eapply tiles_app with (mid := off + cnt c).
          * cbn [snd]. unfold ich. cbn [fst snd]. destruct b; [eapply H1; eauto|]. apply tiles_skip. apply Forall_inv in F. apply F, sub_refl.
          * replace (off + sum_nat (icount (root_ix c) :: map icount (map root_ix cs))) with (off + cnt c + sum_nat (map icount (map root_ix cs)))
              by (unfold cnt, sum_nat; cbn; lia).
            cbn [snd]. apply IHcs; auto.
    Qed.

    Lemma within_app lo mid hi a b : offsets_in lo mid a -> offsets_in mid hi b -> lo <= mid -> mid <= hi -> offsets_in lo hi (a ++ b).
    Proof.
      revert lo. induction a as [|[[o k] v] a IH]; intros lo; cbn [offsets_in app].
      - intros _. revert mid. induction b as [|[[o k] v] b IHb]; intros mid; cbn [offsets_in]; [easy|]. intros [H1 H2] ? ?. split; [lia|easy].
      - intros [H1 H2] H3 H4 H5. split; [lia|]. apply IH; auto. lia.
    Qed.

    Lemma leaf_within (mask : list bool) : forall off ks vs hi,
      off + List.length mask <= hi ->
      offsets_in off hi (combine (combine (mask_select mask (seq off (List.length mask))) (mask_select mask ks)) (mask_select mask vs)).
    Proof.
      assert (W : forall lo lo' hi d, lo' <= lo -> offsets_in lo hi d -> offsets_in lo' hi d).
      { intros lo lo' hi [|[[o k] v] d]; cbn [offsets_in]; [easy|]. intros ? [? ?]. split; [lia|easy]. }
      induction mask as [|b mask IH]; intros off ks vs hi H; [easy|]. cbn [List.length seq].
      cbn [List.length] in H.
      assert (Hs : forall vs', offsets_in off hi (combine (combine (mask_select mask (seq (S off) (List.length mask))) (mask_select mask (tl ks))) (mask_select mask vs'))).
      { intros vs'. eapply W; [|apply IH; lia]. lia. }
      destruct ks as [|k ks]; [cbn [mask_select]; destruct b; cbn [combine]; try easy; now destruct (mask_select mask (seq (S off) (List.length mask)))|].
      destruct vs as [|v vs]; [cbn [mask_select]; now rewrite combine_nil|].
      cbn [mask_select]. destruct b; [|apply Hs]. cbn [combine offsets_in]. split; [lia|]. apply IH. lia.
    Qed.

    Lemma chunks_within t : forall off, Forall (fun c => offsets_in (fst (c_range c)) (snd (c_range c)) (c_data c)) (chunks off t).
    Proof.
      induction t as [x vs|x|x cs IH|x] using tree_ind'; intros off; try (constructor; [exact Logic.I|constructor]).
      - constructor; [|constructor]. cbn [c_range c_data fst snd]. apply leaf_within. rewrite leaf_mask_length. lia.
      - rewrite chunks_branch. cbn zeta. destruct (any _) eqn:Ea; [|constructor; [exact Logic.I|constructor]].
        clear Ea. generalize (branch_mask off x). revert off.
        induction cs as [|c cs IHcs]; intros off [|b f]; cbn [combine fw]; try constructor.
        apply Forall_inv in IH as IH1. apply Forall_inv_tail in IH as IH2.
        apply Forall_app. split; [|now apply IHcs]. unfold ich. cbn [fst snd]. destruct b; [apply IH1|].
        constructor; [exact Logic.I|constructor].
    Qed.

    (** ** Matching entries *)

    Variable mt : nat -> K -> bool.
    Hypothesis Hm : query_ok q mt.

    Lemma matches_app off a b : matches mt off (a ++ b) = matches mt off a ++ matches mt (off + List.length a) b.
    Proof.
      revert off. induction a as [|e a IH]; intros off; cbn [app matches List.length].
      - now rewrite Nat.add_0_r.
      - replace (off + S (List.length a)) with (S off + List.length a) by lia.
        destruct e as [[k v]|]; [|apply IH]. destruct (mt off k); cbn [app]; [f_equal|]; apply IH.
    Qed.
    Lemma nomatch_matches c : forall off, nomatch mt off c -> matches mt off c = [].
    Proof.
      induction c as [|[[k v]|] c IH]; intros off; cbn [nomatch matches]; [easy| |]; intros [H1 H2].
      - rewrite H1. auto.
      - auto.
    Qed.
    Lemma matches_none n : forall off, matches mt off (repeat None n) = [].
    Proof. induction n as [|n IH]; intros off; cbn [repeat matches]; auto. Qed.

    (** All summaries are those of the keys below. *)
    Fixpoint keyed (t : tree) : Prop :=
      match t with
      | TBranch x cs =>
          keyed_branch x cs
          /\ (fix go (l : list tree) : Prop := match l with [] => True | c :: l' => keyed c /\ go l' end) cs
      | _ => True
      end.
    Lemma keyed_branch_iff x cs : keyed (TBranch x cs) <-> keyed_branch x cs /\ Forall keyed cs.
    Proof. cbn [keyed]. now rewrite go_Forall. Qed.

    Lemma trues_repeat {A} (l : list A) : trues l = repeat true (List.length l).
    Proof. induction l; cbn; [easy|]. f_equal. exact IHl. Qed.

    Lemma leaf_data_matches off x vs : List.length vs = List.length (leaf_keys x) ->
      leaf_data off x vs = matches mt off (content (TLeaf x vs)).
    Proof.
      intros El. unfold leaf_data, leaf_mask. rewrite <- trues_repeat, (query_leaf mt q off x Hm).
      cbn [content]. rewrite key_mask_length. revert off vs El.
      generalize (leaf_keys x) as ks. induction ks as [|k ks IH]; intros off [|v vs] El; try discriminate; [easy|].
      cbn [key_mask List.length seq mask_select combine map matches]. injection El as El.
      destruct (mt off k); cbn [combine]; [f_equal|]; now apply IH.
    Qed.

    Lemma skip_data off t : flat_map c_data [skip_chunk off t] = [].
    Proof. reflexivity. Qed.

    Lemma chunks_matches t : forall lim off, repr sec lim t -> keyed t ->
      flat_map c_data (chunks off t) = matches mt off (content t).
    Proof.
      induction t as [x vs|x|x cs IH|x] using tree_ind'; intros lim0 off R Kt.
      - destruct R as (R & _). cbn [chunks flat_map c_data]. rewrite app_nil_r. now apply leaf_data_matches.
      - cbn [chunks]. rewrite skip_data. cbn [content]. now rewrite matches_none.
      - apply keyed_branch_iff in Kt as [K1 K2]. pose proof (keyed_gates mt q x cs off Hm K1) as G.
        rewrite trues_repeat in G. fold (branch_mask off x) in G. rewrite chunks_branch. cbn zeta.
        pose proof (branch_mask_length off x) as Hml.
        apply repr_branch in R as (_ & Hcnt & Hlen & _ & blk & r & _ & _ & _ & Hch).
        rewrite Hlen in Hml. cbn [content].
        destruct (any _) eqn:Ea.
        + clear Ea. generalize dependent (branch_mask off x). revert off.
          clear -IH Hch K2 TL XL BL.
          induction cs as [|c cs IHcs]; intros off [|b f] G El; try discriminate; [easy|].
          cbn [combine fw flat_map]. inversion IH; subst. inversion Hch; subst. inversion K2; subst.
          cbn [gates] in G. destruct G as [G1 G2].
          rewrite flat_map_app, matches_app. f_equal.
          * unfold ich. cbn [fst snd]. destruct b; [eapply H1; eauto|]. rewrite skip_data. symmetry. apply nomatch_matches. auto.
          * erewrite length_content by eauto. cbn [snd]. apply IHcs; auto.
        + rewrite skip_data. symmetry. apply nomatch_matches. eapply gates_none; eauto.
      - cbn [chunks]. rewrite skip_data. cbn [content]. now rewrite matches_none.
    Qed.
  End Chunks.
End IterProofs.

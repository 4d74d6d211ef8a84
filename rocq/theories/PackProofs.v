(** Packing: [simplify_roots] and [tree_from_roots]. *)
From Coq Require Import List NArith ZArith Lia Bool String Arith.
From Verif Require Import Base BaseProofs Cbor Types Seq SeqProofs Query QuerySpec World Read Write Ghost Frame ReadProofs Packable WriteProofs.
Import ListNotations.
#[local] Coercion s_now : Setting >-> Config.

Section Levels.
  Context {T : Types}.

  Lemma levels_desc_tail i l : levels_desc (i :: l) = true -> levels_desc l = true.
  Proof. destruct l; [easy|]. cbn. intros H. now apply andb_prop in H. Qed.

  Lemma levels_desc_head i l : levels_desc (i :: l) = true -> Forall (fun j => ilevel j <= ilevel i) l.
  Proof.
    revert i; induction l as [|j l IH]; intros i H; [constructor|].
    pose proof (levels_desc_tail _ _ H) as H2. cbn in H. apply andb_prop in H as [H _]. apply Nat.leb_le in H.
    constructor; [easy|]. eapply Forall_impl; [|apply IH, H2]. intros; cbn in *; lia.
  Qed.

  Lemma levels_desc_intro i l : Forall (fun j => ilevel j <= ilevel i) l -> levels_desc l = true ->
    levels_desc (i :: l) = true.
  Proof.
    destruct l; [easy|]. intros H1 H2. cbn [levels_desc]. apply andb_true_intro. split; [|exact H2].
    apply Nat.leb_le. now inversion H1.
  Qed.

  Lemma levels_desc_app a b n :
    levels_desc a = true -> levels_desc b = true ->
    Forall (fun i => n <= ilevel i) a -> Forall (fun i => ilevel i <= n) b -> levels_desc (a ++ b) = true.
  Proof.
    induction a as [|i a IH]; intros Ha Hb Fa Fb; [easy|]. cbn [app]. inversion Fa; subst.
    apply levels_desc_intro.
    - apply Forall_app. split; [now apply levels_desc_head|]. eapply Forall_impl; [|exact Fb]. intros; cbn in *; lia.
    - apply IH; auto. now apply levels_desc_tail in Ha.
  Qed.

  Lemma levels_desc_app_inv a b : levels_desc (a ++ b) = true -> levels_desc a = true /\ levels_desc b = true.
  Proof.
    induction a as [|i a IH]; intros H; [easy|]. cbn [app] in H.
    pose proof (levels_desc_head _ _ H) as Hh. apply levels_desc_tail, IH in H as [H1 H2].
    split; [|easy]. apply levels_desc_intro; [|easy]. now apply Forall_app in Hh.
  Qed.

  Lemma position_below_spec l is :
    exists a b, is = a ++ b /\ List.length a = position_below l is
      /\ Forall (fun i => l <= ilevel i) a /\ match b with i :: _ => ilevel i < l | [] => True end.
  Proof.
    induction is as [|i is IH]; cbn [position_below].
    - exists [], []. repeat split; auto.
    - destruct (Nat.ltb_spec (ilevel i) l).
      + exists [], (i :: is). repeat split; auto.
      + destruct IH as (a & b & -> & E & F & Hb). exists (i :: a), b. repeat split; cbn; auto.
  Qed.
End Levels.

Section PackProofs.
  Context {T : Types} {TL : TypesLaws T} {X : Ext} {XL : ExtLaws X}
          {B : Backend T} {BL : BackendLaws T B} {Rl : Rel T X B}.
  Variable cfg : Setting.
  Variable sec : Secrets.
  Notation key := (index_key sec).
  Hypothesis Hcfg : setting_ok cfg.
  Variable Av Ps Sf : Prop.
  Notation gd := (gd cfg sec Av Ps).

  (** Roots during packing: levels do not increase, and all but the last are sealed. *)
  Definition shape (rs : list tree) : Prop :=
    levels_desc (map root_ix rs) = true
    /\ forall pre last, rs = pre ++ [last] ->
         Forall (fun c => isealed (root_ix c) = true) pre /\ packed last = true.

  Definition level0 (t : tree) : bool := Nat.eqb (ilevel (root_ix t)) 0.
  Definition measure (rs : list tree) : nat := List.length rs + List.length (filter level0 rs).

  Lemma measure_app a b : measure (a ++ b) = measure a + measure b.
  Proof. unfold measure. rewrite filter_app, !app_length. lia. Qed.

  Lemma skipn_map' {A C} (f : A -> C) n l : skipn n (map f l) = map f (skipn n l).
  Proof. revert l; induction n as [|n IH]; intros [|a l]; cbn; auto. Qed.

  Lemma skipn_app_plus {A} (a b : list A) n : skipn (List.length a + n) (a ++ b) = skipn n b.
  Proof. induction a as [|x a IH]; cbn; auto. Qed.

  Lemma Forall_firstn {A} (P : A -> Prop) n l : Forall P l -> Forall P (firstn n l).
  Proof. revert l; induction n as [|n IH]; intros l H; [constructor|]. destruct H; constructor; auto. Qed.
  Lemma Forall_skipn {A} (P : A -> Prop) n l : Forall P l -> Forall P (skipn n l).
  Proof. revert l; induction n as [|n IH]; intros l H; [easy|]. destruct H; cbn; [constructor|auto]. Qed.

  Lemma shape_app a b : shape (a ++ b) -> b <> [] -> Forall (fun c => isealed (root_ix c) = true) a /\ shape b.
  Proof.
    intros [H1 H2] Hb. destruct (exists_last Hb) as (pre & last & ->).
    destruct (H2 (a ++ pre) last) as [H3 H4]; [now rewrite app_assoc|].
    apply Forall_app in H3 as [H3 H5]. split; [easy|]. rewrite map_app in H1. apply levels_desc_app_inv in H1 as [_ H1].
    split; [easy|]. intros pre' last' E. apply app_inj_tail in E as [<- <-]. auto.
  Qed.

  Lemma packed_sealed t : isealed (root_ix t) = true -> packed t = true.
  Proof. destruct t; try easy. cbn. now intros ->. Qed.

  (** Merge [n] roots after [pre]. *)
  Lemma post_merge pre cs rest w l :
    Forall (gd w) (pre ++ cs ++ rest) -> cs <> [] ->
    shape (pre ++ cs ++ rest) ->
    Forall (fun c => l < ilevel (root_ix c)) pre ->
    Forall (fun c => ilevel (root_ix c) <= l) rest ->
    (forall a z, cs = a ++ [z] -> Forall (fun c => ilevel (root_ix c) = l) a /\ ilevel (root_ix z) <= l) ->
    (exists c, In c cs /\ ilevel (root_ix c) = l) ->
    List.length cs <= max_branches cfg (S l) ->
    (rest <> [] -> List.length cs = max_branches cfg (S l) /\ Forall (fun c => ilevel (root_ix c) = l) cs) ->
    (2 <= List.length cs \/ l = 0) ->
    post (mbind (new_branch cfg sec (map root_ix cs) Packed)
                (fun x => ret (map root_ix pre ++ [IBranch x] ++ map root_ix rest))) w Sf
      (fun is w' => exists rs', is = map root_ix rs' /\ Forall (gd w') rs' /\ shape rs'
         /\ flat_map content rs' = flat_map content (pre ++ cs ++ rest)
         /\ measure rs' < measure (pre ++ cs ++ rest) /\ rs' <> []).
  Proof.
    intros G Hne Sh Hpre Hrest Hcs (c0 & Hin & Hc0) Hw Hfull Hprog.
    apply Forall_app in G as [Gpre G]. apply Forall_app in G as [Gcs Grest].
    assert (Hmax : max_nat (map ilevel (map root_ix cs)) = l).
    { apply Nat.le_antisymm.
      - apply max_nat_le. rewrite <- Forall_forall, !Forall_map. destruct (exists_last Hne) as (a & z & ->).
        destruct (Hcs _ _ eq_refl) as [A1 A2]. apply Forall_app. split; [|constructor; auto].
        eapply Forall_impl; [|exact A1]. intros; cbn in *; lia.
      - rewrite <- Hc0. apply max_nat_in. apply in_map. now apply in_map. }
    destruct Sh as [Sh1 Sh2]. pose proof Sh1 as Sh1'. rewrite !map_app in Sh1. apply levels_desc_app_inv in Sh1 as [D1 Sh1].
    apply levels_desc_app_inv in Sh1 as [D2 D3].
    eapply post_bind with (sec := sec); [apply wf_new_branch| |].
    { apply (post_new_branch cfg sec Hcfg Av Ps Sf cs Packed w); auto. rewrite Hmax.
      eapply Nat.le_trans; [exact Hw|]. apply max_branches_le. apply Hcfg. }
    intros x w' W (_ & Gx & Hxl & Hxs). rewrite Hmax in Hxl. apply post_ret.
    set (t := TBranch x cs). exists (pre ++ t :: rest).
    assert (Hxlvl : ilevel (root_ix t) = S l) by exact Hxl.
    split; [rewrite map_app; reflexivity|].
    split; [apply Forall_app; split; [eapply gd_Forall_mono; eauto|constructor; [exact Gx|eapply gd_Forall_mono; eauto]]|].
    split.
    { split.
      - rewrite map_app. apply levels_desc_app with (n := S l); auto.
        + cbn [map]. apply levels_desc_intro; [|easy]. rewrite Forall_map. eapply Forall_impl; [|exact Hrest].
          intros c Hc. cbn in *. lia.
        + rewrite Forall_map. exact Hpre.
        + rewrite Forall_map. constructor; [lia|]. eapply Forall_impl; [|exact Hrest]. intros; cbn in *; lia.
      - intros pre' last' E. destruct rest as [|r0 rest].
        + apply app_inj_tail in E as [<- <-].
          destruct (exists_last Hne) as (a & z & Ecs). destruct (Hcs _ _ Ecs) as [A1 A2].
          destruct (Sh2 (pre ++ a) z) as [B1 B2]; [now rewrite app_nil_r, Ecs, app_assoc|].
          apply Forall_app in B1 as [B1 B3]. split; [easy|].
          apply plist_packed; [easy|now apply gd_levels with cfg sec Av Ps w'|].
          intros a' z' E'. rewrite Ecs in E'. apply app_inj_tail in E' as [<- <-]. split; [|easy].
          replace (bi_level x - 1) with l by lia. rewrite Forall_forall in *. auto.
        + destruct (Hfull ltac:(discriminate)) as [F1 F2].
          destruct (@exists_last _ (r0 :: rest)) as (rp & z & Er); [discriminate|]. rewrite Er in E.
          change (pre ++ t :: rp ++ [z]) with (pre ++ (t :: rp) ++ [z]) in E. rewrite app_assoc in E.
          apply app_inj_tail in E as [<- <-].
          destruct (Sh2 (pre ++ cs ++ rp) z) as [B1 B2]; [now rewrite Er, <- !app_assoc|].
          split; [|easy]. apply Forall_app in B1 as [B1 B3]. apply Forall_app in B3 as [B3 B4].
          apply Forall_app. split; [easy|]. constructor; [|easy].
          cbn. rewrite Hxs, Hxl. apply branch_sealed_intro.
          * rewrite Forall_map. replace (S l - 1) with l by lia. rewrite Forall_forall in *. auto.
          * rewrite map_length. lia. }
    split; [rewrite !flat_map_app; reflexivity|].
    split; [|now destruct pre].
    change (t :: rest) with ([t] ++ rest). rewrite !measure_app.
    assert (Hm1 : measure [t] = 1). { unfold measure, level0. cbn. rewrite Hxl. easy. }
    rewrite Hm1. assert (1 < measure cs); [|lia]. unfold measure.
    destruct Hprog as [Hp|Hp]; [lia|].
    assert (0 < List.length (filter level0 cs)).
    { destruct (filter level0 cs) eqn:E; [|cbn; lia]. exfalso.
      assert (In c0 (filter level0 cs)) as Hf by (apply filter_In; split; [easy|]; unfold level0; now rewrite Hc0, Hp).
      rewrite E in Hf. destruct Hf. }
    destruct cs; [congruence|]. cbn [List.length] in *. lia.
  Qed.

  Lemma post_simplify_roots fuel : forall pre rem w,
    Forall (gd w) (pre ++ rem) -> shape (pre ++ rem) -> 2 <= List.length rem -> List.length rem <= fuel ->
    (forall c rem', rem = c :: rem' -> Forall (fun p => ilevel (root_ix c) < ilevel (root_ix p)) pre) ->
    post (simplify_roots cfg sec fuel (map root_ix (pre ++ rem)) (List.length pre)) w Sf
      (fun is w' => exists rs', is = map root_ix rs' /\ Forall (gd w') rs' /\ shape rs'
         /\ flat_map content rs' = flat_map content (pre ++ rem)
         /\ measure rs' < measure (pre ++ rem) /\ rs' <> []).
  Proof.
    induction fuel as [|fuel IH]; intros pre rem w G Sh Hlen Hf Hpre; [lia|].
    cbn [simplify_roots].
    apply post_assert. { intros _. apply Nat.ltb_lt. rewrite map_length, app_length. lia. } intros _.
    apply post_assert. { intros _. apply Sh. } intros _.
    assert (Hsk : skipn (List.length pre) (map root_ix (pre ++ rem)) = map root_ix rem).
    { rewrite map_app, skipn_app, map_length, Nat.sub_diag, skipn_all2 by (rewrite map_length; lia). reflexivity. }
    rewrite Hsk.
    assert (Hfn : firstn (List.length pre) (map root_ix (pre ++ rem)) = map root_ix pre).
    { rewrite map_app, firstn_app, map_length, Nat.sub_diag, firstn_all2 by (rewrite map_length; lia).
      cbn. now rewrite app_nil_r. }
    destruct rem as [|c rem]; [cbn in Hlen; lia|].
    specialize (Hpre c rem eq_refl).
    pose proof (shape_app _ _ Sh ltac:(discriminate)) as [Hsp [Hd Hl]].
    unfold find_valid_branch. rewrite map_length.
    replace (negb (1 <? List.length (c :: rem))) with false.
    2:{ symmetry. apply negb_false_iff, Nat.ltb_lt. lia. }
    rewrite Hd. cbn [negb]. remember (c :: rem) as rs eqn:Ers.
    replace (map root_ix rs) with (root_ix c :: map root_ix rem) at 1 by now subst.
    set (l := ilevel (root_ix c)).
    replace (if l =? 0 then max_key_branches cfg else max_summary_branches cfg) with (max_branches cfg (S l)) by reflexivity.
    destruct (position_below_spec l (map root_ix rs)) as (a & b & Eab & Ha & Fa & Fb). rewrite <- Ha.
    apply map_eq_app in Eab as (ra & rb & Eab & E1 & E2). subst a b. rewrite map_length in *.
    assert (Fle : Forall (fun c => ilevel (root_ix c) <= l) rs).
    { subst rs. constructor; [lia|]. cbn [map] in Hd. apply levels_desc_head in Hd. now rewrite Forall_map in Hd. }
    assert (Fra : Forall (fun c => ilevel (root_ix c) = l) ra).
    { rewrite Eab in Fle. apply Forall_app in Fle as [Fle _]. rewrite Forall_map in Fa.
      rewrite Forall_forall in *. intros u Hu. apply Fa in Hu as Hu1. apply Fle in Hu. lia. }
    assert (Hra : ra <> []).
    { intros ->. cbn in Eab. subst rb rs. cbn in Fb. subst l. lia. }
    assert (Frb : Forall (fun c => ilevel (root_ix c) < l) rb).
    { rewrite Eab, map_app in Hd. apply levels_desc_app_inv in Hd as [_ Hd].
      destruct rb as [|u rb]; [constructor|]. cbn in Fb. constructor; [easy|].
      cbn [map] in Hd. apply levels_desc_head in Hd. rewrite Forall_map in Hd. eapply Forall_impl; [|exact Hd].
      intros; cbn in *; lia. }
    pose proof (max_branches_pos cfg (proj1 Hcfg) (S l)) as Hmp.
    destruct (Nat.leb_spec (max_branches cfg (S l)) (List.length ra)) as [Hfull|Hnf].
    { (* enough for a full branch *)
      apply post_lift; [easy|discriminate|]. intros r [= <-]. set (n := max_branches cfg (S l)) in *.
      rewrite Hfn, firstn_map.
      replace (skipn (List.length pre + n) (map root_ix (pre ++ rs))) with (map root_ix (skipn n rs)).
      2:{ rewrite map_app, <- (map_length root_ix pre), skipn_app_plus. now rewrite skipn_map'. }
      replace (pre ++ rs) with (pre ++ firstn n rs ++ skipn n rs) in * by now rewrite firstn_skipn.
      assert (Hn : List.length (firstn n rs) = n).
      { rewrite firstn_length, Eab, app_length. lia. }
      assert (Fn : Forall (fun c => ilevel (root_ix c) = l) (firstn n rs)).
      { rewrite Eab, firstn_app. replace (n - List.length ra) with 0 by lia. cbn. rewrite app_nil_r.
        now apply Forall_firstn. }
      assert (Hnn : firstn n rs <> []) by (intros E; rewrite E in Hn; cbn in Hn; lia).
      apply post_merge with (l := l); auto.
      - now apply Forall_skipn.
      - intros u z E. rewrite E in Fn. apply Forall_app in Fn as [F1 F2]. apply Forall_inv in F2. split; [easy|lia].
      - subst rs. exists c. split; [|easy]. destruct n; [lia|]. now left.
      - lia.
      - destruct l as [|l0]; [now right|]. left. rewrite Hn. subst n. destruct Hcfg as ((C1 & C2 & C3 & C4) & _).
        unfold max_branches. cbn. lia. }
    assert (Hlr : List.length rs = List.length ra + List.length rb) by now rewrite Eab, app_length.
    destruct (Nat.eqb (List.length ra) (List.length rs) || Nat.eqb (List.length ra) (List.length rs - 1)) eqn:Ep.
    { (* the last branch *)
      apply post_lift; [easy|discriminate|]. intros r [= <-].
      assert (Hrb : List.length rb <= 1).
      { apply orb_true_iff in Ep as [Ep|Ep]; apply Nat.eqb_eq in Ep; lia. }
      rewrite Nat.min_r by lia. rewrite Hfn.
      rewrite firstn_all2 by (rewrite map_length; lia).
      rewrite skipn_all2 by (rewrite map_length, app_length; lia).
      replace (pre ++ rs) with (pre ++ rs ++ []) in * by now rewrite app_nil_r.
      change (@nil Index) with (map root_ix []) at 2.
      apply post_merge with (l := l); auto.
      - now subst.
      - intros u z E. split.
        + destruct rb as [|r0 [|]]; cbn in Hrb; try lia.
          * rewrite app_nil_r in Eab. rewrite <- Eab, E in Fra. now apply Forall_app in Fra.
          * rewrite Eab in E. apply app_inj_tail in E as [<- <-]. easy.
        + rewrite E in Fle. apply Forall_app in Fle as [_ Fle]. now apply Forall_inv in Fle.
      - subst rs. exists c. split; [now left|easy].
      - lia.
      - congruence. }
    (* skip *)
    apply post_lift; [easy|discriminate|]. intros r [= <-].
    assert (Hrb : 2 <= List.length rb).
    { apply orb_false_elim in Ep as [E1 E2]. apply Nat.eqb_neq in E1, E2. lia. }
    assert (0 < List.length ra) by (destruct ra; [congruence|cbn; lia]).
    replace (pre ++ rs) with ((pre ++ ra) ++ rb) in * by now rewrite Eab, app_assoc.
    rewrite <- app_length. apply IH; auto; [lia|].
    intros u rem' ->. cbn in Fb. apply Forall_app. split.
    - eapply Forall_impl; [|exact Hpre]. intros; cbn in *; lia.
    - eapply Forall_impl; [|exact Fra]. intros; cbn in *; lia.
  Qed.

  Lemma post_simplify_all fuel : forall rs w, Forall (gd w) rs -> shape rs -> measure rs <= fuel ->
    post (simplify_all cfg sec fuel (map root_ix rs)) w Sf
      (fun is w' => exists rs', is = map root_ix rs' /\ Forall (gd w') rs' /\ shape rs'
         /\ flat_map content rs' = flat_map content rs
         /\ List.length rs' <= 1).
  Proof.
    induction fuel as [|fuel IH]; intros rs w G Sh Hm; cbn [simplify_all]; rewrite map_length;
      destruct (Nat.ltb_spec 1 (List.length rs)).
    - unfold measure in Hm. lia.
    - apply post_ret. exists rs. auto.
    - eapply post_bind with (sec := sec); [apply wf_simplify_roots| |].
      + apply (post_simplify_roots (List.length rs) [] rs w); auto.
      + intros is w1 W (rs1 & -> & G1 & Sh1 & C1 & M1 & N1). cbn [app] in *.
        eapply post_conseq; [apply IH; auto; lia|]. intros is2 w2 (rs2 & E2 & G2 & Sh2 & C2 & L2).
        exists rs2. rewrite C2, C1. auto.
    - apply post_ret. exists rs. auto.
  Qed.

  Lemma post_tree_from_roots rs w :
    Forall (gd w) rs -> Forall (fun c => isealed (root_ix c) = true) rs -> levels_desc (map root_ix rs) = true ->
    post (tree_from_roots cfg sec (map root_ix rs)) w Sf
      (fun i w' => exists node, i = option_map root_ix node
         /\ match node with Some t => gd w' t /\ packed t = true | None => rs = [] end
         /\ ocontent node = flat_map content rs).
  Proof.
    intros G Hs Hd. unfold tree_from_roots.
    apply post_assert. { intros _. rewrite forallb_forall. intros i Hi. apply in_map_iff in Hi as (c & <- & Hc).
      rewrite Forall_forall in Hs. auto. } intros _.
    apply post_assert; [easy|]. intros _. rewrite map_length.
    eapply post_bind with (sec := sec); [apply wf_simplify_all| |].
    { apply post_simplify_all; auto.
      - split; [easy|]. intros pre last ->. apply Forall_app in Hs as [H1 H2]. split; [easy|].
        apply Forall_inv in H2. now apply packed_sealed.
      - unfold measure. enough (List.length (filter level0 rs) <= List.length rs) by lia.
        clear. induction rs as [|a rs IH]; cbn; [lia|]. destruct (level0 a); cbn; lia. }
    intros is w1 W (rs1 & -> & G1 & [_ Sh1] & C1 & L1). apply post_ret.
    destruct rs1 as [|t [|]]; [| |cbn in L1; lia].
    - exists None. cbn in *. split; [easy|]. split; [|easy]. destruct rs as [|t rs]; [easy|].
      exfalso. cbn in C1. symmetry in C1. apply app_eq_nil in C1 as [C1 _]. apply Forall_inv in G as G.
      destruct G as (R & I & _). pose proof (length_content _ _ _ R) as E. rewrite C1 in E. cbn in E.
      clear -I E R. revert R I E. generalize (w_off w). induction t using tree_ind'; intros lim R I E; cbn in E.
      + cbn in I. lia.
      + cbn in I. lia.
      + apply repr_branch in R as (A1 & A2 & A3 & A4 & blk & r & A5 & A6 & A7 & A8).
        apply invs_branch in I as (_ & _ & _ & _ & I). destruct cs as [|c cs]; [congruence|].
        inversion H; inversion I; inversion A8; subst. apply (H2 (fst r)); auto. cbn in A2. lia.
      + destruct I as (_ & (ks & Hk & Hc) & _). apply sum_nonempty in Hk. destruct ks; [congruence|]. cbn in Hc. lia.
    - exists (Some t). cbn in *. rewrite app_nil_r in C1. split; [easy|]. split; [|easy].
      split; [now inversion G1|]. now apply (Sh1 [] t).
  Qed.
End PackProofs.

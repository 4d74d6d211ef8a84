(** Trees that were built by [extend] alone, when leaf boundaries are decided by
    [max_leaf_count]: their shape is a function of the number of entries. *)
From Coq Require Import List NArith ZArith Lia Bool String Arith.
From Verif Require Import Base BaseProofs Cbor Types Seq SeqProofs Query World Read Write Api History Ghost Frame ReadProofs Packable WriteProofs ApiProofs SysProofs.
Import ListNotations.

Lemma post_and {T : Types} {X : Ext} {B : Backend T} {A} (m : M A) w (Q R : A -> world -> Prop) :
  post m w False Q -> post m w False R -> post m w False (fun a w' => Q a w' /\ R a w').
Proof. unfold post. destruct (m w) as [[a|e|[]|] w']; auto. Qed.

Lemma nil_or_snoc {A} (l : list A) : l = [] \/ exists l' a, l = l' ++ [a].
Proof. destruct l as [|a l]; [now left|right]. destruct (@exists_last _ (a :: l)) as (l' & b & E); [discriminate|eauto]. Qed.

Lemma app_inj_len {A} (a b c d : list A) : List.length a = List.length b -> a ++ c = b ++ d -> a = b /\ c = d.
Proof. revert b. induction a as [|x a IH]; intros [|y b] H E; try discriminate; [auto|]. cbn in *. injection E as -> E. apply IH in E as [-> ->]; [auto|now injection H]. Qed.

Section Canon.
  Context {T : Types} {TL : TypesLaws T} {X : Ext} {XL : ExtLaws X}
          {B : Backend T} {BL : BackendLaws T B}.
  Variable cfg : Config.
  Variable sec : Secrets.
  Notation key := (index_key sec).
  Hypothesis Hcfg : config_ok cfg.
  Variable P : V -> Prop.
  (** No leaf with at most [max_leaf_count] values is full for another reason. *)
  Hypothesis HP : forall chunks vs, Forall P vs -> List.length vs <= max_leaf_count cfg ->
    List.concat chunks = vals_raw vs ->
    (Nlen (z_finish (zstd_level cfg) chunks) < target_leaf_size cfg)%N
    /\ (Nlen (vals_raw vs) < max_uncompressed_leaf_size cfg)%N.
  Notation source := (list (K * V)).
  Notation gd := (gd cfg sec False False).
  Notation fills := (fills cfg sec False False False).
  Definition PS (from : source) : Prop := Forall P (map snd from).

  Inductive canon : tree -> Prop :=
  | canon_leaf x vs :
      Forall P vs -> li_sealed x = Nat.leb (max_leaf_count cfg) (List.length vs) -> canon (TLeaf x vs)
  | canon_branch x cs :
      (forall c, In c cs -> canon c) ->
      (forall c, In c cs -> S (ilevel (root_ix c)) = bi_level x) ->
      (forall pre last c, cs = pre ++ [last] -> In c pre -> isealed (root_ix c) = true) ->
      canon (TBranch x cs).

  (** A record of such a tree. *)
  Definition cn (i : Index) : Prop := exists lim t, root_ix t = i /\ repr sec lim t /\ canon t.

  Lemma cn_canon lim t : repr sec lim t -> cn (root_ix t) -> canon t.
  Proof. intros R (lim' & t' & E & R' & C). now rewrite (repr_det sec _ _ _ _ R R' (eq_sym E)). Qed.
  Lemma canon_cn lim t : repr sec lim t -> canon t -> cn (root_ix t).
  Proof. intros R C. exists lim, t. auto. Qed.

  Lemma PS_app a b : PS (a ++ b) -> PS a /\ PS b.
  Proof. unfold PS. rewrite map_app. apply Forall_app. Qed.

  (** ** Leaves *)
  Lemma vals_raw_snoc vs v : vals_raw (vs ++ [v]) = vals_raw vs ++ enc (v_enc v).
  Proof. rewrite vals_raw_app. unfold vals_raw. cbn. now rewrite app_nil_r. Qed.

  Lemma fill_full c from keys vs0 z full keys' from' :
    fill c from keys (zstd_level cfg) (target_leaf_size cfg) (max_uncompressed_leaf_size cfg) (max_leaf_count cfg)
      = Ok (z, full, keys', from') ->
    (c = [] /\ vs0 = [] \/ c <> [] /\ z_dec c = Some (vals_raw vs0)) ->
    vals_ok vs0 = true -> List.length keys = List.length vs0 -> List.length vs0 <= max_leaf_count cfg ->
    Forall P vs0 -> PS from ->
    full = Nat.leb (max_leaf_count cfg) (List.length keys').
  Proof.
    intros E Hc Hok Hl Hle Hp Hps.
    assert (Hfin : exists chunks, zs_data z = z_finish (zstd_level cfg) chunks /\
              exists vs, List.concat chunks = vals_raw vs /\ exists taken, vs = vs0 ++ map snd taken /\ from = taken ++ from'
              /\ keys' = keys ++ map fst taken).
    { unfold fill in E. rinv E. destruct a as [[size chunks] ls]. rinv E. injection E as <- _ <- <-.
      assert (Hinit : List.concat chunks = vals_raw vs0 /\ size = Nlen (vals_raw vs0)
              /\ exists new0, payload_links (map v_enc vs0) = Ok new0 /\ ls = add_links [] new0).
      { destruct Hc as [[-> ->]|[Hne Hz]].
        - injection E0 as <- <- <-. cbn. repeat split; auto. exists []. auto.
        - destruct c as [|c0 c1]; [congruence|]. rinv E0.
          rewrite (decompress_spec _ _ Hz) in E.
          destruct (fits (vals_raw vs0)); [|discriminate]. injection E as <-. rinv E0.
          injection E0 as <- <- <-. unfold vals_raw in E. rewrite scrape_links_seq in E by easy.
          rinv E. injection E as <-. cbn. rewrite app_nil_r. repeat split; auto. eauto. }
      destruct Hinit as (Hcc & Hs & new0 & Hls & Hlls).
      eapply fill_loop_spec in E1 as (taken & new & H1 & H2 & H3 & _); eauto.
      exists (f_chunks a). split; [reflexivity|]. eauto 6. }
    destruct Hfin as (chunks & Hz & vs & Hcv & taken & Hvs & Hfrom & Hk).
    assert (Hlen : List.length keys' = List.length vs). { subst. rewrite !app_length, !map_length. lia. }
    assert (HPv : Forall P vs). { subst vs. apply Forall_app. split; [easy|]. rewrite Hfrom in Hps. now apply PS_app in Hps. }
    destruct (Nat.leb_spec (max_leaf_count cfg) (List.length keys')) as [Hge|Hlt].
    - unfold fill in E. rinv E. destruct a as [[size ch] ls]. rinv E. injection E as _ <- <- _.
      apply Nat.leb_le in Hge. rewrite Hge. now rewrite ?orb_true_r.
    - destruct full; [|reflexivity]. exfalso.
      pose proof (HP chunks vs HPv ltac:(lia) Hcv) as [B1 B2].
      eapply fill_spec in E as (taken' & new & H1 & H2 & H3 & H4 & H5 & H6 & H7 & H8 & H9 & H10 & H11); eauto.
      assert (taken' = taken). { rewrite H1 in Hfrom. now apply app_inv_tail in Hfrom. } subst taken'. rewrite <- Hvs in *.
      destruct (H11 eq_refl) as [D|[D|[D|(k & v & rest & D1 & D2)]]]; try lia.
      + rewrite Hz in D. lia.
      + assert (Forall P (vs ++ [v])).
        { apply Forall_app. split; [easy|]. constructor; [|constructor]. rewrite Hfrom, D1 in Hps. unfold PS in Hps.
          rewrite map_app in Hps. apply Forall_app in Hps as [_ Hps]. now inversion Hps. }
        destruct (HP [vals_raw (vs ++ [v])] (vs ++ [v]) H) as [_ B3].
        * rewrite app_length. cbn. lia.
        * cbn. now rewrite app_nil_r.
        * rewrite vals_raw_snoc, Nlen_app in B3. lia.
  Qed.

  Lemma no_gsrc from : gsrc cfg from.
  Proof. intros []. Qed.
  Hint Resolve no_gsrc : core.

  Lemma canon_extend_leaf c keys from vs0 w :
    (c = [] /\ vs0 = [] \/ c <> [] /\ z_dec c = Some (vals_raw vs0)) ->
    vals_ok vs0 = true -> List.length keys = List.length vs0 -> List.length vs0 <= max_leaf_count cfg ->
    (Nlen (vals_raw vs0) <= max_uncompressed_leaf_size cfg)%N ->
    (exists ls, payload_links (map v_enc vs0) = Ok ls) ->
    Forall P vs0 -> PS from ->
    post (extend_leaf cfg sec c keys from) w False (fun p w' =>
      exists taken vs, from = taken ++ snd p /\ gd w' (TLeaf (fst p) vs) /\ canon (TLeaf (fst p) vs)).
  Proof.
    intros Hc Hok Hl Hle Hsz Hpl Hp Hps.
    assert (H1 : post (extend_leaf cfg sec c keys from) w False (fun p w' =>
      li_sealed (fst p) = Nat.leb (max_leaf_count cfg) (List.length (leaf_keys (fst p))))).
    { unfold extend_leaf. apply post_assert; [easy|]. intros _. apply post_lift; [easy|intros []|].
      intros [[[z full] keys'] from'] E. eapply fill_full in E; eauto.
      unfold mbind, post. destruct (encrypt_block true (value_key sec) z (raw_of z) w) as [[e|e|[]|] w1]; auto; try (intros []).
      destruct (put_block e w1) as [[l|e2|[]|] w2]; auto; try (intros []). cbn. unfold leaf_keys. cbn. now rewrite ks_to_of. }
    eapply post_conseq.
    { apply post_and; [exact H1|].
      apply (post_extend_leaf cfg sec Hcfg False False False c keys from vs0 w); auto; cbn [s_hi only]; try lia; try easy. }
    intros [x from'] w' (E & taken & A1 & A2 & A3 & _). cbn [fst snd] in *.
    exists taken, (vs0 ++ map snd taken). splits; auto. constructor.
    - apply Forall_app. split; [easy|]. rewrite A1 in Hps. now apply PS_app in Hps.
    - destruct A3 as ((A3 & _) & _). now rewrite E, A3.
  Qed.

  Lemma canon_leaf_from_iter from w : PS from ->
    post (leaf_from_iter cfg sec from) w False (fun p w' =>
      exists taken vs, from = taken ++ snd p /\ gd w' (TLeaf (fst p) vs) /\ canon (TLeaf (fst p) vs)).
  Proof.
    intros Hps. apply post_assert; [easy|]. intros _. apply canon_extend_leaf with (vs0 := []); auto; cbn; try lia. now exists [].
  Qed.

  (** ** Branches *)
  Definition cfills (f : source -> M (Index * source)) : Prop :=
    forall from w, from <> [] -> PS from -> post (f from) w False (fun p _ => cn (fst p)).

  Lemma canon_fill_children l f n : fills l f -> cfills f -> (forall from, frame (wext key) (f from)) ->
    forall cs from w, PS from ->
    post (fill_children f n cs from) w False (fun p _ => exists new, fst p = cs ++ new /\ Forall cn new).
  Proof.
    intros Hf Hc Ff. induction n as [|n IH]; intros cs from w Hps.
    - cbn. exists []. rewrite app_nil_r. auto.
    - destruct from as [|p0 from].
      + cbn. exists []. rewrite app_nil_r. auto.
      + cbn [fill_children]. eapply post_bind with (sec := sec); [apply Ff| |].
        { apply post_and; [apply Hf; [discriminate|easy]|apply Hc; [discriminate|exact Hps]]. }
        intros [i from1] w1 W1 ((t & taken & A1 & _ & A2 & _) & A3). cbn [fst snd] in *.
        rewrite A2 in Hps. apply PS_app in Hps as [_ Hps].
        eapply post_conseq; [apply IH; exact Hps|].
        intros [cs' from'] w2 (new & B1 & B2). cbn [fst] in *. exists (i :: new). split; [now rewrite B1, <- app_assoc|].
        now constructor.
  Qed.

  Lemma cn_list w ts : Forall (gd w) ts -> Forall cn (map root_ix ts) -> Forall canon ts.
  Proof.
    intros G C. rewrite Forall_map in C. rewrite Forall_forall in *. intros t Ht.
    destruct (G t Ht) as (R & _). eapply cn_canon; eauto.
  Qed.

  (** Children that are all at level [l], and sealed but for the last one. *)
  Definition row (l : nat) (cs : list tree) : Prop :=
    Forall canon cs /\ Forall (fun c => ilevel (root_ix c) = l) cs
    /\ forall pre last c, cs = pre ++ [last] -> In c pre -> isealed (root_ix c) = true.

  Lemma row_nil l : row l [].
  Proof. split; [constructor|]. split; [constructor|]. intros [] ? ? E; discriminate. Qed.
  Lemma row_one l t : canon t -> ilevel (root_ix t) = l -> row l [t].
  Proof.
    intros C L. split; [auto|]. split; [auto|]. intros pre lst c E Hc.
    destruct pre as [|a [|b pre]]; try discriminate. destruct Hc.
  Qed.
  Lemma canon_row x cs : canon (TBranch x cs) -> 1 <= bi_level x -> row (bi_level x - 1) cs.
  Proof.
    intros C Hl. inversion C as [|? ? H1 H2 H3]; subst. split; [now apply Forall_forall|]. split; [|exact H3].
    apply Forall_forall. intros c Hc. apply H2 in Hc. lia.
  Qed.
  Lemma row_canon x cs : row (bi_level x - 1) cs -> 1 <= bi_level x -> canon (TBranch x cs).
  Proof.
    intros (H1 & H2 & H3) Hl. rewrite Forall_forall in *. constructor; auto. intros c Hc. apply H2 in Hc. lia.
  Qed.

  Lemma canon_extend_branch_with f cs level from w :
    fills (level - 1) f -> cfills f -> (forall from, frame (wext key) (f from)) ->
    Forall (gd w) cs -> row (level - 1) cs -> List.length cs <= max_branches cfg level -> PS from ->
    post (extend_branch_with cfg sec f (map root_ix cs) level from Packed) w False (fun p w' =>
      exists new taken, gd w' (TBranch (fst p) (cs ++ new)) /\ canon (TBranch (fst p) (cs ++ new))
        /\ from = taken ++ snd p /\ bi_level (fst p) = level
        /\ (from <> [] -> List.length cs < max_branches cfg level -> new <> [])).
  Proof.
    intros Hf Hc Ff G Hrow Hlen Hps.
    apply post_assert; [easy|]. intros Hpos. apply Nat.ltb_lt in Hpos.
    apply post_assert; [easy|]. intros Hbel. apply post_assert; [easy|]. intros Hass.
    eapply post_bind with (sec := sec); [now apply wf_fill_children| |].
    { apply post_and; [now apply (post_fill_children cfg sec False False False (level - 1))|].
      now apply (canon_fill_children (level - 1)). }
    intros [cs' from'] w1 W1 ((new & taken & H1 & H2 & H3 & H4 & H5 & H6 & H7 & H8 & H9 & H9s & H10 & H11) & newi & N1 & N2).
    cbn [fst snd] in *. subst cs'. rewrite map_length in H6, H7, H9.
    rewrite map_app in N1. apply app_inv_head in N1. subst newi.
    pose proof (cn_list _ _ H2 N2) as Hcn.
    assert (Hlv : cs ++ new = [] \/ S (max_nat (map ilevel (map root_ix (cs ++ new)))) = level).
    { destruct (cs ++ new) as [|c0 cs1] eqn:En; [now left|right]. rewrite <- En.
      rewrite (max_nat_const (level - 1) (map ilevel (map root_ix (cs ++ new)))); [lia|now rewrite En|].
      rewrite !Forall_map. apply Forall_app. split; [apply Hrow|exact H5]. }
    eapply post_bind with (sec := sec); [apply wf_new_branch| |].
    { apply (post_new_branch cfg sec Hcfg False False False (cs ++ new)); [|  |easy].
      - apply Forall_app. split; [eapply gd_Forall_mono; eauto|easy].
      - destruct Hlv as [Hlv|Hlv]; [rewrite Hlv; apply Nat.le_0_l|]. rewrite Hlv, app_length. cbn [s_hi only]. lia. }
    intros x w2 W2 (Hne & Gx & Hxl & Hxs).
    destruct Hlv as [Hlv|Hlv]; [congruence|]. rewrite Hlv in Hxl.
    apply post_assert; [easy|]. intros Hfin. apply post_ret. cbn [fst snd]. exists new, taken.
    split; [easy|]. split; [|split; [easy|]; split; [easy|]; intros; apply H9; [easy|lia]].
    apply row_canon; [|lia]. rewrite Hxl. destruct Hrow as (R1 & R2 & R3). split; [now apply Forall_app|].
    split; [now apply Forall_app|]. intros pre lst c E Hin.
    destruct (nil_or_snoc new) as [->|(new' & l' & E')].
    { rewrite app_nil_r in E. eapply R3; eauto. }
    assert (Hfr : from <> []). { apply H11. rewrite E'. destruct new'; discriminate. }
    rewrite E', app_assoc in E. apply app_inj_tail in E as [<- <-].
    apply in_app_or in Hin as [Hin|Hin].
    - destruct from as [|p0 from]; [congruence|]. cbn [is_nil orb] in Hass. rewrite forallb_forall in Hass.
      apply (in_map root_ix) in Hin. apply Hass in Hin. now apply andb_prop in Hin.
    - apply H8 in E' as [E' _]. rewrite Forall_forall in E'. now apply E'.
  Qed.

  Lemma cfills_fill_node l : cfills (fill_node cfg sec l).
  Proof.
    induction l as [|l IH]; intros from w Hne Hps; cbn [fill_node]; (apply post_assert; [easy|]; intros _).
    - eapply post_bind with (sec := sec); [apply wf_leaf_from_iter|now apply canon_leaf_from_iter|].
      intros [x from'] w' W (taken & vs & H1 & (R & _) & H3). apply post_ret. cbn [fst snd] in *.
      exact (canon_cn _ _ R H3).
    - eapply post_bind with (sec := sec).
      + apply wf_extend_branch_with. intros. apply wf_fill_node.
      + apply (canon_extend_branch_with _ [] (S l) from w); auto.
        * replace (S l - 1) with l by lia. now apply fills_fill_node.
        * intros. apply wf_fill_node.
        * apply row_nil.
        * cbn. lia.
      + intros [x from'] w' W (new & taken & (R & _) & H2 & _). apply post_ret. cbn [fst snd app] in *.
        exact (canon_cn _ _ R H2).
  Qed.

  Lemma canon_extend_branch cs level from w :
    Forall (gd w) cs -> row (level - 1) cs -> List.length cs <= max_branches cfg level -> PS from ->
    post (extend_branch cfg sec (map root_ix cs) level from Packed) w False (fun p w' =>
      exists new taken, gd w' (TBranch (fst p) (cs ++ new)) /\ canon (TBranch (fst p) (cs ++ new))
        /\ from = taken ++ snd p /\ bi_level (fst p) = level
        /\ (from <> [] -> List.length cs < max_branches cfg level -> new <> [])).
  Proof.
    intros. apply canon_extend_branch_with; auto.
    - now apply fills_fill_node.
    - apply cfills_fill_node.
    - intros. apply wf_fill_node.
  Qed.

  (** ** Roots *)

  (** Above level 1 a root has two children or more. *)
  Definition wide (t : tree) : Prop :=
    match t with TBranch x cs => 2 <= bi_level x -> 2 <= List.length cs | _ => True end.

  Lemma canon_climb fuel : forall t from w,
    gd w t -> canon t -> wide t -> PS from ->
    post (climb cfg sec fuel (root_ix t) None from) w False (fun p w' =>
      exists t' taken, fst p = root_ix t' /\ gd w' t' /\ canon t' /\ wide t' /\ from = taken ++ snd p
        /\ 1 <= ilevel (root_ix t')).
  Proof.
    induction fuel as [|fuel IH]; intros t from w G C Wd Hps; cbn [climb below];
      destruct ((negb (is_nil from) || Nat.eqb (ilevel (root_ix t)) 0) && true) eqn:E.
    - exact (fun f => f).
    - apply post_ret. exists t, []. splits; auto. rewrite andb_true_r in E. apply orb_false_elim in E as [_ E].
      apply Nat.eqb_neq in E. lia.
    - eapply post_bind with (sec := sec); [apply wf_extend_branch| |].
      { apply (canon_extend_branch [t] (S (ilevel (root_ix t))) from w); auto.
        - replace (S (ilevel (root_ix t)) - 1) with (ilevel (root_ix t)) by lia. now apply row_one.
        - pose proof (max_branches_pos cfg Hcfg (S (ilevel (root_ix t)))). cbn. lia. }
      intros [x from1] w1 W1 (new & taken & G1 & C1 & Hfrom & Hxl & Hnew). cbn [fst snd] in *.
      change (IBranch x) with (root_ix (TBranch x ([t] ++ new))).
      rewrite Hfrom in Hps. apply PS_app in Hps as [_ Hps].
      eapply post_conseq; [apply IH; auto|].
      + cbn [wide]. intros H2. rewrite Hxl in H2. cbn [app List.length].
        assert (Hn : new <> []).
        { apply Hnew.
          - rewrite andb_true_r in E. apply orb_true_iff in E as [E|E]; [|apply Nat.eqb_eq in E; lia].
            intros ->. discriminate.
          - destruct Hcfg as (C2 & C3 & C4 & C5). unfold max_branches.
            destruct (Nat.eqb_spec (S (ilevel (root_ix t))) 1); [lia|]. cbn. lia. }
        destruct new; [congruence|]. cbn. lia.
      + intros [i from'] w' (t' & taken' & H1 & H2 & H3 & H4 & H5 & H6). cbn [fst snd] in *.
        exists t', (taken ++ taken'). splits; auto. now rewrite Hfrom, H5, app_assoc.
    - apply post_ret. exists t, []. splits; auto. rewrite andb_true_r in E. apply orb_false_elim in E as [_ E].
      apply Nat.eqb_neq in E. lia.
  Qed.

  Lemma climb_stays fuel i from w : climb cfg sec fuel i (Some (ilevel i)) from w = (Ok (i, from), w).
  Proof. destruct fuel; cbn [climb below]; now rewrite Nat.ltb_irrefl, andb_false_r. Qed.

  Definition cext (t : tree) (from : source) (p : Index * source) (w' : world) : Prop :=
    exists t' taken, fst p = root_ix t' /\ gd w' t' /\ canon t' /\ from = taken ++ snd p
      /\ ilevel (root_ix t') = ilevel (root_ix t) /\ (wide t -> wide t').

  Lemma canon_extend0 rec t from w :
    (forall last from w, gd w last -> canon last -> wok key w -> PS from ->
        post (rec (root_ix last) (ilevel (root_ix last)) from) w False (cext last from)) ->
    (forall i l f, frame (wext key) (rec i l f)) ->
    wok key w -> gd w t -> canon t -> PS from ->
    post (extend0 cfg sec rec (root_ix t) from) w False (cext t from).
  Proof.
    intros Hrec Frec W G C Hps. unfold extend0.
    destruct (isealed (root_ix t) || is_nil from) eqn:E.
    { apply post_ret. exists t, []. splits; auto. }
    apply orb_false_elim in E as [Ese _].
    destruct t as [x vs|x|x cs|x]; cbn [root_ix node_info_of]; try now inversion C.
    - destruct G as (R & I & A & Pp).
      destruct (repr_leaf_avail _ _ _ _ R) as (l & z & Hl & Z1 & Z2 & Z3 & Z4). rewrite Hl.
      eapply post_rd; [apply rf_load_leaf_from_link|exact W|exact Z1|intros []|]. intros w1 R1.
      destruct R as (R & blk0 & r0 & _ & (_ & _ & off0 & d0 & ls0 & Hls & _) & _). assert (Hpl : exists ls, payload_links (map v_enc vs) = Ok ls) by eauto. clear off0 d0 ls0 Hls. cbn in I. inversion C as [? ? C1 C2|]; subst.
      eapply post_bind with (sec := sec); [apply wf_extend_leaf| |].
      { apply (canon_extend_leaf (zs_data z) (leaf_keys x) from vs); auto; [lia|apply I]. }
      intros [x' from'] w2 W2 (taken & vs' & H1 & H2 & H3). apply post_ret. cbn [fst snd] in *.
      exists (TLeaf x' vs'), taken. splits; auto.
    - pose proof G as (R & I & A & Pp).
      destruct (repr_branch_load _ _ _ _ R) as (l & r & Hl & Hld & Hch & _ & _ & _ & Hnec & Hlv). rewrite Hl.
      eapply post_rd; [apply rf_load_branch_cached|exact W|apply (Hld (fun s => avail_branches s (TBranch x cs))); auto|intros []|].
      intros w1 R1. cbn [br_children].
      apply rext_wext in R1 as W1. pose proof (wext_ok _ _ _ W1 W) as Wok1.
      apply inv_branch in I as (I1 & I2 & I3 & (I4 & _) & I5).
      assert (Hrow : row (bi_level x - 1) cs) by (apply canon_row; [exact C|lia]).
      destruct (exists_last Hnec) as (cs0 & last & ->).
      rewrite map_app, rev_app_distr. cbn [map rev app]. rewrite rev_involutive.
      pose proof (gd_children _ _ _ _ _ _ _ G) as Gcs. apply (gd_Forall_mono _ _ _ _ _ _ _ W1) in Gcs.
      apply Forall_app in Gcs as [Gcs0 Glast]. apply Forall_inv in Glast.
      destruct Hrow as (Q1 & Q2 & Q3). apply Forall_app in Q1 as [Q1 Q1l]. apply Forall_inv in Q1l.
      apply Forall_app in Q2 as [Q2 Q2l]. apply Forall_inv in Q2l.
      set (Q := fun (p : list Index * source) (w' : world) =>
        exists last' taken, fst p = map root_ix (cs0 ++ [last']) /\ gd w' last' /\ canon last' /\ from = taken ++ snd p
          /\ ilevel (root_ix last') = bi_level x - 1).
      eapply post_bind with (sec := sec) (Q := Q).
      { apply wf_bind; [apply Frec|]. intros []. apply wf_ret. }
      { eapply post_bind with (sec := sec); [apply Frec| |].
        - rewrite <- Q2l. apply Hrec; auto.
        - intros [i from1] w2 W2 (t' & taken & H1 & H2 & H3 & H4 & H5 & H6). cbn [fst snd] in *.
          apply post_ret. exists t', taken. cbn [fst snd]. rewrite map_app, H1. splits; auto. congruence. }
      intros [children from1] w2 W2 (last' & taken & H1 & H2 & H3 & H4 & H5). cbn [fst snd] in *. subst children.
      pose proof (gd_Forall_mono _ _ _ _ _ _ _ W2 Gcs0) as Gcs0'.
      rewrite H4 in Hps. apply PS_app in Hps as [_ Hps].
      eapply post_bind with (sec := sec); [apply wf_extend_branch| |].
      { apply (canon_extend_branch (cs0 ++ [last']) (bi_level x) from1); auto.
        - apply Forall_app. split; [easy|]. now constructor.
        - split; [apply Forall_app; auto|]. split; [apply Forall_app; auto|].
          intros pre lst c E Hc. apply app_inj_tail in E as [<- _]. eapply Q3; eauto.
        - rewrite app_length in *. cbn in *. lia. }
      intros [x' from2] w3 W3 (new & taken2 & G1 & C1 & Hfrom & Hxl & _). cbn [fst snd] in *.
      apply post_ret. exists (TBranch x' ((cs0 ++ [last']) ++ new)), (taken ++ taken2). cbn [fst snd].
      splits; auto.
      + now rewrite H4, Hfrom, app_assoc.
      + cbn [wide]. rewrite Hxl, !app_length. cbn. lia.
  Qed.

  Lemma canon_extend_above d : forall t from w,
    wok key w -> gd w t -> canon t -> PS from ->
    post (extend_above cfg sec d (Some (root_ix t)) (Some (ilevel (root_ix t))) from) w False (cext t from)
    /\ (wide t -> post (extend_above cfg sec d (Some (root_ix t)) None from) w False (fun p w' =>
          exists t', fst p = root_ix t' /\ gd w' t' /\ canon t' /\ wide t' /\ 1 <= ilevel (root_ix t'))).
  Proof.
    induction d as [|d IH]; intros t from w W G C Hps; [split; intros; exact (fun f => f)|].
    cbn [extend_above].
    assert (H0 : post (extend0 cfg sec (fun i lvl from => extend_above cfg sec d (Some i) (Some lvl) from) (root_ix t) from)
                   w False (cext t from)).
    { apply canon_extend0; auto.
      - intros last f1 w1 G1 C1 W1 P1. now apply IH.
      - intros. apply wf_extend_above. }
    assert (F0 : frame (wext key) (extend0 cfg sec (fun i lvl from => extend_above cfg sec d (Some i) (Some lvl) from) (root_ix t) from)).
    { apply wf_extend0. intros. apply wf_extend_above. }
    split; [|intros Hw]; destruct (is_nil from) eqn:En; try (now intros []).
    - apply post_assert; [easy|]. intros _. eapply post_bind with (sec := sec); [exact F0|exact H0|].
      intros [i from1] w1 W1 (t1 & taken & H1 & H2 & H3 & H4 & H5 & H6). cbn [fst snd] in *. subst i.
      rewrite <- H5. unfold post, mbind at 1. rewrite climb_stays.
      apply post_assert; [easy|]. intros _. apply post_ret. exists t1, taken. splits; auto.
    - apply post_assert; [easy|]. intros _. eapply post_bind with (sec := sec); [exact F0|exact H0|].
      intros [i from1] w1 W1 (t1 & taken & H1 & H2 & H3 & H4 & H5 & H6). cbn [fst snd] in *. subst i.
      rewrite H4 in Hps. apply PS_app in Hps as [_ Hps].
      eapply post_bind with (sec := sec); [apply wf_climb|apply canon_climb; auto|].
      intros [i from2] w2 W2 (t2 & taken2 & G1 & G2 & G3 & G4 & G5 & G6). cbn [fst snd] in *. subst i.
      apply post_assert; [easy|]. intros _. apply post_ret. exists t2. splits; auto.
  Qed.

  Lemma canon_extend_above_new d from w : PS from ->
    post (extend_above cfg sec d None None from) w False (fun p w' =>
      exists t', fst p = root_ix t' /\ gd w' t' /\ canon t' /\ wide t' /\ 1 <= ilevel (root_ix t')).
  Proof.
    intros Hps. destruct d as [|d]; [exact (fun f => f)|]. cbn [extend_above]. destruct (is_nil from); [now intros []|].
    apply post_assert; [easy|]. intros _.
    eapply post_bind with (sec := sec) (Q := fun p w' => exists t taken, fst p = root_ix t /\ gd w' t /\ canon t /\ wide t /\ from = taken ++ snd p).
    - apply wf_bind; [apply wf_leaf_from_iter|]. intros []. apply wf_ret.
    - eapply post_bind with (sec := sec); [apply wf_leaf_from_iter|now apply canon_leaf_from_iter|].
      intros [x from'] w' W (taken & vs & H1 & H2 & H3). apply post_ret. cbn [fst snd] in *.
      exists (TLeaf x vs), taken. splits; auto. exact I.
    - intros [i from1] w1 W1 (t1 & taken & H1 & H2 & H3 & H4 & H5). cbn [fst snd] in *. subst i.
      rewrite H5 in Hps. apply PS_app in Hps as [_ Hps].
      eapply post_bind with (sec := sec); [apply wf_climb|apply canon_climb; auto|].
      intros [i from2] w2 W2 (t2 & taken2 & G1 & G2 & G3 & G4 & G5 & G6). cbn [fst snd] in *. subst i.
      apply post_assert; [easy|]. intros _. apply post_ret. exists t2. splits; auto.
  Qed.

End Canon.

Section Unique.
  Context {T : Types} {TL : TypesLaws T} {X : Ext} {XL : ExtLaws X}
          {B : Backend T} {BL : BackendLaws T B}.
  Variable cfg : Config.
  Hypothesis Hcfg : config_ok cfg.
  Variable P : V -> Prop.
  Notation canon := (canon cfg P).

  (** ** Uniqueness *)

  (** Entries that fit below a node at a level. *)
  Fixpoint cap (l : nat) : nat :=
    match l with O => max_leaf_count cfg | S l' => max_branches cfg l * cap l' end.

  Fixpoint tkeys (t : tree) : list K :=
    match t with
    | TLeaf x _ | TLeafP x => leaf_keys x
    | TBranch _ cs => flat_map tkeys cs
    | TBranchP _ => []
    end.

  Inductive sk :=
  | SkLeaf (sealed : bool) (keys : list K)
  | SkBranch (level : nat) (sealed : bool) (count : nat) (cs : list sk).
  Fixpoint skel (t : tree) : sk :=
    match t with
    | TLeaf x _ | TLeafP x => SkLeaf (li_sealed x) (leaf_keys x)
    | TBranch x cs => SkBranch (bi_level x) (bi_sealed x) (bi_count x) (map skel cs)
    | TBranchP x => SkBranch (bi_level x) (bi_sealed x) (bi_count x) []
    end.

  Lemma cap_pos l : 1 <= cap l.
  Proof.
    induction l as [|l IH]; cbn [cap]; [destruct Hcfg as (C1 & C2 & C3 & C4); lia|].
    pose proof (max_branches_pos cfg Hcfg (S l)). nia.
  Qed.
  Lemma cap_mono a b : a <= b -> cap a <= cap b.
  Proof.
    induction 1 as [|b H IH]; [lia|]. cbn [cap]. pose proof (max_branches_pos cfg Hcfg (S b)). nia.
  Qed.

  Lemma tkeys_content sec lim t : repr sec lim t -> canon t -> map (option_map fst) (content t) = map Some (tkeys t).
  Proof.
    revert lim. induction t using tree_ind'; intros lim R C; try now inversion C.
    - destruct R as (R & _). clear C. cbn. rewrite map_map. cbn.
      revert R. generalize (leaf_keys x). induction vs as [|v vs IH]; intros [|k ks] R; try discriminate; [easy|].
      cbn. f_equal. apply IH. now injection R.
    - apply repr_branch_load in R as (_ & _ & _ & _ & _ & _ & _ & R & _). inversion C as [|? ? C1 _ _]; subst.
      cbn [content tkeys]. clear C. induction cs as [|c cs IH]; [easy|]. cbn. rewrite !map_app.
      inversion H; subst. inversion R; subst. f_equal.
      + eapply H2; [eassumption|]. apply C1. now left.
      + apply IH; auto. intros; apply C1; now right.
  Qed.

  Lemma canon_bounds sec lim t : repr sec lim t -> inv cfg t -> canon t ->
    1 <= List.length (tkeys t) <= cap (ilevel (root_ix t))
    /\ (isealed (root_ix t) = true -> List.length (tkeys t) = cap (ilevel (root_ix t)))
    /\ icount (root_ix t) = List.length (tkeys t).
  Proof.
    revert lim. induction t using tree_ind'; intros lim R I C; try now inversion C.
    - destruct R as (R & _). cbn in I. inversion C as [? ? C1 C2|]; subst. cbn. splits; try lia.
      intros E. rewrite E in C2. symmetry in C2. apply Nat.leb_le in C2. lia.
    - pose proof R as R0. apply repr_branch in R0 as (Hne & Hcnt & _).
      apply repr_branch_load in R as (_ & _ & _ & _ & _ & _ & _ & R & _ & _).
      apply inv_branch in I as (I1 & I2 & I3 & (I4 & _) & I5). inversion C as [|? ? C1 C2 C3]; subst.
      assert (Hall : Forall (fun c => (1 <= List.length (tkeys c) <= cap (bi_level x - 1))
        /\ (isealed (root_ix c) = true -> List.length (tkeys c) = cap (bi_level x - 1)) /\ icount (root_ix c) = List.length (tkeys c)) cs).
      { rewrite Forall_forall in *. intros c Hc. replace (bi_level x - 1) with (ilevel (root_ix c)) by (apply C2 in Hc; lia). eauto. }
      assert (Hlen : List.length cs <= List.length (flat_map tkeys cs) <= List.length cs * cap (bi_level x - 1)).
      { clear -Hall. induction Hall as [|c cs ((H1 & H2) & _) Hall IH]; cbn; [lia|]. rewrite app_length. lia. }
      assert (Hcap : cap (bi_level x) = max_branches cfg (bi_level x) * cap (bi_level x - 1)).
      { rewrite I1. cbn [cap Nat.sub]. now rewrite ?Nat.sub_0_r. }
      cbn [tkeys root_ix ilevel isealed icount]. split; [|split].
      + rewrite Hcap. destruct cs; [congruence|]. cbn [List.length] in *. nia.
      + rewrite I2. intros E. apply branch_sealed_true in E as [E1 E2]. rewrite map_length in E2. rewrite Hcap.
        replace (max_branches cfg (bi_level x)) with (List.length cs) by lia. rewrite Forall_map in E1.
        clear -Hall E1. induction Hall as [|c cs (_ & H2 & _) Hall IH]; cbn; [lia|]. rewrite app_length.
        inversion E1 as [|? ? Hs E1']; subst. rewrite H2 by apply Hs. rewrite IH by assumption. lia.
      + rewrite Hcnt. clear -Hall. unfold sum_nat. induction Hall as [|c cs (_ & _ & H2) Hall IH]; cbn; [lia|]. rewrite app_length, H2. cbn in IH. lia.
  Qed.

  Lemma sk_seal cs cs' level : map skel cs = map skel cs' ->
    Forall canon cs -> Forall canon cs' ->
    branch_sealed cfg (map root_ix cs) level = branch_sealed cfg (map root_ix cs') level.
  Proof.
    intros E C C'. assert (map (fun i => (isealed i, ilevel i)) (map root_ix cs) = map (fun i => (isealed i, ilevel i)) (map root_ix cs')) as H.
    { revert cs' E C'. induction C as [|c cs Hc C IH]; intros [|c' cs'] E C'; try discriminate; [easy|].
      cbn [map] in *. injection E as E1 E2. inversion C' as [|? ? Hc' C'']; subst. f_equal; [|auto].
      inversion Hc; inversion Hc'; subst; cbn in *; congruence. }
    clear E C C'. unfold branch_sealed.
    assert (H1 : forall g, existsb (fun x => g (isealed x, ilevel x)) (map root_ix cs) = existsb (fun x => g (isealed x, ilevel x)) (map root_ix cs')).
    { intros g. revert cs' H. induction cs as [|c cs IH]; intros [|c' cs'] H; try discriminate; [easy|].
      cbn in *. injection H as H0 H1 H2. rewrite H0, H1. f_equal. now apply IH. }
    pose proof (H1 (fun p => negb (fst p))) as E1. pose proof (H1 (fun p => negb (Nat.eqb (snd p) (level - 1)))) as E2. cbn in E1, E2.
    rewrite E1, E2. apply (f_equal (@List.length _)) in H. rewrite !map_length in H. now rewrite !map_length, H.
  Qed.

  Lemma skel_unique sec sec' lim t : forall lim' t', repr sec lim t -> inv cfg t -> canon t ->
    repr sec' lim' t' -> inv cfg t' -> canon t' ->
    ilevel (root_ix t) = ilevel (root_ix t') -> tkeys t = tkeys t' -> skel t = skel t'.
  Proof.
    revert lim. induction t using tree_ind'; intros lim lim' t' R I C R' I' C' El Ek; try now inversion C.
    - destruct t' as [x' vs'|x'|x' cs'|x']; try now inversion C'.
      + inversion C as [? ? _ E1|]; subst. inversion C' as [? ? _ E2|]; subst. cbn in *. rewrite E1, E2, Ek.
        destruct R as (R & _), R' as (R' & _). f_equal. f_equal. congruence.
      + cbn in El. destruct I' as (I' & _). rewrite I' in El. discriminate.
    - destruct t' as [x' vs'|x'|x' cs'|x']; try now inversion C'.
      { cbn in El. destruct I as (I & _). rewrite I in El. discriminate. }
      pose proof (canon_bounds _ _ _ R I C) as (_ & _ & N1). pose proof (canon_bounds _ _ _ R' I' C') as (_ & _ & N2).
      pose proof R as R0. apply repr_branch in R0 as (Hne & _). pose proof R' as R0'. apply repr_branch in R0' as (Hne' & _).
      apply repr_branch_load in R as (_ & _ & _ & _ & _ & _ & _ & R & _ & _).
      apply repr_branch_load in R' as (_ & _ & _ & _ & _ & _ & _ & R' & _ & _).
      apply inv_branch in I as (I1 & I2 & I3 & _ & I5). apply inv_branch in I' as (I1' & I2' & I3' & _ & I5').
      inversion C as [|? ? C1 C2 C3]; subst. inversion C' as [|? ? C1' C2' C3']; subst.
      cbn [ilevel root_ix tkeys icount] in *.
      assert (Hs : map skel cs = map skel cs').
      { clear I1 I1' I2 I2' I3 I3' N1 N2 C C'.
        revert cs' Hne' R' I5' C1' C2' C3' Ek. induction cs as [|c cs IH]; [congruence|].
        intros [|c' cs'] Hne' R' I5' C1' C2' C3' Ek; [congruence|].
        inversion H as [|? ? Hc Hcs]; subst. inversion R as [|? ? Rc Rcs]; subst. inversion R' as [|? ? Rc' Rcs']; subst.
        inversion I5 as [|? ? Ic Ics]; subst. inversion I5' as [|? ? Ic' Ics']; subst.
        assert (Lc : ilevel (root_ix c) = ilevel (root_ix c')).
        { pose proof (C2 c (or_introl eq_refl)). pose proof (C2' c' (or_introl eq_refl)). lia. }
        pose proof (canon_bounds _ _ _ Rc Ic (C1 c (or_introl eq_refl))) as (B1 & B2 & _).
        pose proof (canon_bounds _ _ _ Rc' Ic' (C1' c' (or_introl eq_refl))) as (B1' & B2' & _).
        cbn [flat_map] in Ek.
        assert (Hb : forall ds, Forall (repr sec lim) ds -> Forall (inv cfg) ds -> (forall d, In d ds -> canon d) -> ds <> [] -> 1 <= List.length (flat_map tkeys ds)).
        { intros [|d ds] D1 D2 D3 D4; [congruence|]. inversion D1 as [|? ? Dr _]; subst. inversion D2 as [|? ? Di _]; subst.
          destruct (canon_bounds _ _ _ Dr Di (D3 d (or_introl eq_refl))) as (Bd & _). cbn. rewrite app_length. lia. }
        assert (Hb' : forall ds, Forall (repr sec' lim') ds -> Forall (inv cfg) ds -> (forall d, In d ds -> canon d) -> ds <> [] -> 1 <= List.length (flat_map tkeys ds)).
        { intros [|d ds] D1 D2 D3 D4; [congruence|]. inversion D1 as [|? ? Dr _]; subst. inversion D2 as [|? ? Di _]; subst.
          destruct (canon_bounds _ _ _ Dr Di (D3 d (or_introl eq_refl))) as (Bd & _). cbn. rewrite app_length. lia. }
        assert (Hhd : forall d ds (Hd : forall pre last a, d :: ds = pre ++ [last] -> In a pre -> isealed (root_ix a) = true), ds <> [] -> isealed (root_ix d) = true).
        { intros d ds Hd Hn. destruct (@exists_last _ ds Hn) as (pre & lst & E). apply (Hd (d :: pre) lst); [now rewrite E|now left]. }
        destruct cs as [|c2 cs], cs' as [|c2' cs'].
        - cbn [map]. f_equal. cbn in Ek. rewrite !app_nil_r in Ek. eapply Hc; eauto; [apply C1|apply C1']; now left.
        - exfalso. specialize (Hhd _ _ C3' ltac:(discriminate)). apply B2' in Hhd.
          specialize (Hb' _ Rcs' Ics' (fun d Hd => C1' d (or_intror Hd)) ltac:(discriminate)).
          apply (f_equal (@List.length _)) in Ek. rewrite !app_length in Ek. cbn [flat_map] in Ek, Hb'. rewrite ?app_length in *. cbn in Ek. rewrite Lc in B1. lia.
        - exfalso. specialize (Hhd _ _ C3 ltac:(discriminate)). apply B2 in Hhd.
          specialize (Hb _ Rcs Ics (fun d Hd => C1 d (or_intror Hd)) ltac:(discriminate)).
          apply (f_equal (@List.length _)) in Ek. rewrite !app_length in Ek. cbn [flat_map] in Ek, Hb. rewrite ?app_length in *. cbn in Ek. rewrite Lc in Hhd. lia.
        - pose proof (Hhd _ _ C3 ltac:(discriminate)) as S1. pose proof (Hhd _ _ C3' ltac:(discriminate)) as S2.
          apply B2 in S1. apply B2' in S2. rewrite Lc in S1.
          assert (tkeys c = tkeys c' /\ flat_map tkeys (c2 :: cs) = flat_map tkeys (c2' :: cs')) as [Ek1 Ek2].
          { apply app_inj_len; [congruence|exact Ek]. }
          cbn [map]. f_equal.
          + eapply Hc; eauto; [apply C1|apply C1']; now left.
          + assert (C3t : forall pre lst a, c2 :: cs = pre ++ [lst] -> In a pre -> isealed (root_ix a) = true).
            { intros pre lst a E Ha. apply (C3 (c :: pre) lst); [cbn; now rewrite E|now right]. }
            assert (C3t' : forall pre lst a, c2' :: cs' = pre ++ [lst] -> In a pre -> isealed (root_ix a) = true).
            { intros pre lst a E Ha. apply (C3' (c' :: pre) lst); [cbn; now rewrite E|now right]. }
            change (map skel (c2 :: cs) = map skel (c2' :: cs')). apply IH; try assumption; try discriminate; intros d Hd;
              [apply C1|apply C2|apply C1'|apply C2']; now right. }
      cbn [skel]. rewrite Hs, El, I2, I2', N1, N2, Ek. f_equal. rewrite El. apply sk_seal; auto; now apply Forall_forall.
  Qed.

  Lemma root_level sec lim t : repr sec lim t -> inv cfg t -> canon t -> wide t -> 2 <= ilevel (root_ix t) ->
    cap (ilevel (root_ix t) - 1) < List.length (tkeys t).
  Proof.
    intros R I C W Hl. destruct t as [x vs|x|x cs|x]; try now inversion C.
    cbn in W, Hl. specialize (W Hl).
    apply repr_branch_load in R as (_ & _ & _ & _ & _ & _ & _ & R & _ & _).
    apply inv_branch in I as (I1 & I2 & I3 & _ & I5). inversion C as [|? ? C1 C2 C3]; subst.
    destruct cs as [|a [|b cs]]; cbn in W; try lia.
    inversion R as [|? ? Ra R2]; subst. inversion R2 as [|? ? Rb R3]; subst.
    inversion I5 as [|? ? Ia I6]; subst. inversion I6 as [|? ? Ib I7]; subst.
    destruct (canon_bounds _ _ _ Ra Ia (C1 a (or_introl eq_refl))) as (_ & A & _).
    destruct (canon_bounds _ _ _ Rb Ib (C1 b (or_intror (or_introl eq_refl)))) as (Bb & _).
    assert (isealed (root_ix a) = true).
    { destruct (@exists_last _ (b :: cs)) as (pre & lst & E); [discriminate|].
      apply (C3 (a :: pre) lst); [cbn; now rewrite E|now left]. }
    apply A in H. pose proof (C2 a (or_introl eq_refl)) as E. cbn [tkeys flat_map ilevel root_ix]. rewrite !app_length.
    replace (bi_level x - 1) with (ilevel (root_ix a)) by lia. lia.
  Qed.

  Lemma root_unique sec sec' lim lim' t t' : repr sec lim t -> inv cfg t -> canon t -> wide t -> 1 <= ilevel (root_ix t) ->
    repr sec' lim' t' -> inv cfg t' -> canon t' -> wide t' -> 1 <= ilevel (root_ix t') ->
    tkeys t = tkeys t' -> skel t = skel t'.
  Proof.
    intros R I C W L R' I' C' W' L' E. eapply skel_unique; eauto.
    pose proof (root_level _ _ _ R I C W) as A. pose proof (root_level _ _ _ R' I' C' W') as A'.
    destruct (canon_bounds _ _ _ R I C) as (D & _). destruct (canon_bounds _ _ _ R' I' C') as (D' & _).
    rewrite E in *. destruct (Nat.lt_trichotomy (ilevel (root_ix t)) (ilevel (root_ix t'))) as [H|[H|H]]; [|exact H|]; exfalso.
    - pose proof (cap_mono (ilevel (root_ix t)) (ilevel (root_ix t') - 1)). lia.
    - pose proof (cap_mono (ilevel (root_ix t')) (ilevel (root_ix t) - 1)). lia.
  Qed.
End Unique.

(** Termination: C45. *)
From Coq Require Import List NArith ZArith Lia Bool String Arith.
From Verif Require Import Base BaseProofs Cbor CborProofs Types Seq SeqProofs Query QuerySpec World Read Write Api Iter History Spec Ghost Frame ReadProofs Packable WriteProofs QueryProofs PackProofs RetainProofs RepairProofs NoPurged ApiProofs SysProofs HistProofs Instance Example PropsWrite.
Import ListNotations.

Section Fuel.
  Context {T : Types} {X : Ext} {B : Backend T}.
  Variable cfg : Config.
  Variable sec : Secrets.

  (** The result is not "out of fuel", and [P] holds if it is [Ok]. *)
  Definition nf {A} (P : A -> Prop) (m : M A) : Prop :=
    forall w, match fst (m w) with Ok a => P a | NoFuel => False | _ => True end.

  Lemma nf_ret {A} (P : A -> Prop) a : P a -> nf P (ret a).
  Proof. intros H w. exact H. Qed.
  Lemma nf_panic {A} (P : A -> Prop) p : nf P (mpanic p).
  Proof. intros w. exact Logic.I. Qed.
  Lemma nf_fail {A} (P : A -> Prop) e : nf P (fail e).
  Proof. intros w. exact Logic.I. Qed.
  Lemma nf_bind {A C} (Q : A -> Prop) (P : C -> Prop) (m : M A) f :
    nf Q m -> (forall a, Q a -> nf P (f a)) -> nf P (mbind m f).
  Proof.
    intros Hm Hf w. unfold mbind. specialize (Hm w). destruct (m w) as [[a|e|p|] w']; cbn in *; auto.
    apply Hf. exact Hm.
  Qed.
  Lemma nf_assert {C} (P : C -> Prop) b msg (m : M C) : (b = true -> nf P m) -> nf P (massert b msg ;;; m)%M.
  Proof.
    intros H. unfold massert. destruct b; [|intros w; exact Logic.I].
    apply nf_bind with (Q := fun _ => True); [now apply nf_ret|]. intros [] _. now apply H.
  Qed.
  Lemma nf_weaken {A} (Q P : A -> Prop) (m : M A) : nf Q m -> (forall a, Q a -> P a) -> nf P m.
  Proof. intros H HQ w. specialize (H w). destruct (fst (m w)); auto. Qed.
  Lemma nf_lift {A} (P : A -> Prop) (r : res A) :
    match r with Ok a => P a | NoFuel => False | _ => True end -> nf P (lift r).
  Proof. intros H w. exact H. Qed.

  Lemma na_lift {A} (r : res A) : no_assert r -> nf (fun _ => True) (lift r).
  Proof. intros H. apply nf_lift. destruct r as [a|e|[]|]; auto. Qed.
  Lemma nf_run {A} (P : A -> Prop) fo b (m : M A) : nf P m ->
    match fst (fst (run fo b m)) with Ok a => P a | NoFuel => False | _ => True end.
  Proof.
    intros H. unfold run.
    specialize (H {| w_store := fo_store fo; w_cache := fo_cache fo; w_off := b_off b; w_log := fo_log fo |}).
    destruct (m _) as [r w]. exact H.
  Qed.

  Lemma parse_head_short bs ma ai n rest :
    parse_head bs = Some (ma, ai, n, rest) -> List.length rest < List.length bs.
  Proof.
    destruct bs as [|b bs]; [discriminate|]. unfold parse_head.
    destruct (byte_to_N b mod 32 <? 24)%N; [intros [= <- <- <- <-]; cbn; lia|].
    assert (A : forall k r, match take_n k bs with
       | Some (x0, rest') => Some (byte_to_N b / 32, byte_to_N b mod 32, of_be x0, rest')%N | None => None end = Some r ->
       List.length (snd r) <= List.length bs).
    { intros k r. destruct (take_n k bs) as [[a' b']|] eqn:E; [|discriminate]. intros [= <-].
      apply take_n_spec in E as [-> _]. cbn. rewrite app_length. lia. }
    intros H. destruct (byte_to_N b mod 32)%N as [|p]; [discriminate|].
    do 5 (destruct p as [p|p|]; try discriminate; try (apply A in H; cbn in *; lia)).
  Qed.

  Lemma parse_n_short {A} (p : bytes -> option (A * bytes)) n :
    (forall bs c r, p bs = Some (c, r) -> List.length r <= List.length bs) ->
    forall bs l r, parse_n p n bs = Some (l, r) -> List.length r <= List.length bs.
  Proof.
    intros H. induction n as [|n IH]; cbn; intros bs l r E; [now injection E as <- <-|].
    destruct (p bs) as [[c r1]|] eqn:E1; [|discriminate]. apply H in E1.
    destruct (parse_n p n r1) as [[cs r2]|] eqn:E2; [|discriminate]. apply IH in E2. injection E as <- <-. lia.
  Qed.

  Lemma parse_short f : forall bs c r, parse f bs = Some (c, r) -> List.length r < List.length bs.
  Proof.
    induction f as [|f IH]; intros bs c r E; [discriminate|].
    cbn [parse] in *. destruct (parse_head bs) as [[[[ma ai] n] rest]|] eqn:Eh; [|discriminate].
    apply parse_head_short in Eh.
    assert (IH' : forall bs c r, parse f bs = Some (c, r) -> List.length r <= List.length bs).
    { intros ? ? ? H. apply IH in H. lia. }
    assert (IHp : forall bs c r, parse_pair (parse f) bs = Some (c, r) -> List.length r <= List.length bs).
    { intros bs0 c0 r0. unfold parse_pair. destruct (parse f bs0) as [[k r1]|] eqn:E1; [|discriminate].
      destruct (parse f r1) as [[v r2]|] eqn:E2; [|discriminate]. intros [= <- <-]. apply IH in E1, E2. lia. }
    destruct ma as [|p]; [now injection E as <- <-|].
    assert (T0 : forall (k : bytes -> cbor) r0, match take_n n rest with Some (b, r) => Some (k b, r) | None => None end = Some (c, r0) ->
       List.length r0 <= List.length rest).
    { intros k r0. destruct (take_n n rest) as [[a b]|] eqn:Et; [|discriminate]. intros [= _ <-].
      apply take_n_spec in Et as [-> _]. rewrite app_length. lia. }
    destruct p as [[[p|p|]|[p|p|]|]|[[p|p|]|[p|p|]|]|]; try discriminate.
    - destruct (ai <? 24)%N; [now injection E as <- <-|].
      destruct ai as [|p]; [discriminate|].
      do 5 (destruct p as [p|p|]; try discriminate; try (injection E as <- <-; exact Eh)).
    - destruct (Nlen rest <? n)%N eqn:El; [discriminate|].
      destruct (parse_n (parse_pair (parse f)) (N.to_nat n) rest) as [[l r1]|] eqn:E1; [|discriminate].
      apply (parse_n_short _ _ IHp) in E1. injection E as <- <-. lia.
    - apply (T0 CText) in E. lia.
    - destruct (parse f rest) as [[c0 r1]|] eqn:E1; [|discriminate]. apply IH in E1. injection E as <- <-. lia.
    - destruct (Nlen rest <? n)%N eqn:El; [discriminate|].
      destruct (parse_n (parse f) (N.to_nat n) rest) as [[l r1]|] eqn:E1; [|discriminate].
      apply (parse_n_short _ _ IH') in E1. injection E as <- <-. lia.
    - apply (T0 CBytes) in E. lia.
    - injection E as <- <-. exact Eh.
  Qed.

  Lemma items_ipld_fuel fuel : forall bs, List.length bs <= fuel -> items_ipld_loop fuel bs <> NoFuel.
  Proof.
    induction fuel as [|f IH]; intros [|b bs] H; cbn [items_ipld_loop]; try discriminate; [cbn in H; lia|].
    destruct (checked_prefix (b :: bs)) as [[c rest]|] eqn:E; cbn [ok_or rbind]; [|discriminate].
    apply parse_short in E. destruct (dec_index c); cbn [ok_or rbind]; [|discriminate].
    specialize (IH rest). destruct (items_ipld_loop f rest); cbn [rbind]; try discriminate. exfalso. apply IH; [lia|reflexivity].
  Qed.

  Lemma nf_deserialize key d : nf (fun _ => True) (lift (deserialize_compressed key d)).
  Proof.
    apply nf_lift. unfold deserialize_compressed, decrypt.
    destruct (decode_block d) as [[[off ls] p]|]; cbn [ok_or rbind]; [|easy].
    destruct (_ <? two64)%N; cbn [rbind]; [|easy]. unfold zs_items_ipld, decompress. cbn [zs_data].
    destruct (z_dec _) as [raw|]; cbn [rbind]; [|easy]. destruct (max_capacity <? Nlen raw)%N; cbn [rbind]; [easy|].
    pose proof (items_ipld_fuel (List.length raw) raw (Nat.le_refl _)) as H.
    destruct (items_ipld_loop (List.length raw) raw); cbn [rbind]; auto.
  Qed.

  Notation any := (fun _ => True).

  Lemma nf_get_block l : nf any (get_block l).
  Proof. intros w. unfold get_block. destruct (sget (w_store w) l) as [[d|] s]; exact Logic.I. Qed.
  Lemma nf_load_leaf l : nf any (load_leaf_from_link sec l).
  Proof.
    eapply nf_bind; [apply nf_get_block|]. intros d _.
    apply nf_bind with (Q := any); [|intros [z r] _; now apply nf_ret].
    apply nf_lift. unfold decrypt. destruct (decode_block d) as [[[off ls] p]|]; cbn [ok_or rbind]; [|easy].
    now destruct (_ <? two64)%N.
  Qed.
  Lemma nf_load_branch_from_link l : nf any (load_branch_from_link sec l).
  Proof.
    eapply nf_bind; [apply nf_get_block|]. intros d _. eapply nf_bind; [apply nf_deserialize|].
    intros [cs r] _. unfold new_branch_data. cbn. destruct cs; [apply nf_panic|now apply nf_ret].
  Qed.
  Lemma nf_load_branch_cached l : nf any (load_branch_cached sec l).
  Proof.
    apply nf_bind with (Q := any). { intros w. unfold cache_get. destruct (cget (w_cache w) l). exact Logic.I. }
    intros [b|] _; [now apply nf_ret|]. eapply nf_bind; [apply nf_load_branch_from_link|]. intros b _.
    apply nf_bind with (Q := any); [intros w; exact Logic.I|]. intros _ _. now apply nf_ret.
  Qed.

  Lemma nf_put_block e : nf any (put_block e).
  Proof. intros w. unfold put_block. destruct (sput _ _) as [[l|] s]; exact Logic.I. Qed.
  Lemma nf_encrypt_block lf key z raw : nf any (encrypt_block lf key z raw).
  Proof.
    intros w. unfold encrypt_block, reserve. destruct (_ <? two64)%N; cbn; [|easy].
    unfold cbor_bytes. now destruct (cbor_ok _).
  Qed.
  Lemma nf_persist_branch items : nf any (persist_branch cfg sec items).
  Proof.
    eapply nf_bind; [apply na_lift, from_iter_ipld_no_assert|]. intros z _. eapply nf_bind; [apply nf_encrypt_block|].
    intros e _. eapply nf_bind; [apply nf_put_block|]. intros l _. now apply nf_ret.
  Qed.
  (** A new branch is above its children. *)
  Lemma nf_new_branch cs m : nf (fun x => bi_level x = S (max_nat (map ilevel cs))) (new_branch cfg sec cs m).
  Proof.
    apply nf_assert. intros _. apply nf_assert. intros _. eapply nf_bind; [apply nf_persist_branch|].
    intros [l n] _. now apply nf_ret.
  Qed.

  (** Filling a leaf never gives entries back, and takes at least one if it
      starts empty and may hold one. *)
  Lemma fill_loop_takes lvl cs us maxk from : forall keys size chunks ls st,
    fill_loop lvl cs us maxk from keys size chunks ls = Ok st ->
    List.length (f_from st) <= List.length from.
  Proof.
    induction from as [|[k v] from IH]; intros keys size chunks ls st E; cbn in E; [now injection E as <-|].
    destruct (Nat.leb maxk (List.length keys)); [now injection E as <-|].
    destruct (cbor_bytes (v_enc v)) as [b| | |]; cbn in E; try discriminate.
    destruct (us <? Nlen b)%N; [discriminate|]. destruct (us <? size + Nlen b)%N; [now injection E as <-|].
    destruct (scrape_links b ls); cbn in E; try discriminate.
    destruct (cs <=? _)%N; [injection E as <-; cbn; lia|]. apply IH in E. cbn. lia.
  Qed.
  Lemma fill_loop_takes1 lvl cs us maxk from chunks ls st :
    1 <= maxk -> from <> [] -> fill_loop lvl cs us maxk from [] 0 chunks ls = Ok st ->
    List.length (f_from st) < List.length from.
  Proof.
    intros Hm Hf E. destruct from as [|[k v] from]; [congruence|]. cbn in E.
    destruct maxk; [lia|]. cbn in E.
    destruct (cbor_bytes (v_enc v)) as [b| | |]; cbn in E; try discriminate.
    destruct (us <? Nlen b)%N; [discriminate|].
    destruct (scrape_links b ls); cbn in E; try discriminate.
    destruct (cs <=? _)%N; [injection E as <-; cbn; lia|]. apply fill_loop_takes in E. cbn. lia.
  Qed.

  Lemma nf_extend_leaf c keys from :
    nf (fun r => List.length (snd r) <= List.length from
                 /\ (1 <= max_leaf_count cfg -> c = [] -> keys = [] -> List.length (snd r) < List.length from))
       (extend_leaf cfg sec c keys from).
  Proof.
    apply nf_assert. intros Hne.
    apply nf_bind with (Q := fun r : zseq * bool * list K * list (K * V) =>
      List.length (snd r) <= List.length from
      /\ (1 <= max_leaf_count cfg -> c = [] -> keys = [] -> List.length (snd r) < List.length from)).
    { apply nf_lift. pose proof (fill_no_assert c from keys (zstd_level cfg) (target_leaf_size cfg) (max_uncompressed_leaf_size cfg) (max_leaf_count cfg)) as Na.
      destruct (fill _ _ _ _ _ _ _) as [[[[z full] ks] rest]|e|[]|] eqn:E; auto. unfold fill in E.
      match type of E with rbind ?m _ = _ => destruct m as [[[size chunks] ls]| | |] eqn:Ei end; try discriminate. cbn [rbind] in E.
      destruct (fill_loop _ _ _ _ _ _ _ _ _) as [st| | |] eqn:El; try discriminate. cbn [rbind] in E.
      injection E as <- <- <- <-. cbn [snd]. split; [eapply fill_loop_takes; eauto|].
      intros Hm -> ->. injection Ei as <- <- <-. eapply fill_loop_takes1; eauto.
      intros ->. discriminate. }
    intros [[[z full] ks] rest] H. eapply nf_bind; [apply nf_encrypt_block|]. intros e _.
    eapply nf_bind; [apply nf_put_block|]. intros l _. apply nf_ret. exact H.
  Qed.

  Definition le_src {A} (from : list (K * V)) (r : A * list (K * V)) : Prop := List.length (snd r) <= List.length from.
  Definition lt_src {A} (from : list (K * V)) (r : A * list (K * V)) : Prop := List.length (snd r) < List.length from.

  Hypothesis Hcfg : config_ok cfg.

  Lemma nf_leaf_from_iter from : nf (lt_src from) (leaf_from_iter cfg sec from).
  Proof.
    apply nf_assert. intros _. eapply nf_weaken; [apply nf_extend_leaf|]. intros r [_ H]. apply H; auto. apply Hcfg.
  Qed.

  (** Filling children takes at least one entry, if there is room for a child. *)
  Lemma nf_fill_children f n : (forall from, nf (lt_src from) (f from)) ->
    forall cs from, nf (fun r => List.length (snd r) <= List.length from
                                 /\ (0 < n -> from <> [] -> List.length (snd r) < List.length from)) (fill_children f n cs from).
  Proof.
    intros Hf. induction n as [|n IH]; intros cs from; cbn [fill_children]; [apply nf_ret; cbn; lia|].
    destruct from as [|x from]; [apply nf_ret; cbn; split; [lia|congruence]|].
    eapply nf_bind; [apply Hf|]. intros [c from'] H. unfold lt_src in H. cbn [snd] in H.
    eapply nf_weaken; [apply IH|]. intros r [H1 _]. split; intros; lia.
  Qed.

  Lemma max_branches_pos level : 1 <= max_branches cfg level.
  Proof. destruct Hcfg as (_ & H1 & H2 & _). unfold max_branches. destruct (Nat.eqb level 1); lia. Qed.

  Lemma nf_extend_branch_with f cs level from m : (forall from, nf (lt_src from) (f from)) ->
    nf (fun r => List.length (snd r) <= List.length from
                 /\ (List.length cs < max_branches cfg level -> from <> [] -> List.length (snd r) < List.length from)
                 /\ 0 < bi_level (fst r) <= level)
       (extend_branch_with cfg sec f cs level from m).
  Proof.
    intros Hf. apply nf_assert. intros _. apply nf_assert. intros _. apply nf_assert. intros _.
    eapply nf_bind; [apply nf_fill_children, Hf|]. intros [cs' from'] [H1 H2]. cbn [snd] in *.
    eapply nf_bind; [apply nf_new_branch|]. intros x Hx. cbv beta in Hx. apply nf_assert. intros Ha. apply nf_ret. cbn [fst snd].
    splits; auto; try lia.
    - intros Hl Hne. apply H2; [lia|exact Hne].
    - destruct (Write.is_nil from'); [now apply Nat.leb_le|]. apply andb_true_iff in Ha as [Ha _]. apply Nat.eqb_eq in Ha. lia.
  Qed.

  Lemma nf_fill_node level : forall from, nf (lt_src from) (fill_node cfg sec level from).
  Proof.
    induction level as [|l IH]; intros from; cbn [fill_node]; apply nf_assert; intros Hne.
    - eapply nf_bind; [apply nf_leaf_from_iter|]. intros [x from'] H. apply nf_ret. exact H.
    - eapply nf_bind; [apply nf_extend_branch_with, IH|]. intros [x from'] (_ & H & _). apply nf_ret. apply H.
      + cbn. pose proof (max_branches_pos (S l)). lia.
      + intros ->. discriminate.
  Qed.

  Lemma nf_extend_branch cs level from m :
    nf (fun r => List.length (snd r) <= List.length from
                 /\ (List.length cs < max_branches cfg level -> from <> [] -> List.length (snd r) < List.length from)
                 /\ 0 < bi_level (fst r) <= level)
       (extend_branch cfg sec cs level from m).
  Proof. apply nf_extend_branch_with, nf_fill_node. Qed.

  (** Above level 1 every round takes at least one entry. *)
  Lemma nf_climb_high fuel : forall node bnd from,
    0 < ilevel node -> List.length from <= fuel -> nf (le_src from) (climb cfg sec fuel node bnd from).
  Proof.
    induction fuel as [|f IH]; intros node bnd from Hl Hf; cbn [climb].
    - destruct from; [|cbn in Hf; lia]. cbn. destruct (Nat.eqb_spec (ilevel node) 0); [lia|]. cbn. apply nf_ret. red. cbn. lia.
    - destruct (_ && _) eqn:Eb; [|apply nf_ret; red; cbn; lia].
      assert (Hne : from <> []).
      { intros ->. cbn in Eb. destruct (Nat.eqb_spec (ilevel node) 0); [lia|discriminate]. }
      eapply nf_bind; [apply nf_extend_branch|]. intros [x from'] (H1 & H2 & H3). cbn [fst snd] in *.
      assert (H2' : List.length from' < List.length from).
      { apply H2; [|exact Hne]. cbn. destruct Hcfg as (_ & _ & Hs & _). unfold max_branches.
        destruct (Nat.eqb_spec (S (ilevel node)) 1); lia. }
      eapply nf_weaken; [apply IH|]; [apply H3|lia|]. intros r Hr. red in Hr |- *. lia.
  Qed.

  Lemma nf_climb node bnd from : nf (le_src from) (climb cfg sec (climb_fuel from) node bnd from).
  Proof.
    unfold climb_fuel. remember (S (List.length from)) as n eqn:En. cbn [climb]. destruct (_ && _); [|apply nf_ret; red; cbn; lia].
    eapply nf_bind; [apply nf_extend_branch|]. intros [x from'] (H1 & H2 & H3). cbn [fst snd] in *.
    eapply nf_weaken; [apply nf_climb_high|]; [apply H3|lia|]. intros r Hr. red in Hr |- *. lia.
  Qed.

  (** Merging roots. Every round replaces several roots by one, or a leaf by a
      branch. *)
  Definition weight (l : list Index) : nat := sum_nat (map (fun i => if Nat.eqb (ilevel i) 0 then 2 else 1) l).
  Lemma sum_nat_app a b : sum_nat (a ++ b) = sum_nat a + sum_nat b.
  Proof. unfold sum_nat. induction a; cbn [app fold_right] in *; lia. Qed.
  Lemma weight_app a b : weight (a ++ b) = weight a + weight b.
  Proof. unfold weight. now rewrite map_app, sum_nat_app. Qed.
  Lemma weight_ge l : List.length l <= weight l.
  Proof. induction l as [|x l IH]; unfold weight, sum_nat in *; cbn [map fold_right List.length] in *; [lia|]. destruct (Nat.eqb (ilevel x) 0); lia. Qed.
  Lemma weight_le l : weight l <= 2 * List.length l.
  Proof. induction l as [|x l IH]; unfold weight, sum_nat in *; cbn [map fold_right List.length] in *; [lia|]. destruct (Nat.eqb (ilevel x) 0); lia. Qed.

  Lemma position_below_pos l cs : l <= ilevel (hd (ILeaf {| li_sealed := true; li_link := None; li_keys := ks_of []; li_vbytes := 0 |}) cs) ->
    cs <> [] -> 1 <= position_below l cs <= List.length cs.
  Proof.
    destruct cs as [|c cs]; [congruence|]. cbn [position_below hd List.length]. intros H _. destruct (Nat.ltb_spec (ilevel c) l); [lia|].
    assert (position_below l cs <= List.length cs); [|lia]. clear. induction cs as [|c cs IH]; cbn [position_below List.length]; [lia|].
    destruct (Nat.ltb (ilevel c) l); lia.
  Qed.

  Lemma find_valid_branch_fuel cs :
    match find_valid_branch cfg cs with
    | Ok (RSealed n) | Ok (RUnsealed n) => n <= List.length cs /\ weight (firstn n cs) >= 2
    | Ok (RSkip n) => 1 <= n
    | NoFuel => False
    | _ => True
    end.
  Proof.
    unfold find_valid_branch. destruct (Nat.ltb_spec 1 (List.length cs)) as [Hl|]; cbn [negb]; [|exact Logic.I].
    destruct (levels_desc cs); cbn [negb]; [|exact Logic.I]. destruct cs as [|c cs]; [exact Logic.I|].
    set (maxc := if Nat.eqb (ilevel c) 0 then max_key_branches cfg else max_summary_branches cfg).
    pose proof (position_below_pos (ilevel c) (c :: cs) (Nat.le_refl _) ltac:(discriminate)) as Hp.
    remember (position_below (ilevel c) (c :: cs)) as pos eqn:Epos. clear Epos.
    assert (Hm : 1 <= maxc /\ (maxc = 1 -> ilevel c = 0)).
    { unfold maxc. destruct Hcfg as (_ & H1 & H2 & _). destruct (Nat.eqb_spec (ilevel c) 0); lia. }
    assert (W2 : forall n, 2 <= n -> n <= List.length (c :: cs) -> weight (firstn n (c :: cs)) >= 2).
    { intros n H1 H2. pose proof (weight_ge (firstn n (c :: cs))) as H. rewrite firstn_length in H. lia. }
    destruct (Nat.leb_spec maxc pos).
    - split; [lia|]. destruct (Nat.eq_dec maxc 1) as [E1|E1]; [|apply W2; lia].
      destruct Hm as [_ Hm]. rewrite E1. cbn. unfold weight. cbn. rewrite (Hm E1). cbn. lia.
    - destruct (_ || _) eqn:Eo; [|lia]. split; [lia|]. apply W2; lia.
  Qed.

  Lemma skipn_plus {A} a n : forall l : list A, skipn (a + n) l = skipn n (skipn a l).
  Proof. induction a as [|a IH]; intros [|x l]; cbn; auto. now rewrite skipn_nil. Qed.

  Lemma nf_simplify_roots fuel : forall roots from, List.length roots <= from + fuel ->
    nf (fun l => weight l < weight roots) (simplify_roots cfg sec fuel roots from).
  Proof.
    induction fuel as [|f IH]; intros roots from Hf; cbn [simplify_roots].
    - apply nf_assert. intros _. apply nf_assert. intros _.
      rewrite skipn_all2 by lia. apply nf_bind with (Q := fun _ => False); [|easy]. apply nf_lift. exact Logic.I.
    - apply nf_assert. intros _. apply nf_assert. intros _.
      pose proof (find_valid_branch_fuel (skipn from roots)) as Hv.
      eapply nf_bind; [apply nf_lift, Hv|]. intros r Hr. cbv beta in Hr.
      assert (Hc : forall n, n <= List.length (skipn from roots) /\ weight (firstn n (skipn from roots)) >= 2 ->
        nf (fun l => weight l < weight roots)
           (x <- new_branch cfg sec (firstn n (skipn from roots)) Packed ;;
            ret (firstn from roots ++ [IBranch x] ++ skipn (from + n) roots))%M).
      { intros n [H1 H2]. eapply nf_bind; [apply nf_new_branch|]. intros x Hx. cbv beta in Hx. apply nf_ret.
        assert (E : roots = firstn from roots ++ firstn n (skipn from roots) ++ skipn (from + n) roots).
        { rewrite skipn_plus, firstn_skipn, firstn_skipn. reflexivity. }
        rewrite E at 3. rewrite !weight_app. unfold weight at 2. cbn [map sum_nat fold_right ilevel]. rewrite Hx. cbn. lia. }
      destruct r as [n|n|n]; [now apply Hc|now apply Hc|]. apply IH. lia.
  Qed.

  Lemma nf_simplify_all fuel : forall roots, weight roots <= fuel + 1 -> nf (fun _ => True) (simplify_all cfg sec fuel roots).
  Proof.
    induction fuel as [|f IH]; intros roots Hw; cbn [simplify_all]; pose proof (weight_ge roots) as Hg;
      destruct (Nat.ltb_spec 1 (List.length roots)); try (now apply nf_ret); [lia|].
    eapply nf_bind; [apply nf_simplify_roots; lia|]. intros l Hl. cbv beta in Hl. apply IH. lia.
  Qed.

  Lemma nf_tree_from_roots roots : nf (fun _ => True) (tree_from_roots cfg sec roots).
  Proof.
    apply nf_assert. intros _. apply nf_assert. intros _. pose proof (weight_le roots).
    eapply nf_bind; [apply nf_simplify_all; lia|]. intros l _. now apply nf_ret.
  Qed.
End Fuel.

Section Tree.
  Context {T : Types} {TL : TypesLaws T} {X : Ext} {XL : ExtLaws X}
          {B : Backend T} {BL : BackendLaws T B}.
  Variable cfg : Config.
  Variable sec : Secrets.
  Hypothesis Hcfg : config_ok cfg.

  Definition nfw {A} (P : A -> Prop) (m : M A) (w : world) : Prop :=
    match fst (m w) with Ok a => P a | NoFuel => False | _ => True end.

  Lemma nfw_bind {A C} (Q : A -> Prop) (P : C -> Prop) (m : M A) f w :
    nfw Q m w -> (forall a, Q a -> nf P (f a)) -> nfw P (mbind m f) w.
  Proof.
    intros Hm Hf. unfold nfw, mbind in *. destruct (m w) as [[a|e|p|] w']; cbn in *; auto.
    apply Hf. exact Hm.
  Qed.
  Lemma nfw_rd {A C} (P : C -> Prop) (m : M A) (f : A -> M C) PP a w :
    frame (rext (index_key sec)) m -> wok (index_key sec) w -> rd sec m PP a ->
    (forall w', wok (index_key sec) w' -> nfw P (f a) w') -> nfw P (mbind m f) w.
  Proof.
    intros Fm W Hm Hf. unfold nfw, mbind. destruct (m w) as [r w'] eqn:E.
    destruct (Hm _ _ _ W E) as [[->|[e ->]] _]; [|exact Logic.I]. apply Hf.
    pose proof (Fm _ _ _ E) as R. apply rext_wext in R. eapply wext_ok; eauto.
  Qed.

  Lemma nf_extend_above d : forall node lim bnd from w,
    wok (index_key sec) w ->
    match node with Some t => repr sec lim t /\ ilevel (root_ix t) < d | None => 0 < d end ->
    nfw (le_src from) (extend_above cfg sec d (option_map root_ix node) bnd from) w.
  Proof.
    induction d as [|d IH]; intros node lim bnd from w W Hd; cbn [extend_above]; [destruct node; lia|].
    destruct from as [|kv from]; [exact Logic.I|]. cbn [Write.is_nil]. remember (kv :: from) as src eqn:Es.
    unfold massert. destruct (match option_map root_ix node with Some n => _ | None => _ end); [|exact Logic.I].
    change (nfw (le_src src) (mbind (ret tt) ?f) w) with (nfw (le_src src) (f tt) w). cbv beta.
    apply nfw_bind with (Q := le_src src).
    - destruct node as [t|]; cbn [option_map].
      + destruct Hd as [R Hd]. unfold extend0. destruct (_ || _); [red; cbn; red; cbn; lia|].
        destruct t as [x vs|x|x cs|x]; cbn [root_ix node_info_of] in *.
        * destruct (li_link x); [|red; cbn; red; cbn; lia].
          eapply nfw_bind; [apply nf_load_leaf|]. intros z _. eapply nf_bind; [apply nf_extend_leaf|].
          intros [x' from'] [H _]. apply nf_ret. exact H.
        * destruct (li_link x); [|red; cbn; red; cbn; lia].
          eapply nfw_bind; [apply nf_load_leaf|]. intros z _. eapply nf_bind; [apply nf_extend_leaf|].
          intros [x' from'] [H _]. apply nf_ret. exact H.
        * destruct (repr_branch_load _ _ _ _ R) as (l & r & Hl & Hld & _ & _ & _ & Hcs & Hnec & Hlv). rewrite Hl.
          eapply nfw_rd; [apply rf_load_branch_cached|exact W|apply (Hld (fun s => avail_branches s (TBranch x cs))); auto|].
          intros w1 W1. cbn [br_children]. apply nfw_bind with (Q := le_src src).
          -- destruct (exists_last Hnec) as (cs0 & lst & ->). rewrite map_app, rev_app_distr. cbn [map rev app].
             apply nfw_bind with (Q := le_src src); [|intros [last' from'] H; apply nf_ret; exact H].
             apply Forall_app in Hcs as [_ Hcs]. apply Forall_inv in Hcs. apply Forall_app in Hlv as [_ Hlv]. apply Forall_inv in Hlv.
             apply (IH (Some lst) lim); [exact W1|]. split; [exact Hcs|]. cbn in Hd. lia.
          -- intros [ch from'] H. eapply nf_bind; [apply nf_extend_branch, Hcfg|]. intros [x' from2] (H1 & _).
             apply nf_ret. red in H |- *. cbn [snd] in *. lia.
        * destruct (bi_link x) as [l|] eqn:El; [|red; cbn; red; cbn; lia]. cbn in R. congruence.
      + eapply nfw_bind; [apply nf_leaf_from_iter, Hcfg|]. intros [x from'] H. apply nf_ret. red in H |- *. cbn [snd] in *. lia.
    - intros [n from1] H1. eapply nf_bind; [apply nf_climb, Hcfg|]. intros [n2 from2] H2.
      apply nf_assert. intros _. apply nf_ret. red in H1, H2 |- *. cbn [snd] in *. lia.
  Qed.

  Notation bgood := (bgood cfg sec).

  Lemma extend_fuel Av Ps fo b n items r fo' b' : bgood Av Ps fo b n ->
    extend fo b items = (r, fo', b') -> r <> NoFuel.
  Proof.
    intros (F & Es & Ec & Er & G) E. cbn [s_now only] in Ec. unfold extend in E. destruct items as [|kv items]; [now injection E as <- <- <-|].
    destruct (run fo b _) as [[r0 fo0] b0] eqn:Er0. unfold run in Er0.
    rewrite Es, Ec, Er in Er0.
    assert (H : nfw (le_src (kv :: items)) (extend_above cfg sec (node_depth (option_map root_ix n)) (option_map root_ix n) None (kv :: items)) (wof fo (b_off b))).
    { apply (nf_extend_above _ n (b_off b)); [exact F|].
      destruct n as [t|]; cbn; [|lia]. split; [apply G|unfold depth; lia]. }
    unfold nfw in H. change {| w_store := fo_store fo; w_cache := fo_cache fo; w_off := b_off b; w_log := fo_log fo |} with (wof fo (b_off b)) in Er0.
    destruct (extend_above _ _ _ _ _ _ _) as [rr w]. cbn in H. injection Er0 as <- <- <-.
    destruct rr as [[i l]|e|p|]; injection E as <- <- <-; easy.
  Qed.

  Lemma pack_fuel Av Ps fo b n r fo' b' : bgood Av Ps fo b n ->
    pack fo b = (r, fo', b') -> r <> NoFuel.
  Proof.
    intros I E. pose proof I as (F & Es & Ec & Er & G). cbn [s_now only] in Ec. unfold pack in E.
    assert (Hstay : forall fo2, fext sec fo (b_off b) fo2 (b_off b) -> bgood Av Ps fo2 b n).
    { intros fo2 W. split; [eapply fext_fok; eauto|]. splits; auto. exact (gn_mono cfg sec Av Ps _ _ _ _ _ W G). }
    set (rts := match n with Some t => fst (groots t None) | None => [] end).
    destruct (roots fo b) as [rr fo1] eqn:Eroots.
    pose proof (roots_api _ _ _ _ _ _ _ _ _ I Eroots) as (S1 & H1 & _). fold rts in H1.
    pose proof (fsame_fext sec _ _ (b_off b) S1) as W1.
    destruct H1 as [->|[e ->]]; [|injection E as <- <- <-; discriminate].
    pose proof (Hstay _ W1) as I1. rewrite Es, Ec in E.
    destruct (run fo1 b _) as [[r1 fo2] b1] eqn:Erun.
    assert (Gr : Forall (gd cfg sec Av Ps (wof fo1 (b_off b))) rts).
    { unfold rts. destruct n as [t|]; [|constructor]. destruct I1 as (_ & _ & _ & _ & G1).
      apply groots_sub; [|apply G1]. intros x cs. apply gd_children. }
    assert (Hr : Forall (fun c => isealed (root_ix c) = true) rts /\ levels_desc (map root_ix rts) = true).
    { unfold rts. destruct n as [t|]; [|split; [constructor|easy]].
      destruct (groots_sealed t None) as (A1 & A2 & _). split; [|easy].
      eapply Forall_impl; [|exact A1]. now intros c []. }
    destruct Hr as [Hr1 Hr2].
    pose proof (run_wrote cfg sec Av Ps fo1 b n _ (fun i => i) Ps
                 (fun n' => ocontent n' = flat_map content rts /\ opacked n') r1 fo2 b1 I1
                 (wf_tree_from_roots sec cfg (map root_ix rts))) as H2.
    match type of H2 with ?P -> _ => assert (Hpost : P) end.
    { eapply post_conseq; [apply (post_tree_from_roots cfg sec Hcfg Av Ps Ps); auto|].
      intros i w' (node & A1 & A2 & A3). exists node. split; [easy|]. destruct node as [t|].
      - destruct A2 as [A2 A4]. splits; auto. intros ps. apply (packed_pk cfg); auto; try apply A2; auto.
      - cbn. splits; auto. }
    specialize (H2 Hpost Erun). clear Hpost. destruct H2 as (W2 & (n1 & I2 & H2 & H2') & _ & H2s).
    pose proof (nf_run _ fo1 b _ (nf_tree_from_roots cfg sec Hcfg (map root_ix rts))) as Hnf. rewrite Erun in Hnf. cbn [fst] in Hnf.
    destruct r1 as [i|e|p|]; [|injection E as <- <- <-; discriminate|injection E as <- <- <-; discriminate|easy].
    destruct (collect_from fo2 _ _) as [rr3 fo3] eqn:Ecol.
    assert (I1' : bgood Av Ps fo2 {| b_root := b_root b; b_off := b_off b1; b_sec := b_sec b; b_cfg := b_cfg b |} n).
    { destruct I2 as (J1 & J2 & J3 & J4 & J5). split; [easy|]. cbn. splits; auto.
      destruct I1 as (_ & _ & _ & _ & G1). exact (gn_mono cfg sec Av Ps _ _ _ _ _ W2 G1). }
    assert (Ecol' : collect_from fo2 (snapshot {| b_root := b_root b; b_off := b_off b1; b_sec := b_sec b; b_cfg := b_cfg b |}) (builder_count (set_root b1 i)) = (rr3, fo3)).
    { rewrite <- Ecol. unfold snapshot. cbn. now destruct (b_root b). }
    pose proof (collect_api _ _ _ _ _ _ _ _ _ _ I1' Ecol') as (S3 & H3 & _).
    pose proof (fsame_fext sec _ _ (b_off b1) S3) as W3.
    assert (I3 : bgood Av Ps fo3 (set_root b1 i) n1).
    { destruct I2 as (J1 & J2 & J3 & J4 & J5). split; [eapply fext_fok; eauto|]. splits; auto. exact (gn_mono cfg sec Av Ps _ _ _ _ _ W3 J5). }
    destruct H3 as [->|[e ->]]; [|injection E as <- <- <-; discriminate].
    destruct (omapM _ _) as [remainder|]; [|injection E as <- <- <-; discriminate].
    eapply extend_fuel; eauto.
  Qed.

  (** ** C45: with room for at least one entry in a leaf, everything terminates

      In every reachable state, with any losses, repairs and failures, and on
      any builder, packed or not. *)
  Theorem C45_terminates_partial s items q :
    reach anything cfg sec s ->
    fst (exec (OExtend items) s) <> NoFuel
    /\ fst (exec (OExtendUnpacked items) s) <> NoFuel
    /\ fst (exec OPack s) <> NoFuel
    /\ fst (exec (ORetain q) s) <> NoFuel
    /\ fst (exec ORepair s) <> NoFuel.
  Proof.
    intros R. destruct (reach_b cfg sec Hcfg _ _ R) as (n & I). splits; cbn [exec].
    - destruct (extend (sy_fo s) (sy_b s) items) as [[r fo'] b'] eqn:E. exact (extend_fuel _ _ _ _ _ _ _ _ _ I E).
    - destruct (extend_unpacked (sy_fo s) (sy_b s) items) as [[r fo'] b'] eqn:E.
      pose proof (C10_extend_unpacked cfg sec Hcfg _ _ _ _ _ R E) as H. cbn. intros ->. exact H.
    - destruct (pack (sy_fo s) (sy_b s)) as [[r fo'] b'] eqn:E. exact (pack_fuel _ _ _ _ _ _ _ _ I E).
    - destruct (retain (sy_fo s) (sy_b s) q) as [[r fo'] b'] eqn:E.
      pose proof (C10_retain cfg sec Hcfg _ _ _ _ _ R E) as H. cbn. intros ->. exact H.
    - destruct (repair (sy_fo s) (sy_b s)) as [[r fo'] b'] eqn:E.
      pose proof (C10_repair cfg sec Hcfg _ _ _ _ R E) as H. cbn. now destruct r.
  Qed.
End Tree.

(** * With no room in a leaf nothing terminates *)
Section Stuck.
  Context {T : Types} {X : Ext} {B : Backend T}.
  Variable cfg : Config.
  Variable sec : Secrets.
  Hypothesis H0 : max_leaf_count cfg = 0.

  (** If [m] succeeds, it returns all of [from]. *)
  Definition keeps {A} (from : list (K * V)) (m : M (A * list (K * V))) : Prop :=
    forall w a rest w', m w = (Ok (a, rest), w') -> rest = from.

  Lemma keeps_bind {A C} from (m : M A) (f : A -> M (C * list (K * V))) :
    (forall a, keeps from (f a)) -> keeps from (mbind m f).
  Proof.
    intros H w a rest w' E. unfold mbind in E. destruct (m w) as [[x|e|p|] w1]; try discriminate. eapply H; eauto.
  Qed.
  Lemma keeps_bind2 {A C} from (m : M (A * list (K * V))) (f : A * list (K * V) -> M (C * list (K * V))) :
    keeps from m -> (forall a, keeps from (f (a, from))) -> keeps from (mbind m f).
  Proof.
    intros Hm H w a rest w' E. unfold mbind in E. destruct (m w) as [[[x l]|e|p|] w1] eqn:Em; try discriminate.
    apply Hm in Em. subst l. eapply H; eauto.
  Qed.
  Lemma keeps_ret {A} from (a : A) : keeps from (ret (a, from)).
  Proof. intros w x rest w' E. unfold ret in E. congruence. Qed.

  Lemma keeps_extend_leaf c keys from : keeps from (extend_leaf cfg sec c keys from).
  Proof.
    unfold extend_leaf. apply keeps_bind. intros _.
    intros w a rest w' E. unfold mbind at 1, lift in E.
    destruct (fill _ _ _ _ _ _ _) as [[[[z full] ks] rest1]| | |] eqn:Ef; try discriminate.
    assert (rest1 = from) as ->.
    { unfold fill in Ef. match type of Ef with rbind ?m _ = _ => destruct m as [[[size chunks] ls]| | |] end; try discriminate.
      cbn [rbind] in Ef. rewrite H0 in Ef.
      destruct from as [|[k v] from]; cbn [fill_loop Nat.leb rbind] in Ef; now injection Ef as _ _ _ <-. }
    revert E. apply keeps_bind. intros e. apply keeps_bind. intros l. apply keeps_ret.
  Qed.
  Lemma keeps_leaf_from_iter from : keeps from (leaf_from_iter cfg sec from).
  Proof. apply keeps_bind. intros _. apply keeps_extend_leaf. Qed.
  Lemma keeps_fill_children f from : (forall from, keeps from (f from)) ->
    forall n cs, keeps from (fill_children f n cs from).
  Proof.
    intros Hf. induction n as [|n IH]; intros cs; cbn [fill_children]; [apply keeps_ret|].
    destruct from; [apply keeps_ret|]. apply keeps_bind2; [apply Hf|]. intros c. apply IH.
  Qed.
  Lemma keeps_extend_branch_with f cs level from m : (forall from, keeps from (f from)) ->
    keeps from (extend_branch_with cfg sec f cs level from m).
  Proof.
    intros Hf. unfold extend_branch_with. do 3 (apply keeps_bind; intros _).
    apply keeps_bind2; [now apply keeps_fill_children|]. intros cs'. apply keeps_bind. intros x. apply keeps_bind. intros _. apply keeps_ret.
  Qed.
  Lemma keeps_fill_node level : forall from, keeps from (fill_node cfg sec level from).
  Proof.
    induction level as [|l IH]; intros from; cbn [fill_node]; apply keeps_bind; intros _.
    - apply keeps_bind2; [apply keeps_leaf_from_iter|]. intros. apply keeps_ret.
    - apply keeps_bind2; [now apply keeps_extend_branch_with|]. intros. apply keeps_ret.
  Qed.

  (** However many rounds are allowed, the loop does not end by itself. *)
  Lemma climb_stuck fuel : forall node from w p w',
    from <> [] -> climb cfg sec fuel node None from w <> (Ok p, w').
  Proof.
    induction fuel as [|f IH]; intros node from w p w' Hne E; cbn [climb] in E;
      replace (Write.is_nil from) with false in E by (destruct from; [congruence|reflexivity]); cbn [negb orb andb Write.below] in E; [discriminate|].
    unfold mbind in E. destruct (extend_branch _ _ _ _ _ _ _) as [[[x l]|e|q|] w1] eqn:Eb; try discriminate.
    unfold extend_branch in Eb. apply keeps_extend_branch_with in Eb; [|apply keeps_fill_node]. subst l. eapply IH; eauto.
  Qed.
End Stuck.

Definition stuck_cfg (c k s : nat) : Config :=
  {| target_leaf_size := 1000; max_leaf_count := 0; max_key_branches := S k; max_summary_branches := S (S s);
     zstd_level := 10; max_uncompressed_leaf_size := 1000 |}%N.

(** C45 does not hold: [Config::validate] accepts configurations with no room
    for an entry in a leaf. Then appending anything to a new stream does not
    succeed, and the loop of [extend_above] has no other exit than a failure of
    the store or the overflow of a counter: however many rounds it is given, it
    asks for more. *)
Theorem C45_refuted :
  exists cfg, config_validate cfg = true
    /\ (forall (T : Types) (X : Ext) (B : Backend T) sec fo items, items <> [] ->
          (forall fo' b', extend fo (builder_new cfg sec) items <> (Ok tt, fo', b'))
          /\ (forall fuel node w p w', climb cfg sec fuel node None items w <> (Ok p, w')))
    /\ (let w := {| w_store := ((10000000%N, []) : @Store ITypes IBackend); w_cache := ([] : @Cache ITypes IBackend); w_off := 0; w_log := [] |} in
        forall fuel, In fuel (seq 0 5) ->
        match leaf_from_iter cfg esec (pairs 0 1) w with
        | (Ok (x, from), w1) => from = pairs 0 1 /\ fst (climb cfg esec fuel (ILeaf x) None from w1) = NoFuel
        | _ => False
        end).
Proof.
  exists (stuck_cfg 0 1 0). split; [reflexivity|]. split.
  - intros T X B sec fo items Hne. split.
    + intros fo' b' E. unfold extend in E. destruct items as [|kv items]; [congruence|].
      destruct (run _ _ _) as [[r fo1] b1] eqn:Er. unfold run in Er.
      match type of Er with (let '(r, w) := ?m in _) = _ => destruct m as [rr w1] eqn:Em end.
      assert (exists p, rr = Ok p) as [p ->].
      { injection Er as <- _ _. destruct rr as [p| | |]; [eauto|discriminate..]. }
      cbn [b_cfg b_sec b_root builder_new node_depth extend_above Write.is_nil] in Em.
      unfold massert in Em at 1. unfold mbind at 1, ret at 1 in Em.
      unfold mbind at 1 in Em. destruct (mbind (leaf_from_iter _ _ _) _ _) as [[[n from]| | |] w2] eqn:El; try discriminate.
      assert (from = kv :: items) as ->.
      { revert El. apply keeps_bind2; [now apply keeps_leaf_from_iter|]. intros. apply keeps_ret. }
      unfold mbind at 1 in Em. destruct (climb _ _ _ _ _ _ _) as [[q| | |] w3] eqn:Ec; try discriminate.
      revert Ec. now apply climb_stuck.
    + intros fuel node w p w'. now apply climb_stuck.
  - cbv zeta. intros fuel Hf. cbn in Hf.
    repeat (destruct Hf as [<-|Hf]; [vm_compute; split; reflexivity|]). destruct Hf.
Qed.

(** A state that [C45_terminates_partial] speaks about, and what happens there. *)
Example C45_case :
  reach anything ecfg esec st3 /\ config_ok ecfg
  /\ fst (exec (OExtend (pairs 20 5)) st1) = Ok tt /\ fst (exec (OExtendUnpacked (pairs 20 5)) st3) = Ok tt.
Proof. splits; [apply no_loss_any, st3_ok|apply ecfg_ok|vm_compute; reflexivity|vm_compute; reflexivity]. Qed.

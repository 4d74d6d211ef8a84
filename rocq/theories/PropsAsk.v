(** Properties of which blocks filtered iteration asks for: C69. *)
From Coq Require Import List NArith ZArith Lia Bool String Arith.
From Verif Require Import Base BaseProofs Cbor Types Seq SeqProofs Query QuerySpec World Read Write Api Iter IterFrame History Spec IterSpec Ghost Frame ReadProofs Packable WriteProofs QueryProofs PackProofs RetainProofs NoPurged ApiProofs SysProofs HistProofs IterProofs IndexProofs Instance Example PropsWrite PropsRead PropsQuery PropsMaintain PropsIter PropsLocal PropsCost PropsHeight.
Import ListNotations.

(** ** Specification *)

(** A cache that keeps what is put into it: a [BranchCache] with enough
    capacity. *)
Class KeepingCache (T : Types) (B : Backend T) : Prop := {
  cput_holds : forall c l b, fst (cget (cput c l b) l) <> None;
  cput_keeps : forall c l b x, fst (cget c x) <> None -> fst (cget (cput c l b) x) <> None;
  cget_holds : forall c l x, fst (cget c x) <> None -> fst (cget (snd (cget c l)) x) <> None
}.

Section Spec.
  Context {T : Types} {X : Ext} {B : Backend T}.
  Variable sec : Secrets.
  (** What a request for a block costs. *)
  Variable price : L -> nat.

  (** [seen] goes up by at most the price with each request. *)
  Definition bill (seen : Store -> nat) : Prop :=
    forall s l, seen (snd (sget s l)) <= seen s + price l.

  (** Whether a branch is asked for again for each of its children. *)
  Variable again : bool.

  (** [l] is the link of the branch [x], whose block decodes to [cs]. *)
  Definition decodes (x : BranchIndex) (l : L) (cs : list Index) : Prop :=
    bi_link x = Some l /\ exists d r, l = digest d /\ deserialize_compressed (index_key sec) d = Ok (cs, r).

  (** What the query [q] has to pay for the node [i], whose first entry is at
      [off]: the leaves with a match, and the branches with a child that the
      query selects. *)
  Inductive need (q : Query) : nat -> Index -> nat -> Prop :=
  | need_purged off i : ilink i = None -> need q off i 0
  | need_leaf_none off x :
      any (q_containing q off x (repeat true (List.length (leaf_keys x)))) = false -> need q off (ILeaf x) 0
  | need_leaf off x l :
      li_link x = Some l ->
      any (q_containing q off x (repeat true (List.length (leaf_keys x)))) = true -> need q off (ILeaf x) (price l)
  | need_branch_none off x :
      any (q_intersecting q off x (repeat true (List.length (branch_sums x)))) = false -> need q off (IBranch x) 0
  | need_branch off x l cs n :
      decodes x l cs ->
      any (q_intersecting q off x (repeat true (List.length (branch_sums x)))) = true ->
      needs q off (q_intersecting q off x (repeat true (List.length (branch_sums x)))) cs n ->
      need q off (IBranch x) (price l * (if again then List.length cs else 1) + n)
  with needs (q : Query) : nat -> list bool -> list Index -> nat -> Prop :=
  | needs_nil off : needs q off [] [] 0
  | needs_skip off f c cs n : needs q (off + icount c) f cs n -> needs q off (false :: f) (c :: cs) n
  | needs_take off f c cs a n :
      need q off c a -> needs q (off + icount c) f cs n -> needs q off (true :: f) (c :: cs) (a + n).
End Spec.

Section Props.
  Context {T : Types} {TL : TypesLaws T} {X : Ext} {XL : ExtLaws X}
          {B : Backend T} {BL : BackendLaws T B}.
  Variable cfg : Config.
  Variable sec : Secrets.
  Hypothesis Hcfg : config_ok cfg.
  Notation key := (index_key sec).
  Variable price : L -> nat.
  Variable seen : Store -> nat.
  Hypothesis Hseen : bill price seen.
  Variable again : bool.
  Hypothesis Hcache : again = true \/ KeepingCache T B.

  Definition lprice (l : option L) : nat := match l with Some l => price l | None => 0 end.
  Definition holds (c : Cache) (l : L) : Prop := fst (cget c l) <> None.

  Section Need.
    Context {E : Type}.
    Variable q : Query.
    Variable mk : node_info -> E.
    Hypothesis Hq : q_sized q.

    Fixpoint gneed (o : nat) (t : tree) : nat :=
      match t with
      | TLeaf x _ => if any (leaf_mask q o x) then lprice (li_link x) else 0
      | TBranch x cs =>
          if any (branch_mask q o x) then
            lprice (bi_link x) * (if again then List.length cs else 1)
            + sum_nat ((fix go (o : nat) (f : list bool) (cs : list tree) : list nat :=
                          match cs with
                          | [] => []
                          | c :: cs' => (if hd false f then gneed o c else 0) :: go (o + cnt c) (tl f) cs'
                          end) o (branch_mask q o x) cs)
          else 0
      | _ => 0
      end.
    Fixpoint weights (o : nat) (f : list bool) (cs : list tree) : list nat :=
      match cs with
      | [] => []
      | c :: cs' => (if hd false f then gneed o c else 0) :: weights (o + cnt c) (tl f) cs'
      end.
    Lemma gneed_branch o x cs : gneed o (TBranch x cs) =
      if any (branch_mask q o x) then
        lprice (bi_link x) * (if again then List.length cs else 1) + sum_nat (weights o (branch_mask q o x) cs)
      else 0.
    Proof. reflexivity. Qed.

    Lemma weights_nth j : forall o f cs c b, nth_error cs j = Some c -> nth_error f j = Some b ->
      nth_error (weights o f cs) j = Some (if b then gneed (o + pre j cs) c else 0).
    Proof.
      induction j as [|j IH]; intros o f [|c0 cs] c b Hc Hb; try discriminate; destruct f as [|b0 f]; try discriminate; cbn [weights].
      - injection Hc as ->. injection Hb as ->. cbn. unfold pre. cbn. now rewrite Nat.add_0_r.
      - cbn [nth_error hd tl] in *. rewrite (IH _ _ _ _ _ Hc Hb). f_equal. destruct b; [|easy]. f_equal.
        unfold pre. cbn [firstn map]. unfold sum_nat. cbn. lia.
    Qed.
    Lemma weights_length cs : forall o f, List.length (weights o f cs) = List.length cs.
    Proof. induction cs as [|c cs IH]; intros o f; cbn; [easy|]. now rewrite IH. Qed.

    Lemma need_gneed lim t : repr sec lim t -> forall o n, need sec price again q o (root_ix t) n -> n = gneed o t.
    Proof.
      revert lim. induction t as [x vs|x|x cs IH|x] using tree_ind'; intros lim R o n H.
      - destruct R as (_ & blk & r & R & _). cbn [gneed]. unfold leaf_mask.
        inversion H; subst; cbn in *; [congruence|..];
          match goal with Ha : any _ = _ |- _ => rewrite Ha end; [easy|].
        match goal with Hl : li_link x = Some l |- _ => now rewrite Hl end.
      - cbn [gneed]. cbn in R. inversion H; subst; cbn in *; congruence.
      - rewrite gneed_branch. unfold branch_mask. pose proof R as R0. apply repr_branch in R as (_ & _ & _ & _ & blk & r & Hl & Hb & _ & Hch).
        cbn [root_ix] in H. inversion H as [? ? Hp|?|?|? ? Ha|? ? l cs' n' Hd Ha Hn]; subst; cbn in *; [congruence|now rewrite Ha|].
        rewrite Ha. destruct Hd as (Hl' & d & r' & -> & Hd). rewrite Hl in Hl'. injection Hl' as Hl'. apply digest_inj in Hl' as <-.
        rewrite (deserialize_spec _ _ _ _ Hb) in Hd. destruct (fits _); [|discriminate]. injection Hd as <- <-.
        rewrite map_length, Hl. cbn [lprice]. f_equal. clear -IH Hch Hn.
        revert Hn. generalize (q_intersecting q o x (repeat true (List.length (branch_sums x)))). intros f. revert o f n'.
        induction cs as [|c cs IHcs]; intros o f n' Hn.
        + inversion Hn; subst. easy.
        + inversion Hch; subst. inversion IH; subst. cbn [map] in Hn. inversion Hn; subst; cbn [weights hd tl]; unfold sum_nat; cbn [fold_right]; fold (sum_nat (weights (o + cnt c) f0 cs)).
          * cbn. apply IHcs; auto.
          * f_equal; [eauto|]. now apply IHcs.
      - cbn in R. cbn [gneed]. inversion H; subst; cbn in *; try congruence. match goal with Hd : decodes _ _ _ _ |- _ => destruct Hd as [Hd _]; congruence end.
    Qed.

    Variable g : tree.
    Variable lim : N.
    Hypothesis Rg : repr sec lim g.
    Notation nsub := (nsub q g).

    Section Mode.
      Variable m : mode.
      Notation done_off := (done_off m).
      Notation start_off := (start_off m).

      Definition left (n len : nat) : nat := match m with Forward => len - n | Backward => n end.
      Definition rest (n : nat) (ws : list nat) : list nat := match m with Forward => skipn n ws | Backward => firstn n ws end.
      Definition fcost (o : nat) (x : BranchIndex) (cs : list tree) (n : nat) : nat :=
        (if again then lprice (bi_link x) * left n (List.length cs) else 0)
        + sum_nat (rest n (weights o (branch_mask q o x) cs)).
      Definition entry_cost (x : BranchIndex) : nat := if again then 0 else lprice (bi_link x).

      Lemma fcost_first o x cs : any (branch_mask q o x) = true ->
        entry_cost x + fcost o x cs (first m (List.length cs)) = gneed o (TBranch x cs).
      Proof.
        intros Ha. rewrite gneed_branch, Ha. unfold entry_cost, fcost, left, rest. destruct m; cbn [first].
        - rewrite Nat.sub_0_r. cbn [skipn]. destruct again; lia.
        - rewrite firstn_all2 by (rewrite weights_length; lia). destruct again; lia.
      Qed.

      Lemma sum_nat_cons a l : sum_nat (a :: l) = a + sum_nat l.
      Proof. reflexivity. Qed.

      Lemma fcost_step o x cs n b c : live m n (List.length cs) ->
        nth_error (branch_mask q o x) (Z.to_nat (pos m n)) = Some b -> nth_error cs (Z.to_nat (pos m n)) = Some c ->
        fcost o x cs n = (if again then lprice (bi_link x) else 0)
          + (if b then gneed (o + pre (Z.to_nat (pos m n)) cs) c else 0) + fcost o x cs (adv m n).
      Proof.
        intros Hl Hb Hc. pose proof (weights_nth _ o _ _ _ _ Hc Hb) as Hw. unfold fcost.
        remember (if b then _ else _) as wj eqn:Ew. clear Ew.
        assert (H1 : sum_nat (rest n (weights o (branch_mask q o x) cs)) = wj + sum_nat (rest (adv m n) (weights o (branch_mask q o x) cs))
                  /\ left n (List.length cs) = S (left (adv m n) (List.length cs))).
        { clear -Hl Hw. unfold rest, left. destruct m; cbn [pos adv live] in *.
          - rewrite Nat2Z.id in Hw. rewrite (skipn_nth _ _ _ Hw). rewrite sum_nat_cons. split; lia.
          - destruct n as [|n]; [lia|]. replace (Z.to_nat (Z.of_nat (S n) - 1)) with n in Hw by lia. replace (S n - 1) with n by lia.
            rewrite (firstn_nth _ _ _ Hw), sum_nat_app, sum_nat_cons. change (sum_nat []) with 0. split; lia. }
        destruct H1 as [-> ->]. destruct again; lia.
      Qed.

      Inductive cbelow : list tstate -> nat -> nat -> Prop :=
      | cb_nil off : cbelow [] off 0
      | cb_cons o x cs n st f :
          nsub o (TBranch x cs) -> any (branch_mask q o x) = true -> live m n (List.length cs) ->
          cbelow st (done_off o (TBranch x cs)) f ->
          cbelow (frame_at x (pos m n) (branch_mask q o x) :: st) (o + pre (adv m n) cs) (fcost o x cs (adv m n) + f).
      Inductive ctop : list tstate -> nat -> nat -> Prop :=
      | ct_nil off : ctop [] off 0
      | ct_fresh o t st f : nsub o t -> cbelow st (done_off o t) f ->
          ctop (ts_new (root_ix t) :: st) (start_off o t) (gneed o t + f)
      | ct_frame o x cs n st f :
          nsub o (TBranch x cs) -> any (branch_mask q o x) = true -> n <= List.length cs ->
          cbelow st (done_off o (TBranch x cs)) f ->
          ctop (frame_at x (pos m n) (branch_mask q o x) :: st) (o + pre n cs) (fcost o x cs n + f).

      Notation facts := (branch_facts sec q Hq g lim Rg).

      Lemma ascend_ctop h st off f : cbelow st off f -> ctop (ascend m (h :: st)) off f.
      Proof.
        intros H. destruct H as [|o x cs n st f H1 H2 H3 H4]; [constructor|]. cbn [ascend].
        destruct (facts _ _ _ H1) as (F1 & F2 & F3).
        destruct (next_pos_frame m x _ _ _ F3 H3) as [-> H5]. now constructor.
      Qed.

      (** The branches in progress are in the cache. *)
      Definition hot (c : Cache) (f : tstate) : Prop :=
        ts_filter f <> [] -> forall l, ilink (ts_index f) = Some l -> holds c l.
      Definition warm (c : Cache) (st : list tstate) : Prop := again = true \/ Forall (hot c) st.
      Definition keeps (c c' : Cache) : Prop := again = true \/ forall l, holds c l -> holds c' l.

      Lemma warm_keeps c c' st : warm c st -> keeps c c' -> warm c' st.
      Proof.
        intros [H|H] [K|K]; try (now left). right. revert H. apply Forall_impl. intros f H Hf l Hl. apply K. now apply H.
      Qed.
      Lemma warm_ascend c h st : warm c (h :: st) -> warm c (ascend m (h :: st)).
      Proof.
        intros [H|H]; [now left|]. right. inversion H; subst. destruct st as [|s st]; cbn [ascend]; [constructor|].
        match goal with H : Forall _ (s :: st) |- _ => inversion H; subst end. constructor; auto.
      Qed.
      Lemma warm_tl c h st : warm c (h :: st) -> warm c st.
      Proof. intros [H|H]; [now left|]. right. now inversion H. Qed.

      Definition it_pays (it : titer E) (f : nat) : Prop :=
        ti_sec it = sec /\ ti_mode it = m /\ ti_query it = q /\ ctop (ti_stack it) (ti_off it) f.

      Lemma it_pays_set it off st f f' : it_pays it f -> ctop st off f' -> it_pays (ti_set it off st) f'.
      Proof. intros (H1 & H2 & H3 & _) H. unfold it_pays. cbn. splits; auto. Qed.

      (** What a turn has paid: it leaves the rest to be paid. *)
      Definition paid {A} (r : res (titer E * A)) (w w' : world) (f : nat) : Prop :=
        match r with
        | Ok (it', _) => exists f', it_pays it' f' /\ warm (w_cache w') (ti_stack it')
                           /\ seen (w_store w') + f' <= seen (w_store w) + f
        | _ => seen (w_store w') <= seen (w_store w) + f
        end.

      Lemma get_block_bill l w r w' : get_block l w = (r, w') ->
        seen (w_store w') <= seen (w_store w) + price l /\ w_cache w' = w_cache w.
      Proof.
        unfold get_block. pose proof (Hseen (w_store w) l) as H.
        destruct (sget (w_store w) l) as [[d|] s']; intros [= <- <-]; cbn in *; split; auto.
      Qed.
      Lemma leaf_bill l w r w' : load_leaf_from_link sec l w = (r, w') ->
        seen (w_store w') <= seen (w_store w) + price l /\ w_cache w' = w_cache w.
      Proof.
        unfold load_leaf_from_link, mbind, lift. destruct (get_block l w) as [rd w1] eqn:Eg. apply get_block_bill in Eg.
        destruct rd as [d|e|p|]; try (intros [= <- <-]; exact Eg).
        destruct (decrypt d _ _) as [[z y]|e|p|]; intros [= <- <-]; exact Eg.
      Qed.
      Lemma branch_bill l w r w' : load_branch_from_link sec l w = (r, w') ->
        seen (w_store w') <= seen (w_store w) + price l /\ w_cache w' = w_cache w.
      Proof.
        unfold load_branch_from_link, mbind, lift. destruct (get_block l w) as [rd w1] eqn:Eg. apply get_block_bill in Eg.
        destruct rd as [d|e|p|]; try (intros [= <- <-]; exact Eg).
        destruct (deserialize_compressed _ d) as [z|e|p|]; try (intros [= <- <-]; exact Eg).
        unfold new_branch_data. destruct (fst z); intros [= <- <-]; exact Eg.
      Qed.
      Lemma cached_bill l w r w' : load_branch_cached sec l w = (r, w') ->
        keeps (w_cache w) (w_cache w') /\ seen (w_store w') <= seen (w_store w) + price l
        /\ (again = false -> holds (w_cache w) l -> seen (w_store w') <= seen (w_store w))
        /\ (forall b, r = Ok b -> again = true \/ holds (w_cache w') l).
      Proof.
        unfold load_branch_cached, mbind at 1, cache_get. destruct (cget (w_cache w) l) as [b c] eqn:Ec.
        assert (K : keeps (w_cache w) c).
        { destruct Hcache as [H|KC]; [now left|right]. intros x Hx. change c with (snd (b, c)). rewrite <- Ec. now apply cget_holds. }
        assert (Hh : holds (w_cache w) l -> b <> None) by (unfold holds; now rewrite Ec).
        destruct b as [b|].
        - intros [= <- <-]. cbn. splits; auto; [lia|]. intros b' _. destruct K as [K|K]; [now left|right]. apply K. unfold holds. rewrite Ec. discriminate.
        - unfold mbind at 1. destruct (load_branch_from_link sec l _) as [rb w1] eqn:El. apply branch_bill in El as [H1 H2]. cbn in H1, H2.
          assert (Hno : again = false -> holds (w_cache w) l -> seen (w_store w') <= seen (w_store w)) by (intros _ H; now destruct (Hh H)).
          destruct rb as [b|e|p|].
          + unfold mbind, cache_put. intros [= <- <-]. cbn. rewrite H2. splits; auto.
            * destruct Hcache as [H|KC]; [now left|]. destruct K as [K|K]; [now left|right]. intros x Hx. apply cput_keeps. now apply K.
            * intros b' _. destruct Hcache as [H|KC]; [now left|right]. apply cput_holds.
          + intros [= <- <-]. rewrite H2. splits; auto. discriminate.
          + intros [= <- <-]. rewrite H2. splits; auto. discriminate.
          + intros [= <- <-]. rewrite H2. splits; auto. discriminate.
      Qed.

      Lemma skip_pays it h st o t r w0 w w' f f' (c : chunk E) : it_pays it f -> warm (w_cache w) (h :: st) ->
        ti_off it = start_off o t -> cbelow st (done_off o t) f' -> seen (w_store w) + f' <= seen (w_store w0) + f ->
        mbind (move_off m (ti_off it) (cnt t)) (fun off => ret (ti_set it off (ascend m (h :: st)), Some (Some c))) w = (r, w') ->
        paid r w0 w' f.
      Proof.
        intros Ho Hw Eo Hb Hf. unfold mbind. destruct (move_off m _ _ w) as [r1 w1] eqn:Em.
        destruct (move_off_inv m _ _ _ _ _ Em) as [(p & ->)|[-> ->]].
        - intros [= <- <-]. unfold move_off in Em. cbn. destruct m; [discriminate|]. destruct (Nat.ltb _ _); injection Em as _ <-; lia.
        - intros [= <- <-]. exists f'. splits; [eapply it_pays_set; [exact Ho|]|exact (warm_ascend _ _ _ Hw)|lia].
          rewrite Eo, moved_start. now apply (ascend_ctop h).
      Qed.

      (** A turn at a branch in progress, or at one that was just entered. *)
      Lemma frame_pays it o x cs n st l w r w' f f' fst0 : it_pays it f -> nsub o (TBranch x cs) -> any (branch_mask q o x) = true ->
        live m n (List.length cs) -> cbelow st (done_off o (TBranch x cs)) f' -> ti_off it = o + pre n cs -> bi_link x = Some l ->
        wok key w -> warm (w_cache w) st ->
        (fst0 = true \/ warm (w_cache w) (frame_at x (pos m n) (branch_mask q o x) :: st)) ->
        (if fst0 then entry_cost x else 0) + fcost o x cs n + f' <= f ->
        mbind (load_branch_cached (ti_sec it) l) (fun b =>
          mbind (at_pos (branch_mask q o x) (pos m n)) (fun bit =>
          mbind (at_pos (br_children b) (pos m n)) (fun c =>
            let head' := {| ts_index := IBranch x; ts_pos := pos m n; ts_filter := branch_mask q o x |} in
            if bit then ret (ti_set it (ti_off it) (ts_new c :: head' :: st), None)
            else mbind (move_off m (ti_off it) (icount c)) (fun off =>
                   ret (ti_set it off (next_pos m head' :: st),
                        Some (Some (visit_skip it (range_at m (ti_off it) (icount c)) (node_info_of c)))))))) w = (r, w') ->
        paid r w w' f.
      Proof.
        intros Ho Hn Ha Hlive Hb Eo El W Hws Hwt Hf. pose proof Ho as (-> & _).
        pose proof (sub_repr _ _ _ _ Rg (nsub_sub _ _ _ _ Hn)) as R. destruct (facts _ _ _ Hn) as (F1 & F2 & F3).
        apply repr_branch in R as (_ & _ & _ & _ & blk & rr & Hl & Hbb & _). rewrite El in Hl. injection Hl as ->.
        assert (Hne' : map root_ix cs <> []) by (destruct cs; [congruence|discriminate]).
        unfold mbind at 1. destruct (load_branch_cached sec (digest blk) w) as [rb w1] eqn:Elb.
        destruct (rd_load_branch_cached sec _ _ _ Hbb Hne' _ _ _ W Elb) as [Hok _].
        apply cached_bill in Elb as (K1 & K2 & K3 & K4).
        destruct (pend_cons m n _ cs F3 Hlive) as (b & c & P1 & P2 & P3 & _ & _ & P6 & P7).
        rewrite (fcost_step _ _ _ _ _ _ Hlive P2 P3) in Hf. unfold entry_cost in Hf. rewrite El in Hf. cbn [lprice] in Hf.
        assert (Hpay : seen (w_store w1) + ((if b then gneed (o + pre (Z.to_nat (pos m n)) cs) c else 0) + fcost o x cs (adv m n) + f') <= seen (w_store w) + f).
        { destruct Hwt as [-> |Hwt]; [destruct again; lia|]. destruct Hwt as [Hg|Hwt]; [rewrite Hg in *; destruct fst0; lia|].
          destruct again eqn:Eg; [destruct fst0; lia|]. inversion Hwt as [|? ? Hhot _]; subst. cbv iota in Hf.
          assert (Hh : holds (w_cache w) (digest blk)).
          { apply Hhot; [cbn; intros Hnil; rewrite Hnil in F3; destruct cs; [congruence|discriminate]|exact El]. }
          specialize (K3 eq_refl Hh). destruct fst0; lia. }
        assert (Hlo : seen (w_store w1) <= seen (w_store w) + f) by lia.
        destruct Hok as [-> |[e ->]]; [|intros [= <- <-]; exact Hlo]. cbn [br_children].
        unfold mbind at 1. rewrite (at_pos_inv _ _ _ _ P1 P2). unfold mbind at 1.
        rewrite (at_pos_inv _ _ (root_ix c) _ P1) by now apply map_nth_error. cbn zeta.
        fold (frame_at x (pos m n) (branch_mask q o x)).
        assert (Hpre : forall j c', nth_error cs j = Some c' -> pre (S j) cs = pre j cs + cnt c').
        { intros j c' Hj. unfold pre. rewrite (firstn_nth _ _ _ Hj), map_app, sum_nat_app. unfold sum_nat at 2. cbn. lia. }
        assert (Hs : start_off (o + pre (Z.to_nat (pos m n)) cs) c = o + pre n cs
                     /\ done_off (o + pre (Z.to_nat (pos m n)) cs) c = o + pre (adv m n) cs).
        { clear -P3 Hlive Hpre. pose proof (Hpre _ _ P3) as Hp. unfold PropsLocal.start_off, PropsLocal.done_off; destruct m; cbn [pos adv live] in *.
          - rewrite Nat2Z.id in *. rewrite Hp. split; lia.
          - destruct n as [|n]; [lia|]. replace (Z.to_nat (Z.of_nat (S n) - 1)) with n in * by lia. replace (S n - 1) with n by lia. split; lia. }
        destruct Hs as [Hs1 Hs2].
        assert (Hw1 : warm (w_cache w1) (frame_at x (pos m n) (branch_mask q o x) :: st)).
        { apply warm_keeps with (c' := w_cache w1) in Hws; [|exact K1]. destruct (K4 _ eq_refl) as [Hg|Hh]; [now left|].
          destruct Hws as [Hg|Hws]; [now left|right]. constructor; [|exact Hws]. intros _ l' Hl'. cbn in Hl'. rewrite El in Hl'. injection Hl' as <-. exact Hh. }
        destruct b.
        - intros [= <- <-]. exists (gneed (o + pre (Z.to_nat (pos m n)) cs) c + (fcost o x cs (adv m n) + f')). splits; [eapply it_pays_set; [exact Ho|]| |lia].
          + rewrite Eo, <- Hs1. constructor; [eapply nsub_step; eauto|]. rewrite Hs2. now constructor.
          + cbn [ti_stack ti_set]. destruct Hw1 as [Hg|Hw1]; [now left|right]. constructor; [|exact Hw1]. intros Hnil. now destruct Hnil.
        - unfold mbind at 1. destruct (move_off m _ _ w1) as [r1 w2] eqn:Em.
          destruct (move_off_inv m _ _ _ _ _ Em) as [(p & ->)|[-> ->]].
          + intros [= <- <-]. unfold move_off in Em. cbn. destruct m; [discriminate|]. destruct (Nat.ltb _ _); injection Em as _ <-; lia.
          + intros [= <- <-]. destruct (next_pos_frame m x _ _ _ F3 Hlive) as [Hnp H5].
            exists (fcost o x cs (adv m n) + f'). splits; [eapply it_pays_set; [exact Ho|]| |lia].
            * rewrite Hnp, Eo, <- Hs1. fold (cnt c). rewrite moved_start, Hs2. now constructor.
            * cbn [ti_stack ti_set]. destruct Hw1 as [Hg|Hw1]; [now left|right]. inversion Hw1; subst. now constructor.
      Qed.

      Lemma tstep_pays it f w r w' : it_pays it f -> wok key w -> warm (w_cache w) (ti_stack it) ->
        tstep it w = (r, w') -> paid r w w' f.
      Proof.
        intros Ho W Hw. pose proof Ho as (E1 & E2 & E3 & Ht). unfold tstep. rewrite E2.
        inversion Ht as [off Es Eo Ef|o t st f' Hn Hb Es Eo Ef|o x cs n st f' Hn Ha Hle Hb Es Eo Ef]; rewrite Ef.
        - intros [= <- <-]. exists f. splits; [exact Ho|exact Hw|lia].
        - rewrite Eo, new_not_exhausted. cbn [ts_index ts_new ts_filter ts_pos is_nil andb].
          pose proof (sub_repr _ _ _ _ Rg (nsub_sub _ _ _ _ Hn)) as R. symmetry in Eo. rewrite <- Es in Hw.
          change (icount (root_ix t)) with (cnt t).
          assert (Hr : fst (range_at m (ti_off it) (cnt t)) = o) by (rewrite Eo; unfold PropsLocal.start_off; destruct m; cbn [range_at fst]; lia).
          destruct t as [x vs|x|x cs|x]; cbn [root_ix node_info_of].
          + destruct R as (Hlen & blk & rr & Hl & Hb' & _). rewrite Hl, Hr, E3. fold (leaf_mask q o x).
            unfold mbind at 1. destruct (visit_leaf it _ x _ _ w) as [rv w1] eqn:Ev.
            assert (Hrv : seen (w_store w1) + f' <= seen (w_store w) + f /\ w_cache w1 = w_cache w).
            { clear -Ef Ev Hl E1 Hseen. rewrite <- Ef. cbn [gneed]. rewrite Hl. cbn [lprice]. unfold visit_leaf, mbind at 1 in Ev. rewrite E1 in Ev. destruct (any (leaf_mask q o x)) eqn:Ea.
              - unfold mbind at 1 in Ev. destruct (load_leaf_from_link sec (digest blk) w) as [rl w2] eqn:Ell.
                apply leaf_bill in Ell as [L1 L2].
                destruct rl as [z|e|p|]; try (injection Ev as <- <-; split; [lia|easy]).
                unfold mbind, lift in Ev. destruct (zs_select _ _); injection Ev as <- <-; (split; [lia|easy]).
              - injection Ev as <- <-. split; [lia|easy]. }
            destruct Hrv as [Hrv Hc]. destruct rv as [c|e|p|]; try (intros [= <- <-]; cbn; lia).
            change (List.length (leaf_keys x)) with (cnt (TLeaf x vs)). rewrite <- Hc in Hw. eapply skip_pays; [exact Ho|exact Hw|exact Eo|exact Hb|lia].
          + cbn in R. rewrite R. change (icount (ILeaf x)) with (cnt (TLeafP x)). eapply skip_pays; [exact Ho|exact Hw|exact Eo|exact Hb|lia].
          + destruct (facts _ _ _ Hn) as (F1 & F2 & F3).
            assert (Hl : exists l, bi_link x = Some l) by (apply repr_branch in R as (_ & _ & _ & _ & blk & rr & Hl & _); eauto).
            destruct Hl as (l & Hl). rewrite Hl, Hr, E3. fold (branch_mask q o x).
            destruct (any (branch_mask q o x)) eqn:Ea; cbn [negb].
            * assert (Hlive : live m (first m (List.length cs)) (List.length cs)).
              { destruct cs; [congruence|]. destruct m; cbn; lia. }
              apply repr_branch in R as (_ & _ & Hlen & _).
              replace (first_pos m (List.length (branch_sums x))) with (pos m (first m (List.length cs))) by (rewrite Hlen; now destruct m).
              eapply (frame_pays _ _ _ _ _ _ _ _ _ _ _ _ true); eauto.
              -- rewrite Eo. unfold PropsLocal.start_off. rewrite F2. destruct m; cbn [first]; [|easy]. unfold pre. cbn. lia.
              -- eapply warm_tl; eauto.
              -- cbv iota. rewrite (fcost_first _ _ _ Ea). lia.
            * change (icount (IBranch x)) with (cnt (TBranch x cs)). eapply skip_pays; [exact Ho|exact Hw|exact Eo|exact Hb|lia].
          + cbn in R. rewrite R. change (icount (IBranch x)) with (cnt (TBranchP x)). eapply skip_pays; [exact Ho|exact Hw|exact Eo|exact Hb|lia].
        - rewrite Eo. destruct (facts _ _ _ Hn) as (F1 & F2 & F3). rewrite <- Es in Hw. destruct (exhausted m _) eqn:Hx.
          + intros [= <- <-]. exists f'. splits; [eapply it_pays_set; [exact Ho|]|exact (warm_ascend _ _ _ Hw)|lia].
            apply (ascend_ctop (frame_at x (pos m n) (branch_mask q o x))). rewrite <- Eo.
            replace (o + pre n cs) with (done_off o (TBranch x cs)); [exact Hb|].
            unfold exhausted, frame_at in Hx. cbn [ts_filter ts_pos] in Hx. unfold PropsLocal.done_off. destruct m; cbn [pos] in Hx.
            * apply andb_prop in Hx as [_ Hx]. apply Z.leb_le in Hx. rewrite F2. replace n with (List.length cs) by lia. reflexivity.
            * apply Z.ltb_lt in Hx. replace n with 0 by lia. unfold pre. cbn. lia.
          + pose proof (not_exhausted m x _ cs n F3 F1 Hle Hx) as Hlive.
            assert (Hl : exists l, bi_link x = Some l).
            { pose proof (sub_repr _ _ _ _ Rg (nsub_sub _ _ _ _ Hn)) as R. apply repr_branch in R as (_ & _ & _ & _ & blk & rr & Hl & _). eauto. }
            destruct Hl as (l & Hl). cbn [ts_index frame_at ts_filter ts_pos node_info_of]. rewrite Hl.
            assert (Hnil : is_nil (branch_mask q o x) = false) by (destruct (branch_mask q o x); [discriminate|easy]).
            rewrite Hnil. cbn [andb]. eapply (frame_pays _ _ _ _ _ _ _ _ _ _ _ _ false); eauto.
            * eapply warm_tl; eauto.
            * cbn. lia.
      Qed.

      Lemma tloop_pays fuel : forall it f w r it' w', it_pays it f -> wok key w -> warm (w_cache w) (ti_stack it) ->
        tloop fuel it w = (r, it', w') ->
        seen (w_store w') <= seen (w_store w) + f
        /\ exists f', it_pays it' f' /\ (forall c, r = Ok c ->
             warm (w_cache w') (ti_stack it') /\ seen (w_store w') + f' <= seen (w_store w) + f).
      Proof.
        induction fuel as [|fuel IH]; intros it f w r it' w' Ho W Hw; cbn [tloop].
        { intros [= <- <- <-]. split; [lia|]. exists f. split; [exact Ho|]. discriminate. }
        destruct (tstep it w) as [r1 w1] eqn:Et. pose proof (tstep_pays _ _ _ _ _ Ho W Hw Et) as Hf.
        pose proof (rf_tstep sec it (proj1 Ho) _ _ _ Et) as Fr.
        destruct r1 as [[it1 [c|]]|e|p|]; cbn [paid] in Hf.
        - destruct Hf as (f' & H1 & H2 & H3). intros [= <- <- <-]. split; [lia|]. exists f'. split; [exact H1|]. intros _ _. split; [exact H2|lia].
        - destruct Hf as (f' & H1 & H2 & H3). intros H. eapply IH in H as (H4 & f2 & H5 & H6); [|exact H1|now apply Fr|exact H2].
          split; [lia|]. exists f2. split; [exact H5|]. intros c Hc. destruct (H6 _ Hc). split; [easy|lia].
        - intros [= <- <- <-]. split; [lia|]. exists f. split; [exact Ho|]. discriminate.
        - intros [= <- <- <-]. split; [lia|]. exists f. split; [exact Ho|]. discriminate.
        - intros [= <- <- <-]. split; [lia|]. exists f. split; [exact Ho|]. discriminate.
      Qed.

      Lemma take_pays n : forall fo (it : titer E) f rs fo' it', it_pays it f -> fok sec fo -> warm (fo_cache fo) (ti_stack it) ->
        take_chunks n fo (Some it) = (rs, fo', it') -> seen (fo_store fo') <= seen (fo_store fo) + f.
      Proof.
        induction n as [|n IH]; intros fo it f rs fo' it' Ho W Hw; cbn [take_chunks]; [intros [= _ <- _]; lia|].
        destruct (next_chunk fo (Some it)) as [[r fo1] it1] eqn:En. pose proof En as En'.
        apply (next_chunk_rext sec) in En' as [Fr _]; [|apply Ho].
        cbn [next_chunk] in En. destruct (tnext it _) as [[r2 it2] w2] eqn:Et. injection En as <- <- <-. unfold tnext in Et.
        destruct (tloop _ it _) as [[r3 it3] w3] eqn:El. apply (tloop_pays _ _ _ _ _ _ _ Ho) in El as (H1 & f' & H2 & H3); [|exact W|exact Hw].
        assert (Hdone : forall fo1 rs2 fo2 it4 rs', fo_store fo1 = w_store w3 -> fok sec fo1 ->
          take_chunks n fo1 (Some (ti_set it3 (ti_off it3) [])) = (rs2, fo2, it4) ->
          (rs', fo2, it4) = (rs, fo', it') -> seen (fo_store fo') <= seen (fo_store fo) + f).
        { intros fo1 rs2 fo2 it4 rs' Es Wf Ec [= _ <- _].
          eapply IH in Ec; [|eapply it_pays_set; [exact H2|constructor]|exact Wf|right; constructor].
          rewrite Es in Ec. cbn in H1. lia. }
        destruct r3 as [[c|]|e|p|]; injection Et as <- <- <-.
        - destruct (take_chunks n _ (Some it3)) as [[rs1 fo2] it4] eqn:Ec. intros [= _ <- _]. destruct (H3 _ eq_refl) as [H4 H5].
          eapply IH in Ec; [|exact H2|now apply Fr|exact H4]. cbn in *. lia.
        - intros [= _ <- _]. exact H1.
        - destruct (take_chunks n _ _) as [[rs1 fo2] it4] eqn:Ec. eapply Hdone; [|now apply Fr|exact Ec]. reflexivity.
        - destruct (take_chunks n _ _) as [[rs1 fo2] it4] eqn:Ec. eapply Hdone; [|now apply Fr|exact Ec]. reflexivity.
        - destruct (take_chunks n _ _) as [[rs1 fo2] it4] eqn:Ec. eapply Hdone; [|now apply Fr|exact Ec]. reflexivity.
      Qed.
    End Mode.

    Lemma start_warm c (it : titer E) t : ti_stack it = [ts_new t] -> warm c (ti_stack it).
    Proof. intros ->. right. constructor; [|constructor]. intros H. now destruct H. Qed.
    Lemma pays_fw : it_pays Forward (ti_new sec q mk (root_ix g)) (gneed 0 g).
    Proof.
      unfold it_pays. cbn. splits; auto. rewrite <- (Nat.add_0_r (gneed 0 g)). apply (ct_fresh Forward 0 g); constructor.
    Qed.
    Lemma pays_bw : it_pays Backward (ti_new_rev sec q mk (root_ix g)) (gneed 0 g).
    Proof.
      unfold it_pays. cbn. splits; auto. rewrite <- (Nat.add_0_r (gneed 0 g)). apply (ct_fresh Backward 0 g); constructor.
    Qed.
  End Need.

  Lemma filtered_bill {E} s i sec' o q p (mk : node_info -> E) n :
    reach anything cfg sec s -> known s (Some (i, sec', o)) -> query_ok q p ->
    need sec price again q 0 i n ->
    forall k rs fo' it',
      take_chunks k (sy_fo s) (iter_filtered_chunked (Some (i, sec', o)) q mk) = (rs, fo', it')
      \/ take_chunks k (sy_fo s) (iter_filtered_chunked_reverse (Some (i, sec', o)) q mk) = (rs, fo', it') ->
      seen (fo_store fo') <= seen (fo_store (sy_fo s)) + n.
  Proof.
    intros R K Q Hn k rs fo' it'. destruct (known_good cfg sec Hcfg _ _ _ R K) as [F G].
    pose proof (query_sized _ _ Q) as Hq.
    destruct (snap_local _ _ _ _ _ _ _ _ _ G eq_refl) as (-> & lim & g & <- & Rg & _).
    rewrite (need_gneed q lim g Rg _ _ Hn).
    intros [H|H]; cbn [iter_filtered_chunked iter_filtered_chunked_reverse] in H.
    - eapply (take_pays q Hq g lim Rg Forward _ _ _ _ _ _ _ (pays_fw q mk g)) in H; [exact H|exact F|eapply start_warm; reflexivity].
    - eapply (take_pays q Hq g lim Rg Backward _ _ _ _ _ _ _ (pays_bw q mk g)) in H; [exact H|exact F|eapply start_warm; reflexivity].
  Qed.
End Props.

(** ** C69: filtered iteration asks only for what the query needs *)

Section Theorems.
  Context {T : Types} {TL : TypesLaws T} {X : Ext} {XL : ExtLaws X}
          {B : Backend T} {BL : BackendLaws T B}.
  Variable cfg : Config.
  Variable sec : Secrets.
  Hypothesis Hcfg : config_ok cfg.

  (** With a cache that keeps what it is given, each block that the query needs is
      asked for at most once, and no other. [price] says which requests are
      counted: all of them if it is 1 everywhere, those for one block if it is 1
      there and 0 elsewhere. The bound holds whatever was lost and however many
      items were taken, in both directions. *)
  Theorem C69_kept {E} (KC : KeepingCache T B) price seen s i sec' o q p (mk : node_info -> E) n :
    bill price seen ->
    reach anything cfg sec s -> known s (Some (i, sec', o)) -> query_ok q p ->
    need sec price false q 0 i n ->
    forall k rs fo' it',
      take_chunks k (sy_fo s) (iter_filtered_chunked (Some (i, sec', o)) q mk) = (rs, fo', it')
      \/ take_chunks k (sy_fo s) (iter_filtered_chunked_reverse (Some (i, sec', o)) q mk) = (rs, fo', it') ->
      seen (fo_store fo') <= seen (fo_store (sy_fo s)) + n.
  Proof. intros Hs R K Q Hn. eapply filtered_bill; eauto. Qed.

  (** With any cache, a branch is asked for at most once for each of its children. *)
  Theorem C69_any_cache {E} price seen s i sec' o q p (mk : node_info -> E) n :
    bill price seen ->
    reach anything cfg sec s -> known s (Some (i, sec', o)) -> query_ok q p ->
    need sec price true q 0 i n ->
    forall k rs fo' it',
      take_chunks k (sy_fo s) (iter_filtered_chunked (Some (i, sec', o)) q mk) = (rs, fo', it')
      \/ take_chunks k (sy_fo s) (iter_filtered_chunked_reverse (Some (i, sec', o)) q mk) = (rs, fo', it') ->
      seen (fo_store fo') <= seen (fo_store (sy_fo s)) + n.
  Proof. intros Hs R K Q Hn. eapply filtered_bill; eauto. Qed.
End Theorems.

(** * Concrete cases *)

(** A test of the premise. *)
Section Tests.
  Context {T : Types} {X : Ext} {B : Backend T} {BL : BackendLaws T B}.
  Variable sec : Secrets.
  Variable s : Store.
  Hypothesis Hs : store_ok s.
  Variable price : L -> nat.
  Variable again : bool.
  Variable q : Query.

  Fixpoint needb (n : nat) (off : nat) (i : Index) : option nat :=
    match ilink i with
    | None => Some 0
    | Some l =>
        match i with
        | ILeaf x => Some (if any (q_containing q off x (repeat true (List.length (leaf_keys x)))) then price l else 0)
        | IBranch x =>
            let f := q_intersecting q off x (repeat true (List.length (branch_sums x))) in
            if any f then
              match n, openb sec s x with
              | S n', Some cs =>
                  option_map (fun a => price l * (if again then List.length cs else 1) + a)
                    ((fix go (off : nat) (f : list bool) (cs : list Index) {struct cs} : option nat :=
                       match f, cs with
                       | [], [] => Some 0
                       | b :: f', c :: cs' =>
                           match (if b then needb n' off c else Some 0), go (off + icount c) f' cs' with
                           | Some a, Some r => Some (a + r)
                           | _, _ => None
                           end
                       | _, _ => None
                       end) off f cs)
              | _, _ => None
              end
            else Some 0
        end
    end.

  Lemma needb_ok n : forall off i a, needb n off i = Some a -> need sec price again q off i a.
  Proof.
    assert (Hleaf : forall n off x a, needb n off (ILeaf x) = Some a -> need sec price again q off (ILeaf x) a).
    { intros n' off x a H. destruct n'; cbn [needb ilink] in H; (destruct (li_link x) as [l|] eqn:El; [|injection H as <-; now apply need_purged]);
        (destruct (any _) eqn:Ea; injection H as <-; [now apply need_leaf|now apply need_leaf_none]). }
    induction n as [|n IH]; intros off [x|x] a H; try (eapply Hleaf; exact H).
    - cbn [needb ilink] in H. destruct (bi_link x) as [l|] eqn:El; [|injection H as <-; now apply need_purged].
      destruct (any _) eqn:Ea; [discriminate|]. injection H as <-. now apply need_branch_none.
    - cbn [needb ilink] in H. destruct (bi_link x) as [l|] eqn:El; [|injection H as <-; now apply need_purged].
      destruct (any _) eqn:Ea; [|injection H as <-; now apply need_branch_none].
      destruct (openb sec s x) as [cs|] eqn:Eo; [|discriminate]. apply openb_ok in Eo as (l' & d & r & E1 & E2 & E3).
      rewrite El in E1. injection E1 as <-.
      match type of H with option_map _ ?g = _ => destruct g as [r'|] eqn:Eg; [|discriminate] end. injection H as <-.
      apply need_branch; [|exact Ea|].
      + split; [exact El|]. exists d, r. split; [|exact E3]. now apply Hs.
      + clear Ea. revert r' Eg. generalize (q_intersecting q off x (repeat true (List.length (branch_sums x)))). revert off. clear -IH.
        induction cs as [|c cs IHcs]; intros off [|b f] r' Eg; try discriminate; [injection Eg as <-; constructor|].
        destruct b.
        * destruct (needb n off c) as [a|] eqn:Ec; [|discriminate].
          match type of Eg with match ?g with _ => _ end = _ => destruct g as [r|] eqn:Er; [|discriminate] end. injection Eg as <-. constructor; auto.
        * match type of Eg with match ?g with _ => _ end = _ => destruct g as [r|] eqn:Er; [|discriminate] end. injection Eg as <-. constructor; auto.
  Qed.
End Tests.

(** A store that counts requests, and a cache that keeps everything. *)
Definition KBackend : Backend ITypes := {|
  Store := @Store ITypes CBackend;
  sblocks := @sblocks ITypes CBackend;
  sget := @sget ITypes CBackend;
  sput := @sput ITypes CBackend;
  digest := @digest ITypes CBackend;
  Cache := @Cache ITypes IBackend;
  cin := @cin ITypes IBackend;
  cget := @cget ITypes IBackend;
  cput := @cput ITypes IBackend
|}.
Lemma KBackendLaws : BackendLaws ITypes KBackend.
Proof.
  constructor; cbn [KBackend Store sblocks sget sput digest Cache cin cget cput].
  - apply (@digest_inj _ _ CBackendLaws).
  - apply (@sget_keeps _ _ CBackendLaws).
  - apply (@sget_adds _ _ CBackendLaws).
  - apply (@sget_sound _ _ CBackendLaws).
  - apply (@sput_keeps _ _ CBackendLaws).
  - apply (@sput_adds _ _ CBackendLaws).
  - apply (@sput_link _ _ CBackendLaws).
  - apply (@cget_sound _ _ IBackendLaws).
  - apply (@cget_keeps _ _ IBackendLaws).
  - apply (@cput_adds _ _ IBackendLaws).
Qed.
Lemma KKeeping : KeepingCache ITypes KBackend.
Proof.
  constructor; cbn [KBackend Store sblocks sget sput digest Cache cin cget cput IBackend fst snd find].
  - intros c l b. assert (E : bytes_eqb l l = true) by now apply bytes_eqb_eq. rewrite E. discriminate.
  - intros c l b x H. destruct (bytes_eqb l x); [discriminate|exact H].
  - intros c l x H. exact H.
Qed.

(** The packed tree of twelve entries, in a new forest: a query for the entries 6
    to 8 asks for 7 of the 12 blocks, and each branch once. *)
Section Counting.
  Local Existing Instance KBackend.
  Local Existing Instance KBackendLaws.

  Definition k0 : @sys ITypes KBackend :=
    {| sy_fo := {| fo_store := ((0, (1000000%N, [])) : @Store ITypes KBackend); fo_cache := ([] : @Cache ITypes KBackend); fo_log := [] |};
       sy_se := {| se_b := builder_new ecfg esec; se_saved := [] |};
       sy_snaps := [] |}.
  Definition ko1 : @op ITypes KBackend := OExtend (pairs 0 12).
  Definition ko2 : @op ITypes KBackend := OEvict ([] : @Cache ITypes KBackend).
  Definition k1 : @sys ITypes KBackend := snd (exec ko1 k0).
  Definition k2 : @sys ITypes KBackend := snd (exec ko2 k1).
  Example C69_case_reach : reach anything ecfg esec k2.
  Proof.
    exists k0. split; [splits; try easy|]. apply (hist_step _ _ k1 ko2 (fst (exec ko2 k1))).
    - apply (hist_step _ _ k0 ko1 (fst (exec ko1 k0))); try exact Logic.I; [constructor|apply surjective_pairing].
    - intros l b H. destruct H.
    - exact Logic.I.
    - apply surjective_pairing.
  Qed.
  Example C69_case_bill : bill (fun _ => 1) (fst : @Store ITypes KBackend -> nat).
  Proof. intros s l. cbn. lia. Qed.

  Lemma C69_case_of n a : match snapshot (sy_b k2) with
      | Some (i, _, _) => match needb esec (fo_store (sy_fo k2)) (fun _ => 1) false q69 n 0 i with Some a' => Nat.eqb a a' | None => false end
      | None => false end = true ->
    exists i sec o, known k2 (Some (i, sec, o)) /\ need esec (fun _ => 1) false q69 0 i a.
  Proof.
    destruct (snapshot (sy_b k2)) as [[[i sec] o]|] eqn:E; [|discriminate].
    destruct (needb _ _ _ _ _ _ _ i) as [a'|] eqn:En; [|discriminate]. intros Ea. apply Nat.eqb_eq in Ea as ->.
    exists i, sec, o. split; [left; now symmetry|]. eapply needb_ok; [|exact En].
    destruct (reach_ok ecfg esec ecfg_ok _ _ C69_case_reach) as ((? & Hi) & _). apply Hi.
  Qed.
  Example C69_case : query_ok q69 (fun o _ => range_contains (range_of 6 9) o)
    /\ (exists i sec o, known k2 (Some (i, sec, o)) /\ need esec (fun _ => 1) false q69 0 i 7)
    /\ (let '(rs, fo, _) := take_chunks 100 (sy_fo k2) (iter_filtered_chunked (snapshot (sy_b k2)) q69 unit_of) in
        flatten_chunks rs = map Ok (map (fun i => (i, N.of_nat i, N.of_nat (100 + i))) [6; 7; 8])
        /\ fst (fo_store fo) = fst (fo_store (sy_fo k2)) + 7).
  Proof. splits; [apply C37_offset_range|apply (C69_case_of 10); vm_compute; reflexivity|vm_compute; auto]. Qed.
End Counting.

(** With no cache, the same query pays for a branch once for each child. *)
Section NoCache.
  Local Existing Instance CBackend.
  Local Existing Instance CBackendLaws.
  Lemma C69_case_of_any n a : match snapshot (sy_b c1) with
      | Some (i, _, _) => match needb esec (fo_store (sy_fo c1)) (fun _ => 1) true q69 n 0 i with Some a' => Nat.eqb a a' | None => false end
      | None => false end = true ->
    exists i sec o, known c1 (Some (i, sec, o)) /\ need esec (fun _ => 1) true q69 0 i a.
  Proof.
    destruct (snapshot (sy_b c1)) as [[[i sec] o]|] eqn:E; [|discriminate].
    destruct (needb _ _ _ _ _ _ _ i) as [a'|] eqn:En; [|discriminate]. intros Ea. apply Nat.eqb_eq in Ea as ->.
    exists i, sec, o. split; [left; now symmetry|]. eapply needb_ok; [|exact En].
    destruct (reach_ok ecfg esec ecfg_ok _ _ C67_case_reach) as ((? & Hi) & _). apply Hi.
  Qed.
  Example C69_case_any : reach anything ecfg esec c1
    /\ (exists i sec o, known c1 (Some (i, sec, o)) /\ need esec (fun _ => 1) true q69 0 i 11)
    /\ (let '(rs, fo, _) := take_chunks 100 (sy_fo c1) (iter_filtered_chunked (snapshot (sy_b c1)) q69 unit_of) in
        List.length (flatten_chunks rs) = 3 /\ fst (fo_store fo) = fst (fo_store (sy_fo c1)) + 11).
  Proof. splits; [exact (reach_anything _ _ _ _ C67_case_reach)|apply (C69_case_of_any 10); vm_compute; reflexivity|vm_compute; auto]. Qed.
End NoCache.

(** C28 and C29: the in memory store and the caching wrapper. *)
From Coq Require Import List Arith NArith Lia Bool Strings.Byte.
From Verif Require Import Base BaseProofs Types World MemStore.
Import ListNotations.

(** * Specification *)

Section Spec.
  Context {L : Type} (Ldec : forall a b : L, {a = b} + {a <> b}) (dig : bytes -> L).

  (** Blocks given to a store one after the other, with the answers. *)
  Fixpoint puts (s : mem_store) (ds : list bytes) : list (bytes * res L) * mem_store :=
    match ds with
    | [] => ([], s)
    | d :: ds' =>
        let '(r, s1) := ms_put Ldec dig s d in
        let '(rs, s2) := puts s1 ds' in
        ((d, r) :: rs, s2)
    end.

  (** The block accepted last under link [l]. *)
  Definition last_accepted (h : list (bytes * res L)) (l : L) : option bytes :=
    option_map fst
      (find (fun e => match snd e with Ok k => if Ldec k l then true else false | _ => false end) (rev h)).

  (** Number of bytes in the blocks a store holds. *)
  Definition stored (s : @mem_store L) : nat := list_sum (map (fun e => List.length (snd e)) (ms_map s)).

  Definition injective := forall a b, dig a = dig b -> a = b.
End Spec.

(** * Proofs *)

Section Proofs.
  Context {L : Type} (Ldec : forall a b : L, {a = b} + {a <> b}) (dig : bytes -> L).
  Notation hm_get := (hm_get Ldec).
  Notation hm_insert := (hm_insert Ldec).

  Lemma hm_get_insert m l d x :
    hm_get (hm_insert m l d) x = if Ldec x l then Some d else hm_get m x.
  Proof.
    induction m as [|[k v] m IH]; cbn.
    - destruct (Ldec x l); reflexivity.
    - destruct (Ldec l k) as [->|N]; cbn.
      + destruct (Ldec x k); reflexivity.
      + rewrite IH. destruct (Ldec x k) as [->|]; [|reflexivity].
        destruct (Ldec k l) as [E|]; [now subst|reflexivity].
  Qed.

  Lemma hm_insert_keys m l d x : In x (map fst (hm_insert m l d)) <-> x = l \/ In x (map fst m).
  Proof.
    induction m as [|[k v] m IH]; cbn.
    - intuition.
    - destruct (Ldec l k) as [->|N]; cbn; [intuition|]. rewrite IH. intuition.
  Qed.

  Lemma hm_insert_nodup m l d : NoDup (map fst m) -> NoDup (map fst (hm_insert m l d)).
  Proof.
    induction m as [|[k v] m IH]; cbn; intros H.
    - constructor; [easy|constructor].
    - inversion H; subst. destruct (Ldec l k) as [->|N]; cbn; [assumption|].
      constructor; [|apply IH; assumption]. rewrite hm_insert_keys. intros [->|X]; [now apply N|contradiction].
  Qed.

  Lemma hm_get_in m l d : hm_get m l = Some d -> In (l, d) m.
  Proof.
    induction m as [|[k v] m IH]; cbn; [discriminate|].
    destruct (Ldec l k) as [->|]; intros E; [injection E as ->; now left|right; auto].
  Qed.
  Lemma hm_in_get m l d : NoDup (map fst m) -> In (l, d) m -> hm_get m l = Some d.
  Proof.
    induction m as [|[k v] m IH]; cbn; [easy|]. intros N [E|E]; inversion N; subst.
    - injection E as -> ->. destruct (Ldec l l); [reflexivity|contradiction].
    - destruct (Ldec l k) as [->|]; [|auto].
      exfalso. apply H1. apply (in_map fst) in E. exact E.
  Qed.
  Lemma hm_get_none m l : hm_get m l = None <-> ~ In l (map fst m).
  Proof.
    induction m as [|[k v] m IH]; cbn; [intuition|].
    destruct (Ldec l k) as [->|N]; [split; [discriminate|intuition]|]. rewrite IH. intuition.
  Qed.

  Definition total (m : list (L * bytes)) : nat := list_sum (map (fun e => List.length (snd e)) m).

  Lemma total_insert_new m l d : hm_get m l = None -> total (hm_insert m l d) = total m + List.length d.
  Proof.
    assert (C : forall k v m, total ((k, v) :: m) = List.length v + total m) by reflexivity.
    induction m as [|[k v] m IH]; cbn [MemStore.hm_get MemStore.hm_insert]; [rewrite C; cbn; lia|].
    destruct (Ldec l k); [discriminate|]. intros E. rewrite !C, IH by assumption. lia.
  Qed.
  Lemma insert_same m l d : hm_get m l = Some d -> hm_insert m l d = m.
  Proof.
    induction m as [|[k v] m IH]; cbn; [discriminate|].
    destruct (Ldec l k) as [->|]; intros E; [now injection E as ->|now rewrite IH].
  Qed.

  (** The state of a store reached by puts. *)
  Definition good (s : @mem_store L) : Prop :=
    NoDup (map fst (ms_map s)) /\ (forall l d, hm_get (ms_map s) l = Some d -> dig d = l).
  Definition sized (s : @mem_store L) : Prop := ms_size s = stored s /\ stored s <= ms_max s.

  Lemma good_put s d r s' : good s -> ms_put Ldec dig s d = (r, s') -> good s'.
  Proof.
    intros (N & H). unfold ms_put. destruct (_ <? _); intros E; injection E as <- <-; [split; assumption|].
    split; cbn.
    - now apply hm_insert_nodup.
    - intros l x. rewrite hm_get_insert. destruct (Ldec l (dig d)) as [->|].
      + intros E; injection E as ->; reflexivity.
      + apply H.
  Qed.

  Lemma sized_put s d r s' : injective dig -> good s -> sized s -> ms_put Ldec dig s d = (r, s') -> sized s'.
  Proof.
    intros J (N & H) (S1 & S2). unfold ms_put.
    destruct (Nat.ltb_spec (ms_max s) (ms_size s + List.length d)); intros E; injection E as <- <-; [split; assumption|].
    unfold sized, stored in *; cbn [ms_map ms_size ms_max].
    destruct (hm_get (ms_map s) (dig d)) eqn:G.
    - assert (b = d) as -> by (apply J; now apply H). now rewrite insert_same.
    - pose proof (total_insert_new _ _ d G) as T. unfold total in T. rewrite T. lia.
  Qed.

  Lemma max_put s d r s' : ms_put Ldec dig s d = (r, s') -> ms_max s' = ms_max s.
  Proof. unfold ms_put. destruct (_ <? _); intros E; injection E as <- <-; reflexivity. Qed.

  Lemma puts_good ds s h s' : good s -> puts Ldec dig s ds = (h, s') -> good s' /\ ms_max s' = ms_max s.
  Proof.
    revert s h. induction ds as [|d ds IH]; cbn; intros s h G E.
    - injection E as <- <-. auto.
    - destruct (ms_put Ldec dig s d) as [r s1] eqn:P. destruct (puts Ldec dig s1 ds) as [rs s2] eqn:Q.
      injection E as <- <-. destruct (IH _ _ (good_put _ _ _ _ G P) Q) as (A & B).
      split; [exact A|]. rewrite B. eapply max_put; eassumption.
  Qed.
  Lemma puts_sized ds s h s' :
    injective dig -> good s -> sized s -> puts Ldec dig s ds = (h, s') -> sized s'.
  Proof.
    intros J. revert s h. induction ds as [|d ds IH]; cbn; intros s h G Z E.
    - injection E as <- <-. auto.
    - destruct (ms_put Ldec dig s d) as [r s1] eqn:P. destruct (puts Ldec dig s1 ds) as [rs s2] eqn:Q.
      injection E as <- <-. eapply IH; [eapply good_put; eassumption| |exact Q]. eapply sized_put; eassumption.
  Qed.
  Lemma new_good max : good (ms_new max) /\ sized (ms_new max).
  Proof. split; split; cbn; try easy; try constructor; try lia. Qed.

  (** ** C28 *)

  (** A read returns the block that was accepted last under the link. *)
  Theorem C28_get max ds h s l :
    puts Ldec dig (ms_new max) ds = (h, s) ->
    ms_get Ldec s l = match last_accepted Ldec h l with Some d => Ok d | None => Err EMissing end.
  Proof.
    enough (G : forall ds s0 h s, puts Ldec dig s0 ds = (h, s) ->
      hm_get (ms_map s) l =
      match last_accepted Ldec h l with Some d => Some d | None => hm_get (ms_map s0) l end).
    { intros E. apply G in E. unfold ms_get. rewrite E. now destruct (last_accepted Ldec h l). }
    clear. intros ds. induction ds as [|d ds IH]; cbn; intros s0 h s E.
    - now injection E as <- <-.
    - destruct (ms_put Ldec dig s0 d) as [r s1] eqn:P. destruct (puts Ldec dig s1 ds) as [rs s2] eqn:Q.
      injection E as <- <-. rewrite (IH _ _ _ Q). clear IH Q.
      unfold last_accepted. cbn.
      assert (FA : forall (f : bytes * res L -> bool) (a : list (bytes * res L)) e,
        find f (a ++ [e]) = match find f a with Some x => Some x | None => if f e then Some e else None end).
      { intros f a e. induction a as [|y a IHa]; cbn; [reflexivity|]. now destruct (f y). }
      rewrite FA. destruct (find _ (rev rs)); cbn; [reflexivity|].
      unfold ms_put in P. destruct (_ <? _); injection P as <- <-; cbn; [reflexivity|].
      rewrite hm_get_insert. destruct (Ldec l (dig d)) as [->|N], (Ldec (dig d) _) as [E|N']; try reflexivity;
        try contradiction. now symmetry in E.
  Qed.

  (** The link returned by an accepted put is the digest of the block. *)
  Theorem C28_link s d l s' : ms_put Ldec dig s d = (Ok l, s') -> l = dig d /\ ms_get Ldec s' l = Ok d.
  Proof.
    unfold ms_put. destruct (_ <? _); [discriminate|]. intros E; injection E as <- <-. split; [reflexivity|].
    unfold ms_get; cbn. rewrite hm_get_insert. destruct (Ldec _ _); [reflexivity|contradiction].
  Qed.

  (** The store never holds more than [max_size] bytes, and holds each block once. *)
  Theorem C28_bounded max ds h s :
    injective dig -> puts Ldec dig (ms_new max) ds = (h, s) ->
    stored s <= max /\ NoDup (map snd (ms_map s)).
  Proof.
    intros J E. destruct (new_good max) as (G & Z).
    destruct (puts_good _ _ _ _ G E) as (G' & M). pose proof (puts_sized _ _ _ _ J G Z E) as (Z1 & Z2).
    cbn in M. split; [lia|].
    destruct G' as (N & H).
    assert (A : map fst (ms_map s) = map dig (map snd (ms_map s))).
    { assert (B : forall l d, In (l, d) (ms_map s) -> dig d = l).
      { intros l d X. apply H. now apply hm_in_get. }
      clear N H. induction (ms_map s) as [|[k v] m IH]; cbn; [reflexivity|]. f_equal.
      - symmetry. apply B. now left.
      - apply IH. intros; apply B; now right. }
    rewrite A in N. eapply NoDup_map_inv; eassumption.
  Qed.

  (** A put is refused exactly if the blocks held and the new one together exceed
      [max_size]; then nothing changes. *)
  Theorem C28_refuses max ds h s d :
    injective dig -> puts Ldec dig (ms_new max) ds = (h, s) ->
    (max < stored s + List.length d -> ms_put Ldec dig s d = (Err EStoreFull, s))
    /\ (stored s + List.length d <= max -> fst (ms_put Ldec dig s d) = Ok (dig d)).
  Proof.
    intros J E. destruct (new_good max) as (G & Z).
    destruct (puts_good _ _ _ _ G E) as (G' & M). pose proof (puts_sized _ _ _ _ J G Z E) as (Z1 & Z2).
    cbn in M. unfold ms_put. rewrite Z1, M.
    destruct (Nat.ltb_spec max (stored s + List.length d)); split; intros; try lia; reflexivity.
  Qed.
  Theorem C28_error s d e s' : ms_put Ldec dig s d = (Err e, s') -> s' = s.
  Proof. unfold ms_put. destruct (_ <? _); intros X; [now injection X|discriminate]. Qed.

  (** Putting a block again changes nothing. Missing from the full property: that
      it succeeds; see [C28_refuted]. *)
  Theorem C28_again_partial max ds h s d r s' :
    injective dig -> puts Ldec dig (ms_new max) ds = (h, s) ->
    ms_get Ldec s (dig d) = Ok d -> ms_put Ldec dig s d = (r, s') -> s' = s.
  Proof.
    intros J E G P. unfold ms_get in G. destruct (hm_get (ms_map s) (dig d)) eqn:X; [|discriminate].
    injection G as ->. unfold ms_put in P. rewrite X in P. destruct (_ <? _); injection P as <- <-; [reflexivity|].
    rewrite insert_same by assumption. destruct s; reflexivity.
  Qed.
End Proofs.

(** A full store refuses a block it holds. *)
Theorem C28_refuted :
  exists max ds h s d,
    puts (list_eq_dec byte_eq_dec) (fun x => x) (ms_new max) ds = (h, s)
    /\ ms_get (list_eq_dec byte_eq_dec) s d = Ok d
    /\ fst (ms_put (list_eq_dec byte_eq_dec) (fun x => x) s d) = Err EStoreFull.
Proof.
  exists 3, [[x01; x02]; [x03]]. eexists _, _, [x03]. split; [vm_compute; reflexivity|].
  split; vm_compute; reflexivity.
Qed.

(** If two blocks share a digest, the store can exceed its limit: the size of the
    block that replaces the other is not counted. *)
Theorem C28_collision_refuted :
  exists max (dig : bytes -> nat) ds h s,
    puts Nat.eq_dec dig (ms_new max) ds = (h, s) /\ max < stored s.
Proof.
  exists 5, (fun d => match d with [] => 0 | b :: _ => if byte_eqb b x01 then 1 else 2 end),
    [[x01]; [x02]; [x01; x01; x01]; [x02; x02; x02]].
  eexists _, _. split; [vm_compute; reflexivity|vm_compute; lia].
Qed.

Example C28_case :
  let run := puts (list_eq_dec byte_eq_dec) (fun x => x) (ms_new 4) [[x01; x02]; [x03]; [x04; x05]; [x06]; [x03]] in
  map snd (fst run) = [Ok [x01; x02]; Ok [x03]; Err EStoreFull; Ok [x06]; Err EStoreFull]
  /\ stored (snd run) = 4 /\ injective (fun x : bytes => x).
Proof. cbv zeta. splits; [vm_compute; reflexivity|vm_compute; reflexivity|easy]. Qed.

(** * C29 *)

(** What is required of the wrapped store: what it returns has the digest it was
    asked for, and the link of a block put is its digest. [ca_inv] is an invariant
    of the store, for stores that are content addressed only as long as they are
    used properly. *)
Record content_addressed {L} (I : inner L) (dig : bytes -> L) (inv : i_st I -> Prop) : Prop := {
  ca_inj : forall a b, dig a = dig b -> a = b;
  ca_get : forall s l d s', inv s -> i_get I s l = (Ok d, s') -> dig d = l;
  ca_get_inv : forall s l r s', inv s -> i_get I s l = (r, s') -> inv s';
  ca_put : forall s d l s', inv s -> i_put I s d = (Ok l, s') -> l = dig d;
  ca_put_inv : forall s d r s', inv s -> i_put I s d = (r, s') -> inv s'
}.

Section MemCacheSpec.
  Context {L : Type} (Ldec : forall a b : L, {a = b} + {a <> b}) (I : inner L)
    (dig : bytes -> L) (inv : i_st I -> Prop).

  (** States reached by reads, writes, offers of blocks under their own link and
      anything that happens to the store behind the cache's back: writes that
      bypass it, blocks that are deleted, reads that start to fail. *)
  Inductive mc_reach (max_size capacity : nat) : mem_cache I -> Prop :=
  | mr_new keep s : inv s -> mc_reach max_size capacity (mc_new I keep s max_size capacity)
  | mr_get c l : mc_reach max_size capacity c -> mc_reach max_size capacity (snd (mc_get Ldec I c l))
  | mr_put c d : mc_reach max_size capacity c -> mc_reach max_size capacity (snd (mc_put Ldec I c d))
  | mr_offer c d : mc_reach max_size capacity c -> mc_reach max_size capacity (mc_offer Ldec I c (dig d) d)
  | mr_other c s : mc_reach max_size capacity c -> inv s ->
      mc_reach max_size capacity {| mc_inner := s; mc_cache := mc_cache I c |}.

  Hypothesis CA : content_addressed I dig inv.

  Definition mc_ok (max_size capacity : nat) (c : mem_cache I) : Prop :=
    inv (mc_inner I c) /\
    match mc_cache I c with
    | Some k => max_size <> 0 /\ capacity <> 0 /\ c_max k = max_size
        /\ forall l d, In (l, d) (wc_map (c_cache k)) -> dig d = l /\ List.length d <= max_size
    | None => max_size = 0 \/ capacity = 0
    end.

  Lemma in_insert m l d e : In e (hm_insert Ldec m l d) -> In e m \/ e = (l, d).
  Proof.
    induction m as [|[k v] m IH]; cbn; [intuition|].
    destruct (Ldec l k); cbn; intuition.
  Qed.
  Lemma in_evict (c : @wcache L) m e : In e (wc_map (wc_evict c m)) -> In e m.
  Proof. cbn. intros H. now apply filter_In in H. Qed.

  Lemma reach_ok max_size capacity c : mc_reach max_size capacity c -> mc_ok max_size capacity c.
  Proof.
    induction 1 as [keep s H|c l R (V & IH)|c d R (V & IH)|c d R (V & IH)|c s R (V & IH) H].
    - split; [exact H|]. cbn. destruct capacity; [now right|]. destruct max_size; [now left|].
      cbn. splits; try lia; easy.
    - unfold mc_get. destruct (mc_cache I c) as [k|] eqn:K.
      + unfold wc_get. destruct (hm_get Ldec (wc_map (c_cache k)) l).
        * split; [exact V|]. cbn. destruct IH as (A & B & C & D). splits; auto.
          intros x y H. apply D. now apply filter_In in H.
        * destruct (i_get I (mc_inner I c) l) as [r s] eqn:G. split; cbn.
          -- exact (ca_get_inv _ _ _ CA _ _ _ _ V G).
          -- destruct IH as (A & B & C & D). splits; auto. intros x y H. apply D. now apply filter_In in H.
      + destruct (i_get I (mc_inner I c) l) as [r s] eqn:G. split; cbn; [exact (ca_get_inv _ _ _ CA _ _ _ _ V G)|exact IH].
    - unfold mc_put. destruct (mc_cache I c) as [k|] eqn:K.
      + destruct (Nat.leb_spec (List.length d) (c_max k)).
        * destruct (i_put I (mc_inner I c) d) as [r s] eqn:P.
          pose proof (ca_put_inv _ _ _ CA _ _ _ _ V P) as V'.
          destruct r; cbn; (split; [exact V'|]); cbn; try (rewrite ?K; exact IH).
          destruct IH as (A & B & C & D). splits; auto.
          intros x y E. apply filter_In in E. destruct E as (E & _). apply in_insert in E.
          destruct E as [E|E]; [now apply D|]. injection E as -> ->.
          split; [exact (eq_sym (ca_put _ _ _ CA _ _ _ _ V P))|lia].
        * destruct (i_put I (mc_inner I c) d) as [r s] eqn:P.
          split; cbn; [exact (ca_put_inv _ _ _ CA _ _ _ _ V P)|rewrite ?K; exact IH].
      + destruct (i_put I (mc_inner I c) d) as [r s] eqn:P.
        split; cbn; [exact (ca_put_inv _ _ _ CA _ _ _ _ V P)|rewrite ?K; exact IH].
    - unfold mc_offer. destruct (mc_cache I c) as [k|] eqn:K.
      + destruct (Nat.leb_spec (List.length d) (c_max k)); (split; [exact V|]); cbn; try (rewrite ?K; exact IH).
        destruct IH as (A & B & C & D). splits; auto.
        intros x y E. apply filter_In in E. destruct E as (E & _). apply in_insert in E.
        destruct E as [E|E]; [now apply D|]. injection E as -> ->. rewrite <- C. split; [reflexivity|assumption].
      + split; [exact V|]. rewrite ?K; assumption.
    - split; [exact H|exact IH].
  Qed.

  (** For every link the store has, a read through the cache returns what the
      store returns. *)
  Theorem C29_transparent max_size capacity c l d s :
    mc_reach max_size capacity c -> i_get I (mc_inner I c) l = (Ok d, s) ->
    fst (mc_get Ldec I c l) = Ok d.
  Proof.
    intros R G. destruct (reach_ok _ _ _ R) as (V & K). unfold mc_get.
    destruct (mc_cache I c) as [k|].
    - unfold wc_get. destruct (hm_get Ldec (wc_map (c_cache k)) l) as [x|] eqn:H.
      + cbn. f_equal. apply (ca_inj _ _ _ CA). apply hm_get_in in H. destruct K as (_ & _ & _ & D).
        destruct (D _ _ H) as (-> & _). exact (eq_sym (ca_get _ _ _ CA _ _ _ _ V G)).
      + now rewrite G.
    - now rewrite G.
  Qed.

  (** Whatever a read returns has the digest it was asked for. *)
  Theorem C29_never_wrong max_size capacity c l d c' :
    mc_reach max_size capacity c -> mc_get Ldec I c l = (Ok d, c') -> dig d = l.
  Proof.
    intros R. destruct (reach_ok _ _ _ R) as (V & K). unfold mc_get.
    destruct (mc_cache I c) as [k|].
    - unfold wc_get. destruct (hm_get Ldec (wc_map (c_cache k)) l) as [x|] eqn:H.
      + intros E. injection E as -> <-. apply hm_get_in in H. destruct K as (_ & _ & _ & D). now apply (D _ _ H).
      + destruct (i_get I (mc_inner I c) l) eqn:G. intros E. injection E as -> <-. exact (ca_get _ _ _ CA _ _ _ _ V G).
    - destruct (i_get I (mc_inner I c) l) eqn:G. intros E. injection E as -> <-. exact (ca_get _ _ _ CA _ _ _ _ V G).
  Qed.

  (** Only small blocks are cached: if a read returns something the store does
      not return, it has at most [max_size] bytes. *)
  Theorem C29_small max_size capacity c l d c' :
    mc_reach max_size capacity c -> mc_get Ldec I c l = (Ok d, c') ->
    fst (i_get I (mc_inner I c) l) <> Ok d -> List.length d <= max_size.
  Proof.
    intros R. destruct (reach_ok _ _ _ R) as (V & K). unfold mc_get.
    destruct (mc_cache I c) as [k|].
    - unfold wc_get. destruct (hm_get Ldec (wc_map (c_cache k)) l) as [x|] eqn:H.
      + intros E _. injection E as -> <-. apply hm_get_in in H. destruct K as (_ & _ & _ & D). now apply (D _ _ H).
      + destruct (i_get I (mc_inner I c) l) eqn:G. intros E. injection E as -> <-. easy.
    - destruct (i_get I (mc_inner I c) l) eqn:G. intros E. injection E as -> <-. easy.
  Qed.

  (** A failed read fails the way the store's read fails. *)
  Theorem C29_failure c l r c' :
    mc_get Ldec I c l = (r, c') -> (forall d, r <> Ok d) -> r = fst (i_get I (mc_inner I c) l).
  Proof.
    unfold mc_get. destruct (mc_cache I c) as [k|].
    - unfold wc_get. destruct (hm_get Ldec (wc_map (c_cache k)) l) as [x|] eqn:H.
      + intros E N. injection E as <- <-. now destruct (N x).
      + destruct (i_get I (mc_inner I c) l) eqn:G. intros E. now injection E as -> <-.
    - destruct (i_get I (mc_inner I c) l) eqn:G. intros E. now injection E as -> <-.
  Qed.

  (** A write through the cache is a write to the store: same answer, same effect. *)
  Theorem C29_write c d :
    fst (mc_put Ldec I c d) = fst (i_put I (mc_inner I c) d)
    /\ mc_inner I (snd (mc_put Ldec I c d)) = snd (i_put I (mc_inner I c) d).
  Proof.
    unfold mc_put. destruct (mc_cache I c) as [k|]; [destruct (_ <=? _)|];
      destruct (i_put I (mc_inner I c) d) as [[]]; split; reflexivity.
  Qed.

  (** A cache without capacity, or for no block size, is the bare store. *)
  Theorem C29_disabled max_size capacity c l :
    max_size = 0 \/ capacity = 0 -> mc_reach max_size capacity c ->
    fst (mc_get Ldec I c l) = fst (i_get I (mc_inner I c) l)
    /\ mc_inner I (snd (mc_get Ldec I c l)) = snd (i_get I (mc_inner I c) l).
  Proof.
    intros Z R. destruct (reach_ok _ _ _ R) as (V & K). unfold mc_get.
    destruct (mc_cache I c) as [k|]; [destruct K; lia|].
    destruct (i_get I (mc_inner I c) l); split; reflexivity.
  Qed.
End MemCacheSpec.

(** [MemStore] as the wrapped store. *)
Definition ms_inner {L} (Ldec : forall a b : L, {a = b} + {a <> b}) (dig : bytes -> L) : inner L :=
  {| i_st := mem_store; i_get := fun s l => (ms_get Ldec s l, s); i_put := ms_put Ldec dig |}.

Lemma ms_content_addressed {L} (Ldec : forall a b : L, {a = b} + {a <> b}) dig :
  injective dig -> content_addressed (ms_inner Ldec dig) dig (good Ldec dig).
Proof.
  intros J. split; cbn.
  - exact J.
  - intros s l d s' (N & H). unfold ms_get. destruct (hm_get _ _ _) eqn:G; intros E; [|discriminate].
    injection E as -> <-. now apply H.
  - intros s l r s' G E. now injection E as <- <-.
  - intros s d l s' _ P. now apply C28_link in P.
  - intros. eapply good_put; eassumption.
Qed.

(** The theorems apply to a cache over a [MemStore] that evicts everything at
    every other access. *)
Example C29_case :
  let dec := list_eq_dec byte_eq_dec in
  let I := ms_inner dec (fun x => x) in
  let c0 := mc_new I (fun n _ => Nat.even n) (ms_new 100) 2 10 in
  let c1 := snd (mc_put dec I c0 [x01; x02]) in
  let c2 := snd (mc_put dec I c1 [x01; x02; x03]) in
  let c3 := @Build_mem_cache _ I (ms_new 0) (mc_cache I c2) in
  content_addressed I (fun x => x) (good dec (fun x => x))
  /\ mc_reach dec I (fun x => x) (good dec (fun x => x)) 2 10 c3
  /\ fst (mc_get dec I c2 [x01; x02]) = Ok [x01; x02]
  /\ fst (mc_get dec I c2 [x01; x02; x03]) = Ok [x01; x02; x03]
  /\ fst (mc_get dec I c3 [x01; x02]) = Ok [x01; x02]
  /\ fst (mc_get dec I c3 [x01; x02; x03]) = Err EMissing
  /\ fst (mc_get dec I (snd (mc_get dec I c3 [x01; x02])) [x01; x02]) = Err EMissing.
Proof.
  cbv zeta. splits; try (vm_compute; reflexivity).
  - now apply ms_content_addressed.
  - apply mr_other; [|apply new_good]. apply mr_put, mr_put, mr_new, new_good.
Qed.

(** * The stores meet what the rest of the model requires of a store *)

Section Refine.
  Context {T : Types} (B : Backend T) (LB : BackendLaws T B)
    (Ldec : forall a b : L, {a = b} + {a <> b}).
  Notation I := (ms_inner Ldec digest).

  (** A [MemCache] over a [MemStore], used by reads and by writes through the
      cache; the branch cache is that of [B]. *)
  Definition cached_ok (c : mem_cache I) : Prop :=
    good Ldec digest (mc_inner I c)
    /\ forall k, mc_cache I c = Some k -> forall l d, In (l, d) (wc_map (c_cache k)) ->
         hm_get Ldec (ms_map (mc_inner I c)) l = Some d.

  Lemma cached_get c l : cached_ok c -> cached_ok (snd (mc_get Ldec I c l)).
  Proof.
    intros (G & H). unfold mc_get. destruct (mc_cache I c) as [k|] eqn:K.
    - unfold wc_get. destruct (hm_get Ldec (wc_map (c_cache k)) l); (split; [exact G|]); cbn;
        intros k' E; injection E as <-; cbn; intros x d X; apply filter_In in X; apply (H k eq_refl); apply X.
    - split; [exact G|]. cbn. discriminate.
  Qed.
  Lemma cached_put c d : cached_ok c -> cached_ok (snd (mc_put Ldec I c d)).
  Proof.
    intros (G & H).
    assert (GP : good Ldec digest (snd (ms_put Ldec digest (mc_inner I c) d))).
    { destruct (ms_put Ldec digest (mc_inner I c) d) eqn:P. eapply good_put; eassumption. }
    assert (KP : forall l x, hm_get Ldec (ms_map (mc_inner I c)) l = Some x ->
      hm_get Ldec (ms_map (snd (ms_put Ldec digest (mc_inner I c) d))) l = Some x).
    { intros l x X. unfold ms_put. destruct (_ <? _); [exact X|]. cbn. rewrite hm_get_insert.
      destruct (Ldec l (digest d)) as [->|]; [|exact X].
      f_equal. apply digest_inj. destruct G as (_ & G). symmetry. now apply G. }
    unfold mc_put. cbn [ms_inner i_put]. destruct (mc_cache I c) as [k|] eqn:K.
    - destruct (_ <=? _).
      + destruct (ms_put Ldec digest (mc_inner I c) d) as [r s] eqn:P. cbn in GP, KP.
        destruct r; cbn; (split; [exact GP|]); cbn.
        * intros k' E; injection E as <-; cbn; intros x y X. apply filter_In in X. destruct X as (X & _).
          apply in_insert in X. destruct X as [X|X].
          -- apply KP. eapply H; [reflexivity|exact X].
          -- injection X as -> ->. apply C28_link in P. destruct P as (_ & P). unfold ms_get in P.
             now destruct (hm_get Ldec (ms_map s) a); [injection P as ->|].
        * intros k' E; intros x y X. apply KP. rewrite ?K in E. eapply H; [exact E|exact X].
        * intros k' E; intros x y X. apply KP. rewrite ?K in E. eapply H; [exact E|exact X].
        * intros k' E; intros x y X. apply KP. rewrite ?K in E. eapply H; [exact E|exact X].
      + destruct (ms_put Ldec digest (mc_inner I c) d) as [r s] eqn:P. split; [exact GP|]. cbn.
        intros k' E; intros x y X. apply KP. rewrite ?K in E. eapply H; [exact E|exact X].
    - destruct (ms_put Ldec digest (mc_inner I c) d) as [r s] eqn:P. split; [exact GP|]. cbn.
      intros k' E; intros x y X. rewrite ?K in E. discriminate.
  Qed.

  Definition to_option {A} (r : res A) : option A := match r with Ok a => Some a | _ => None end.

  Definition mem_backend : Backend T := {|
    Store := { c : mem_cache I | cached_ok c };
    sblocks := fun s l => hm_get Ldec (ms_map (mc_inner I (proj1_sig s))) l;
    sget := fun s l => (to_option (fst (mc_get Ldec I (proj1_sig s) l)),
                        exist _ (snd (mc_get Ldec I (proj1_sig s) l)) (cached_get _ l (proj2_sig s)));
    sput := fun s d => (to_option (fst (mc_put Ldec I (proj1_sig s) d)),
                        exist _ (snd (mc_put Ldec I (proj1_sig s) d)) (cached_put _ d (proj2_sig s)));
    digest := digest;
    Cache := Cache;
    cin := cin;
    cget := cget;
    cput := cput
  |}.

  Lemma mc_get_inner c l : mc_inner I (snd (mc_get Ldec I c l)) = mc_inner I c.
  Proof.
    unfold mc_get. destruct (mc_cache I c) as [k|]; [|reflexivity].
    unfold wc_get. destruct (hm_get Ldec (wc_map (c_cache k)) l); reflexivity.
  Qed.
  Lemma mc_put_inner c d :
    mc_inner I (snd (mc_put Ldec I c d)) = snd (ms_put Ldec digest (mc_inner I c) d)
    /\ fst (mc_put Ldec I c d) = fst (ms_put Ldec digest (mc_inner I c) d).
  Proof. split; apply (C29_write Ldec I c d). Qed.
  Lemma mem_get c l :
    cached_ok c -> to_option (fst (mc_get Ldec I c l)) = hm_get Ldec (ms_map (mc_inner I c)) l.
  Proof.
    intros (G & H). unfold mc_get. destruct (mc_cache I c) as [k|] eqn:K.
    - unfold wc_get. destruct (hm_get Ldec (wc_map (c_cache k)) l) as [x|] eqn:E; cbn.
      + apply hm_get_in in E. symmetry. eapply H; [reflexivity|exact E].
      + unfold ms_get. now destruct (hm_get Ldec (ms_map (mc_inner I c)) l).
    - cbn. unfold ms_get. now destruct (hm_get Ldec (ms_map (mc_inner I c)) l).
  Qed.

  (** The theorems about trees and builders hold for trees in a [MemStore],
      with or without a [MemCache]. *)
  Theorem C29_is_a_store : BackendLaws T mem_backend /\ ReliableReads T mem_backend.
  Proof.
    split; [split|split]; cbn.
    - exact digest_inj.
    - intros [c H] l r s' x b E. injection E as <- <-. cbn. now rewrite mc_get_inner.
    - intros [c H] l r s' x b E. injection E as <- <-. cbn. rewrite mc_get_inner. now left.
    - intros [c H] l d s' E. injection E as E <-. cbn in *. rewrite mc_get_inner. now rewrite mem_get in E.
    - intros [c H] d r s' x b E. injection E as <- <-. cbn. destruct (mc_put_inner c d) as (-> & _).
      intros X. unfold ms_put. destruct (_ <? _); [exact X|]. cbn. rewrite hm_get_insert.
      destruct (Ldec x (digest d)) as [->|]; [|exact X].
      f_equal. apply digest_inj. destruct H as ((_ & G) & _). symmetry. now apply G.
    - intros [c H] d r s' x b E. injection E as <- <-. cbn. destruct (mc_put_inner c d) as (-> & _).
      unfold ms_put. destruct (_ <? _); [now left|]. cbn. rewrite hm_get_insert.
      destruct (Ldec x (digest d)) as [->|]; [|now left]. intros E. injection E as ->. now right.
    - intros [c H] d l s' E. injection E as E <-. cbn in *. destruct (mc_put_inner c d) as (-> & F).
      rewrite F in E. destruct (ms_put Ldec digest (mc_inner I c) d) as [r s] eqn:P. destruct r; try discriminate.
      injection E as ->. apply C28_link in P. destruct P as (-> & P). split; [reflexivity|].
      unfold ms_get in P. cbn. now destruct (hm_get Ldec (ms_map s) (digest d)); [injection P as ->|].
    - exact cget_sound.
    - exact cget_keeps.
    - exact cput_adds.
    - intros [c H] l d. cbn. now rewrite mem_get.
  Qed.
End Refine.

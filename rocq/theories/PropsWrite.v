(** Properties of the writing operations: C01 - C04, C10, C12, C19. Every
    theorem ranges over all histories of a stream (History.v). *)
From Coq Require Import List NArith ZArith Lia Bool String Arith.
From Verif Require Import Base BaseProofs Cbor Types Seq SeqProofs Query QuerySpec World Read Write Api History Spec Ghost Frame ReadProofs Packable WriteProofs QueryProofs PackProofs RetainProofs RepairProofs NoPurged ApiProofs SysProofs HistProofs Instance Example.
Import ListNotations.

Section Props.
  Context {T : Types} {TL : TypesLaws T} {X : Ext} {XL : ExtLaws X}
          {B : Backend T} {BL : BackendLaws T B}.
  Variable cfg : Config.
  Variable sec : Secrets.
  Hypothesis Hcfg : config_ok cfg.

  (** ** C01: extend appends exactly the given pairs *)

  (** Whatever happened before, if [extend] returns [Ok] then the content is the
      old content followed by the given pairs. *)
  Theorem C01_extend_appends s items fo' b' c c' :
    reach anything cfg sec s ->
    extend (sy_fo s) (sy_b s) items = (Ok tt, fo', b') ->
    reads (sy_fo s) (snapshot (sy_b s)) c ->
    reads fo' (snapshot b') c' ->
    c' = c ++ map Some items.
  Proof.
    intros R E R1 R2. destruct (reach_b cfg sec Hcfg _ _ R) as (n & I).
    destruct (extend_api cfg sec Hcfg _ _ _ _ _ _ _ _ _ I E) as (_ & (n' & I' & Q & _) & _).
    destruct (Q eq_refl) as [Q1 _]. rewrite (reads_b _ _ _ _ _ _ _ _ I R1), (reads_b _ _ _ _ _ _ _ _ I' R2). exact Q1.
  Qed.

  (** The same entry by entry, which also speaks about trees of which some part
      cannot be read, and for the number of entries. *)
  Theorem C01_extend_entries s items fo' b' :
    reach anything cfg sec s ->
    extend (sy_fo s) (sy_b s) items = (Ok tt, fo', b') ->
    builder_count b' = builder_count (sy_b s) + List.length items
    /\ (forall i v v', i < builder_count (sy_b s) ->
          gets (sy_fo s) (snapshot (sy_b s)) i v -> gets fo' (snapshot b') i v' -> v' = v)
    /\ (forall i v', gets fo' (snapshot b') (builder_count (sy_b s) + i) v' -> v' = nth_error items i).
  Proof.
    intros R E. destruct (reach_b cfg sec Hcfg _ _ R) as (n & I).
    destruct (extend_api cfg sec Hcfg _ _ _ _ _ _ _ _ _ I E) as (_ & (n' & I' & Q & _) & _).
    destruct (Q eq_refl) as [Q1 _]. rewrite (b_count _ _ _ _ _ _ _ I), (b_count _ _ _ _ _ _ _ I').
    pose proof (fun i => oget_app n n' items i Q1) as Hg. splits.
    - now rewrite Q1, app_length, map_length.
    - intros i v v' Hi G1 G2. rewrite (gets_b _ _ _ _ _ _ _ _ _ I G1), (gets_b _ _ _ _ _ _ _ _ _ I' G2), Hg.
      apply Nat.ltb_lt in Hi. now rewrite Hi.
    - intros i v' G2. rewrite (gets_b _ _ _ _ _ _ _ _ _ I' G2), Hg.
      destruct (Nat.ltb_spec (List.length (ocontent n) + i) (List.length (ocontent n))); [lia|]. f_equal. lia.
  Qed.

  (** [push] is [extend] with one pair. *)
  Theorem C01_push_appends s k v fo' b' c c' :
    reach anything cfg sec s ->
    push (sy_fo s) (sy_b s) k v = (Ok tt, fo', b') ->
    reads (sy_fo s) (snapshot (sy_b s)) c ->
    reads fo' (snapshot b') c' ->
    c' = c ++ [Some (k, v)].
  Proof. intros R E. exact (C01_extend_appends s [(k, v)] fo' b' c c' R E). Qed.

  (** The hypotheses that something could be read are always met when the store
      has lost nothing and its reads are reliable. *)
  Theorem C01_content_readable s (RR : ReliableReads T B) :
    reach no_loss cfg sec s -> small_branches (sy_fo s) ->
    exists c, reads (sy_fo s) (snapshot (sy_b s)) c.
  Proof.
    intros R Hs. destruct (reach_b cfg sec Hcfg _ _ R) as (n & I).
    exists (ocontent n). eapply binv_reads; eauto.
  Qed.

  (** ** C02: extend_unpacked appends exactly the given pairs *)

  Theorem C02_extend_unpacked_appends s items fo' b' c c' :
    reach anything cfg sec s ->
    extend_unpacked (sy_fo s) (sy_b s) items = (Ok tt, fo', b') ->
    reads (sy_fo s) (snapshot (sy_b s)) c ->
    reads fo' (snapshot b') c' ->
    c' = c ++ map Some items.
  Proof.
    intros R E R1 R2. destruct (reach_b cfg sec Hcfg _ _ R) as (n & I).
    destruct (extend_unpacked_api cfg sec Hcfg _ _ _ _ _ _ _ _ _ I E) as (_ & (n' & I' & Q & _) & _).
    rewrite (reads_b _ _ _ _ _ _ _ _ I R1), (reads_b _ _ _ _ _ _ _ _ I' R2). exact (Q eq_refl).
  Qed.

  Theorem C02_extend_unpacked_entries s items fo' b' :
    reach anything cfg sec s ->
    extend_unpacked (sy_fo s) (sy_b s) items = (Ok tt, fo', b') ->
    builder_count b' = builder_count (sy_b s) + List.length items
    /\ (forall i v v', i < builder_count (sy_b s) ->
          gets (sy_fo s) (snapshot (sy_b s)) i v -> gets fo' (snapshot b') i v' -> v' = v)
    /\ (forall i v', gets fo' (snapshot b') (builder_count (sy_b s) + i) v' -> v' = nth_error items i).
  Proof.
    intros R E. destruct (reach_b cfg sec Hcfg _ _ R) as (n & I).
    destruct (extend_unpacked_api cfg sec Hcfg _ _ _ _ _ _ _ _ _ I E) as (_ & (n' & I' & Q & _) & _).
    specialize (Q eq_refl) as Q1. rewrite (b_count _ _ _ _ _ _ _ I), (b_count _ _ _ _ _ _ _ I').
    pose proof (fun i => oget_app n n' items i Q1) as Hg. splits.
    - now rewrite Q1, app_length, map_length.
    - intros i v v' Hi G1 G2. rewrite (gets_b _ _ _ _ _ _ _ _ _ I G1), (gets_b _ _ _ _ _ _ _ _ _ I' G2), Hg.
      apply Nat.ltb_lt in Hi. now rewrite Hi.
    - intros i v' G2. rewrite (gets_b _ _ _ _ _ _ _ _ _ I' G2), Hg.
      destruct (Nat.ltb_spec (List.length (ocontent n) + i) (List.length (ocontent n))); [lia|]. f_equal. lia.
  Qed.

  (** ** C03, C04: pack changes the layout, never the content *)

  Theorem C03_pack_keeps_content s fo' b' c c' :
    reach no_repair cfg sec s ->
    pack (sy_fo s) (sy_b s) = (Ok tt, fo', b') ->
    reads (sy_fo s) (snapshot (sy_b s)) c ->
    reads fo' (snapshot b') c' ->
    c' = c.
  Proof.
    intros R E R1 R2. destruct (reach_b cfg sec Hcfg _ _ R) as (n & I).
    destruct (pack_api cfg sec Hcfg _ _ _ _ _ _ _ _ I E) as (_ & (n' & I' & _ & Q)).
    rewrite (reads_b _ _ _ _ _ _ _ _ I R1), (reads_b _ _ _ _ _ _ _ _ I' R2). now apply Q.
  Qed.

  Theorem C03_pack_keeps_entries s fo' b' :
    reach no_repair cfg sec s ->
    pack (sy_fo s) (sy_b s) = (Ok tt, fo', b') ->
    builder_count b' = builder_count (sy_b s)
    /\ forall i v v', gets (sy_fo s) (snapshot (sy_b s)) i v -> gets fo' (snapshot b') i v' -> v' = v.
  Proof.
    intros R E. destruct (reach_b cfg sec Hcfg _ _ R) as (n & I).
    destruct (pack_api cfg sec Hcfg _ _ _ _ _ _ _ _ I E) as (_ & (n' & I' & _ & Q)).
    destruct Q as [Q _]; auto. rewrite (b_count _ _ _ _ _ _ _ I), (b_count _ _ _ _ _ _ _ I'). split; [now rewrite Q|].
    intros i v v' G1 G2. rewrite (gets_b _ _ _ _ _ _ _ _ _ I G1), (gets_b _ _ _ _ _ _ _ _ _ I' G2).
    unfold oget. now rewrite Q.
  Qed.

  Theorem C04_pack_packs s fo' b' x :
    reach no_repair cfg sec s ->
    pack (sy_fo s) (sy_b s) = (Ok tt, fo', b') ->
    says_packed fo' (snapshot b') x -> x = true.
  Proof.
    intros R E P. destruct (reach_b cfg sec Hcfg _ _ R) as (n & I).
    destruct (pack_api cfg sec Hcfg _ _ _ _ _ _ _ _ I E) as (_ & (n' & I' & _ & Q)).
    destruct Q as [_ Q]; auto. rewrite (packed_b _ _ _ _ _ _ _ _ I' P). now apply opacked_b.
  Qed.

  Theorem C04_pack_packs_total s fo' b' (RR : ReliableReads T B) :
    reach no_loss cfg sec s ->
    pack (sy_fo s) (sy_b s) = (Ok tt, fo', b') ->
    small_branches fo' ->
    says_packed fo' (snapshot b') true.
  Proof.
    intros R E Hs. destruct (reach_b cfg sec Hcfg _ _ R) as (n & I).
    destruct (pack_api cfg sec Hcfg _ _ _ _ _ _ _ _ I E) as (_ & (n' & I' & _ & Q)).
    destruct Q as [_ Q]; auto. apply opacked_b in Q. rewrite <- Q. eapply binv_reads; eauto.
  Qed.

  (** ** C10: no internal assertion fails

      [no_assert r]: the result is a value, an error, or the overflow of the
      cipher offset; it is not a failed [assert!], [unwrap] or [expect], and the
      recursion bounds of the model were sufficient. *)

  Theorem C10_extend s items fo' b' r :
    reach no_repair cfg sec s ->
    says_packed (sy_fo s) (snapshot (sy_b s)) true ->
    extend (sy_fo s) (sy_b s) items = (r, fo', b') -> no_assert r.
  Proof.
    intros R P E. destruct (reach_b cfg sec Hcfg _ _ R) as (n & I).
    destruct (extend_api cfg sec Hcfg _ _ _ _ _ _ _ _ _ I E) as (_ & _ & _ & S). apply S. split; [easy|].
    apply opacked_b. symmetry. exact (packed_b _ _ _ _ _ _ _ _ I P).
  Qed.

  Theorem C10_extend_unpacked s items fo' b' r :
    reach anything cfg sec s ->
    extend_unpacked (sy_fo s) (sy_b s) items = (r, fo', b') -> no_assert r.
  Proof.
    intros R E. destruct (reach_b cfg sec Hcfg _ _ R) as (n & I).
    destruct (extend_unpacked_api cfg sec Hcfg _ _ _ _ _ _ _ _ _ I E) as (_ & _ & _ & S). now apply S.
  Qed.

  Theorem C10_pack s fo' b' r :
    reach no_repair cfg sec s ->
    pack (sy_fo s) (sy_b s) = (r, fo', b') -> no_assert r.
  Proof.
    intros R E. destruct (reach_b cfg sec Hcfg _ _ R) as (n & I).
    destruct (pack_api cfg sec Hcfg _ _ _ _ _ _ _ _ I E) as (_ & (n' & I' & Q & _)). now apply Q.
  Qed.

  Theorem C10_retain s q fo' b' r :
    reach anything cfg sec s ->
    retain (sy_fo s) (sy_b s) q = (r, fo', b') -> no_assert r.
  Proof.
    intros R E. destruct (reach_b cfg sec Hcfg _ _ R) as (n & I).
    destruct (retain_api cfg sec _ _ _ _ _ _ _ _ _ _ I (any_purge_ok cfg sec q) E) as (_ & _ & _ & S). now apply S.
  Qed.

  Theorem C10_repair s fo' b' r :
    reach anything cfg sec s ->
    repair (sy_fo s) (sy_b s) = (r, fo', b') -> no_assert r.
  Proof.
    intros R E. destruct (reach_b cfg sec Hcfg _ _ R) as (n & I). eapply repair_api; eauto.
  Qed.

  (** A builder stays packed as long as only [extend] and [pack] are used, so
      the precondition of [C10_extend] is kept. *)
  Theorem C10_extend_keeps_packed s items fo' b' x' :
    reach no_repair cfg sec s ->
    extend (sy_fo s) (sy_b s) items = (Ok tt, fo', b') ->
    says_packed (sy_fo s) (snapshot (sy_b s)) true ->
    says_packed fo' (snapshot b') x' -> x' = true.
  Proof.
    intros R E P P'. destruct (reach_b cfg sec Hcfg _ _ R) as (n & I).
    destruct (extend_api cfg sec Hcfg _ _ _ _ _ _ _ _ _ I E) as (_ & (n' & I' & Q & _) & _).
    destruct (Q eq_refl) as [_ Q']. rewrite (packed_b _ _ _ _ _ _ _ _ I' P'). apply opacked_b, Q'; [easy|].
    apply opacked_b. symmetry. exact (packed_b _ _ _ _ _ _ _ _ I P).
  Qed.

  Theorem C10_retain_keeps_packed s q fo' b' x' :
    reach anything cfg sec s ->
    retain (sy_fo s) (sy_b s) q = (Ok tt, fo', b') ->
    says_packed (sy_fo s) (snapshot (sy_b s)) true ->
    says_packed fo' (snapshot b') x' -> x' = true.
  Proof.
    intros R E P P'. destruct (reach_b cfg sec Hcfg _ _ R) as (n & I).
    destruct (retain_api cfg sec _ _ _ _ _ _ _ _ _ _ I (any_purge_ok cfg sec q) E) as (_ & (n' & I' & Q & _) & _).
    destruct (Q eq_refl) as (_ & Q' & _). rewrite (packed_b _ _ _ _ _ _ _ _ I' P'). apply opacked_b, Q'.
    apply opacked_b. symmetry. exact (packed_b _ _ _ _ _ _ _ _ I P).
  Qed.

  (** ** C12: the self check finds nothing *)

  Theorem C12_check_invariants s r fo' :
    reach anything cfg sec s ->
    check_invariants (sy_fo s) (sy_b s) = (r, fo') ->
    r = Ok [] \/ exists e, r = Err e.
  Proof.
    intros R E. destruct (reach_b cfg sec Hcfg _ _ R) as (n & F & Es & Ec & Er & G).
    unfold check_invariants in E. rewrite Er, Es, Ec in E. destruct n as [t|]; cbn [option_map] in E; [|injection E as <- <-; auto].
    destruct G as ((R1 & I1 & _) & _).
    eapply (read_rd sec) in E as (_ & E & _); [exact E|exact F|apply rf_check_invariants0|].
    eapply check_invariants0_rd; [exact R1|exact I1|]. unfold depth. lia.
  Qed.

  Theorem C12_check_invariants_total s (RR : ReliableReads T B) :
    reach no_loss cfg sec s -> small_branches (sy_fo s) ->
    fst (check_invariants (sy_fo s) (sy_b s)) = Ok [].
  Proof.
    intros R Hs. destruct (reach_b cfg sec Hcfg _ _ R) as (n & I). pose proof I as (F & Es & Ec & Er & G).
    pose proof (binv_avail _ _ _ _ _ _ _ I eq_refl Hs) as Ha.
    destruct (check_invariants _ _) as [r fo'] eqn:E. cbn.
    unfold check_invariants in E. rewrite Er, Es, Ec in E. destruct n as [t|]; cbn [option_map] in E; [|injection E as <- <-; auto].
    destruct G as ((R1 & I1 & _) & _).
    eapply (read_rd sec) with (P := fun s => avail s t) in E as (_ & _ & E); [apply E; [exact RR|exact Ha]|exact F|apply rf_check_invariants0|].
    eapply check_invariants0_rd; [exact R1|exact I1|]. unfold depth. lia.
  Qed.

  (** ** C19: a failed write leaves the tree as it was *)

  Theorem C19_extend s items fo' b' r :
    reach anything cfg sec s ->
    extend (sy_fo s) (sy_b s) items = (r, fo', b') -> r <> Ok tt -> b_root b' = b_root (sy_b s).
  Proof.
    intros R E. destruct (reach_b cfg sec Hcfg _ _ R) as (n & I).
    destruct (extend_api cfg sec Hcfg _ _ _ _ _ _ _ _ _ I E) as (_ & _ & H & _). exact H.
  Qed.
  Theorem C19_push s k v fo' b' r :
    reach anything cfg sec s ->
    push (sy_fo s) (sy_b s) k v = (r, fo', b') -> r <> Ok tt -> b_root b' = b_root (sy_b s).
  Proof. intros R E. exact (C19_extend s _ _ _ _ R E). Qed.
  Theorem C19_extend_unpacked s items fo' b' r :
    reach anything cfg sec s ->
    extend_unpacked (sy_fo s) (sy_b s) items = (r, fo', b') -> r <> Ok tt -> b_root b' = b_root (sy_b s).
  Proof.
    intros R E. destruct (reach_b cfg sec Hcfg _ _ R) as (n & I).
    destruct (extend_unpacked_api cfg sec Hcfg _ _ _ _ _ _ _ _ _ I E) as (_ & _ & H & _). exact H.
  Qed.
  Theorem C19_retain s q fo' b' r :
    reach anything cfg sec s ->
    retain (sy_fo s) (sy_b s) q = (r, fo', b') -> r <> Ok tt -> b_root b' = b_root (sy_b s).
  Proof.
    intros R E. destruct (reach_b cfg sec Hcfg _ _ R) as (n & I).
    destruct (retain_api cfg sec _ _ _ _ _ _ _ _ _ _ I (any_purge_ok cfg sec q) E) as (_ & _ & H & _). exact H.
  Qed.
  Theorem C19_repair s fo' b' r :
    reach anything cfg sec s ->
    repair (sy_fo s) (sy_b s) = (r, fo', b') -> (forall rep, r <> Ok rep) -> b_root b' = b_root (sy_b s).
  Proof.
    intros R E. destruct (reach_b cfg sec Hcfg _ _ R) as (n & I).
    destruct (repair_api cfg sec _ _ _ _ _ _ _ _ I E) as (_ & _ & H & _). intros Hr. now apply H.
  Qed.

  (** And the content can still be read, as before the failed operation. *)
  Theorem C19_content_kept s items fo' b' r c c' :
    reach anything cfg sec s ->
    extend (sy_fo s) (sy_b s) items = (r, fo', b')
    \/ extend_unpacked (sy_fo s) (sy_b s) items = (r, fo', b') ->
    r <> Ok tt ->
    reads (sy_fo s) (snapshot (sy_b s)) c -> reads fo' (snapshot b') c' -> c' = c.
  Proof.
    intros R E Hr R1 R2. destruct (reach_b cfg sec Hcfg _ _ R) as (n & I).
    assert (H : exists n', bgood cfg sec (k_lose anything = false) (k_repair anything = false) fo' b' n' /\ n' = n).
    { destruct E as [E|E].
      - destruct (extend_api cfg sec Hcfg _ _ _ _ _ _ _ _ _ I E) as (_ & (n' & I' & _ & Q) & _). eauto.
      - destruct (extend_unpacked_api cfg sec Hcfg _ _ _ _ _ _ _ _ _ I E) as (_ & (n' & I' & _ & Q) & _). eauto. }
    destruct H as (n' & I' & ->).
    now rewrite (reads_b _ _ _ _ _ _ _ _ I R1), (reads_b _ _ _ _ _ _ _ _ I' R2).
  Qed.
End Props.

(** * Concrete cases *)
Definition fst3 {A B C} (x : A * B * C) : A := fst (fst x).
Definition mid3 {A B C} (x : A * B * C) : B := snd (fst x).
Lemma triple {A B C} (x : A * B * C) a : fst3 x = a -> x = (a, mid3 x, snd x).
Proof. now destruct x as [[] ?]; cbn; intros ->. Qed.

(** Hypotheses and conclusion of C01, C03, C04, C10 and C12 on [st2]. *)
Example C01_case :
  reach anything ecfg esec st2 /\ config_ok ecfg
  /\ reads (sy_fo st2) (snapshot (sy_b st2)) (map Some (pairs 0 12))
  /\ exists fo' b', extend (sy_fo st2) (sy_b st2) (pairs 40 5) = (Ok tt, fo', b')
     /\ reads fo' (snapshot b') (map Some (pairs 0 12 ++ pairs 40 5)).
Proof.
  splits; [apply no_loss_any, st2_ok|exact ecfg_ok|apply reads_c; vm_compute; reflexivity|].
  do 2 eexists. split; [apply triple; vm_compute; reflexivity|apply reads_c; vm_compute; reflexivity].
Qed.
Example C01_readable_case : reach no_loss ecfg esec st2 /\ small_branches (sy_fo st2).
Proof. split; [exact st2_ok|apply smallb_ok; vm_compute; reflexivity]. Qed.
Example C02_case :
  reach anything ecfg esec st3 /\ config_ok ecfg
  /\ reads (sy_fo st3) (snapshot (sy_b st3)) (map Some (pairs 0 11))
  /\ exists fo' b', extend_unpacked (sy_fo st3) (sy_b st3) (pairs 40 5) = (Ok tt, fo', b')
     /\ reads fo' (snapshot b') (map Some (pairs 0 11 ++ pairs 40 5)).
Proof.
  splits; [apply no_loss_any, st3_ok|exact ecfg_ok|apply reads_c; vm_compute; reflexivity|].
  do 2 eexists. split; [apply triple; vm_compute; reflexivity|apply reads_c; vm_compute; reflexivity].
Qed.
Example C03_C04_case :
  reach no_repair ecfg esec st3 /\ reach no_loss ecfg esec st3 /\ config_ok ecfg
  /\ reads (sy_fo st3) (snapshot (sy_b st3)) (map Some (pairs 0 11))
  /\ says_packed (sy_fo st3) (snapshot (sy_b st3)) false
  /\ exists fo' b', pack (sy_fo st3) (sy_b st3) = (Ok tt, fo', b')
     /\ reads fo' (snapshot b') (map Some (pairs 0 11)) /\ says_packed fo' (snapshot b') true /\ small_branches fo'.
Proof.
  splits; [apply no_loss_no_repair, st3_ok|exact st3_ok|exact ecfg_ok|apply reads_c; vm_compute; reflexivity|apply packed_c; vm_compute; reflexivity|].
  do 2 eexists. splits; [apply triple; vm_compute; reflexivity|apply reads_c|apply packed_c|apply smallb_ok]; vm_compute; reflexivity.
Qed.
Example C10_case :
  reach no_repair ecfg esec st2 /\ config_ok ecfg /\ says_packed (sy_fo st2) (snapshot (sy_b st2)) true.
Proof. splits; [apply no_loss_no_repair, st2_ok|exact ecfg_ok|apply packed_c; vm_compute; reflexivity]. Qed.
Example C12_case :
  reach no_loss ecfg esec st3 /\ small_branches (sy_fo st3) /\ fst (check_invariants (sy_fo st3) (sy_b st3)) = Ok [].
Proof. splits; [exact st3_ok|apply smallb_ok; vm_compute; reflexivity|vm_compute; reflexivity]. Qed.
(** The store is full: the write fails half way. *)
Definition isErr {A} (r : res A) : bool := match r with Err _ => true | _ => false end.
Definition st4x := extend (sy_fo st4) (sy_b st4) (pairs 40 9).
Example C19_case :
  reach anything ecfg esec st4 /\ config_ok ecfg
  /\ reads (sy_fo st4) (snapshot (sy_b st4)) (map Some (pairs 0 12))
  /\ isErr (fst3 st4x) = true
  /\ Nat.ltb (List.length (fo_log (sy_fo st4))) (List.length (fo_log (mid3 st4x))) = true
  /\ reads (mid3 st4x) (snapshot (snd st4x)) (map Some (pairs 0 12)).
Proof.
  splits; [apply no_loss_any, st4_ok|exact ecfg_ok|apply reads_c|..|apply reads_c]; vm_compute; reflexivity.
Qed.

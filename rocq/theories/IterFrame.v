(** Iterating changes nothing but the internal state of store and cache. *)
From Coq Require Import List NArith ZArith Lia Bool String Arith.
From Verif Require Import Base BaseProofs Cbor Types Seq SeqProofs Query World Read Write Api Iter Ghost Frame.
Import ListNotations.

Section IterFrame.
  Context {T : Types} {TL : TypesLaws T} {X : Ext} {XL : ExtLaws X}
          {B : Backend T} {BL : BackendLaws T B}.
  Variable sec : Secrets.
  Notation key := (index_key sec).
  Notation rframe := (frame (rext key)).

  Lemma rf_move_off m off n : rframe (move_off m off n).
  Proof. destruct m; cbn [move_off]; [apply rf_ret|]. destruct (Nat.ltb off n); [apply rf_mpanic|apply rf_ret]. Qed.
  Lemma rf_at_pos {A} (l : list A) p : rframe (at_pos l p).
  Proof. unfold at_pos. destruct (if (p <? 0)%Z then None else nth_error l (Z.to_nat p)); [apply rf_ret|apply rf_mpanic]. Qed.

  Ltac rf := repeat first
    [ apply rf_ret | apply rf_mpanic | apply rf_lift | apply rf_move_off | apply rf_at_pos
    | apply rf_load_leaf_from_link | apply rf_load_branch_cached
    | (apply rf_bind; [|intros]) ].

  Section Chunks.
    Context {E : Type}.

    Lemma rf_visit_leaf (it : titer E) range x l m : ti_sec it = sec -> rframe (visit_leaf it range x l m).
    Proof. intros Es. unfold visit_leaf. rewrite Es. rf. destruct (any m); rf. Qed.

    Lemma rf_tstep (it : titer E) : ti_sec it = sec -> rframe (tstep it).
    Proof.
      intros Es. unfold tstep. destruct (ti_stack it) as [|h st]; [rf|].
      destruct (exhausted _ h); [rf|].
      destruct (node_info_of (ts_index h)).
      - destruct (is_nil _ && negb _); [rf|]. rewrite Es. rf. match goal with |- frame _ (if ?b then _ else _) => destruct b; rf end.
      - apply rf_bind; [now apply rf_visit_leaf|intros; rf].
      - rf.
      - rf.
    Qed.

    Lemma tstep_sec (it : titer E) w it' o w' : tstep it w = (Ok (it', o), w') -> ti_sec it' = ti_sec it.
    Proof.
      unfold tstep, mbind, ret. intros H.
      repeat match type of H with
        | context [match ?x with _ => _ end] => destruct x eqn:?
        end; try discriminate; injection H as <- <- <-; reflexivity.
    Qed.

    Lemma tloop_rext fuel : forall (it : titer E) w r it' w', ti_sec it = sec -> tloop fuel it w = (r, it', w') ->
      rext key w w' /\ ti_sec it' = sec.
    Proof.
      induction fuel as [|fuel IH]; intros it w r it' w' Es; cbn [tloop].
      { intros [= <- <- <-]. split; [apply rext_refl|easy]. }
      destruct (tstep it w) as [r1 w1] eqn:Et. pose proof (rf_tstep it Es _ _ _ Et) as F.
      destruct r1 as [[it1 [o|]]|e|p|].
      - intros [= <- <- <-]. split; [easy|]. now apply tstep_sec in Et as ->.
      - intros H. apply tstep_sec in Et. apply IH in H as [H1 H2]; [|congruence]. split; [eapply rext_trans; eauto|easy].
      - intros [= <- <- <-]. auto.
      - intros [= <- <- <-]. auto.
      - intros [= <- <- <-]. auto.
    Qed.

    Lemma tnext_rext (it : titer E) w r it' w' : ti_sec it = sec -> tnext it w = (r, it', w') ->
      rext key w w' /\ ti_sec it' = sec.
    Proof.
      intros Es. unfold tnext. destruct (tloop _ it w) as [[r1 it1] w1] eqn:El. apply (tloop_rext _ _ _ _ _ _ Es) in El as [H1 H2].
      destruct r1 as [[c|]|e|p|]; intros [= <- <- <-]; auto.
    Qed.

    (** The iterator belongs to the stream with secrets [sec]. *)
    Definition it_sec (it : chunk_iter E) : Prop := match it with Some it => ti_sec it = sec | None => True end.

    Lemma next_chunk_rext fo (it : chunk_iter E) r fo' it' : it_sec it -> next_chunk fo it = (r, fo', it') ->
      rext key {| w_store := fo_store fo; w_cache := fo_cache fo; w_off := 0; w_log := fo_log fo |}
               {| w_store := fo_store fo'; w_cache := fo_cache fo'; w_off := 0; w_log := fo_log fo' |}
      /\ it_sec it'.
    Proof.
      intros Es. destruct it as [it|]; cbn [next_chunk].
      - destruct (tnext it _) as [[r1 it1] w1] eqn:Et. apply tnext_rext in Et as [H1 H2]; [|exact Es].
        intros [= <- <- <-]. split; [|exact H2]. destruct H1 as (A1 & A2 & A3 & A4). cbn in *. destruct w1; cbn in *. now subst.
      - intros [= <- <- <-]. split; [apply rext_refl|exact I].
    Qed.

    Lemma take_chunks_rext n : forall fo (it : chunk_iter E) r fo' it', it_sec it -> take_chunks n fo it = (r, fo', it') ->
      rext key {| w_store := fo_store fo; w_cache := fo_cache fo; w_off := 0; w_log := fo_log fo |}
               {| w_store := fo_store fo'; w_cache := fo_cache fo'; w_off := 0; w_log := fo_log fo' |}
      /\ it_sec it'.
    Proof.
      induction n as [|n IH]; intros fo it r fo' it' Es; cbn [take_chunks].
      { intros [= <- <- <-]. split; [apply rext_refl|easy]. }
      destruct (next_chunk fo it) as [[[r1|] fo1] it1] eqn:En.
      - apply next_chunk_rext in En as [H1 H2]; [|easy]. destruct (take_chunks n fo1 it1) as [[rs fo2] it2] eqn:Et.
        apply IH in Et as [H3 H4]; [|easy]. intros [= <- <- <-]. split; [eapply rext_trans; eauto|easy].
      - apply next_chunk_rext in En as [H1 H2]; [|easy]. intros [= <- <- <-]. auto.
    Qed.
  End Chunks.

  Lemma rf_istep (it : iiter) : ii_sec it = sec -> rframe (istep it).
  Proof.
    intros Es. unfold istep. destruct (ii_stack it) as [|h st]; [rf|].
    destruct (exhausted _ h); [rf|].
    destruct (node_info_of (ts_index h)); try (rf; fail).
    rewrite Es. apply rf_bind; [rf|]. intros b. destruct (is_nil _).
    - apply rf_bind; [destruct (ii_mode it); rf|]. intros off. destruct (negb _); rf.
    - rf. destruct a; rf.
  Qed.

  Lemma istep_sec (it : iiter) w it' o w' : istep it w = (Ok (it', o), w') -> ii_sec it' = ii_sec it.
  Proof.
    unfold istep, mbind, ret. intros H.
    repeat match type of H with
      | context [match ?x with _ => _ end] => destruct x eqn:?
      end; try discriminate; injection H as <- <- <-; reflexivity.
  Qed.

  Lemma iloop_rext fuel : forall (it : iiter) w r it' w', ii_sec it = sec -> iloop fuel it w = (r, it', w') ->
    rext key w w' /\ ii_sec it' = sec.
  Proof.
    induction fuel as [|fuel IH]; intros it w r it' w' Es; cbn [iloop].
    { intros [= <- <- <-]. split; [apply rext_refl|easy]. }
    destruct (istep it w) as [r1 w1] eqn:Et. pose proof (rf_istep it Es _ _ _ Et) as F.
    destruct r1 as [[it1 [[o|]|]]|e|p|].
    - intros [= <- <- <-]. split; [easy|]. now apply istep_sec in Et as ->.
    - intros [= <- <- <-]. split; [easy|]. now apply istep_sec in Et as ->.
    - intros H. apply istep_sec in Et. apply IH in H as [H1 H2]; [|congruence]. split; [eapply rext_trans; eauto|easy].
    - intros [= <- <- <-]. auto.
    - intros [= <- <- <-]. auto.
    - intros [= <- <- <-]. auto.
  Qed.

  Definition ii_is (it : index_iter) : Prop := match it with Some it => ii_sec it = sec | None => True end.

  Lemma next_index_rext fo it r fo' it' : ii_is it -> next_index fo it = (r, fo', it') ->
    rext key {| w_store := fo_store fo; w_cache := fo_cache fo; w_off := 0; w_log := fo_log fo |}
             {| w_store := fo_store fo'; w_cache := fo_cache fo'; w_off := 0; w_log := fo_log fo' |}
    /\ ii_is it'.
  Proof.
    intros Es. destruct it as [it|]; cbn [next_index].
    - destruct (iloop _ it _) as [[r1 it1] w1] eqn:Et. apply iloop_rext in Et as [H1 H2]; [|exact Es].
      intros [= <- <- <-]. split; [|exact H2]. destruct H1 as (A1 & A2 & A3 & A4). cbn in *. destruct w1; cbn in *. now subst.
    - intros [= <- <- <-]. split; [apply rext_refl|exact I].
  Qed.
  Lemma take_indexes_rext n : forall fo it r fo' it', ii_is it -> take_indexes n fo it = (r, fo', it') ->
    rext key {| w_store := fo_store fo; w_cache := fo_cache fo; w_off := 0; w_log := fo_log fo |}
             {| w_store := fo_store fo'; w_cache := fo_cache fo'; w_off := 0; w_log := fo_log fo' |}
    /\ ii_is it'.
  Proof.
    induction n as [|n IH]; intros fo it r fo' it' Es; cbn [take_indexes].
    { intros [= <- <- <-]. split; [apply rext_refl|easy]. }
    destruct (next_index fo it) as [[[r1|] fo1] it1] eqn:En.
    - apply next_index_rext in En as [H1 H2]; [|easy]. destruct (take_indexes n fo1 it1) as [[rs fo2] it2] eqn:Et.
      apply IH in Et as [H3 H4]; [|easy]. intros [= <- <- <-]. split; [eapply rext_trans; eauto|easy].
    - apply next_index_rext in En as [H1 H2]; [|easy]. intros [= <- <- <-]. auto.
  Qed.
End IterFrame.

(** Specification side: what a query means. Nothing here models code. *)
From Coq Require Import List NArith ZArith Lia Bool.
From Verif Require Import Base Types Query.
Import ListNotations.

Section QuerySpec.
  Context {T : Types}.

  (** [sum_of s ks]: [s] is a summary of the events with keys [ks], obtained by
      summarizing a non-empty key sequence, or a non-empty sequence of summaries. *)
  Inductive sum_of : Sm -> list K -> Prop :=
  | sum_leaf ks : ks_to ks <> [] -> sum_of (ks_sum ks) (ks_to ks)
  | sum_branch ss kss :
      ss_to ss <> [] -> sums_of (ss_to ss) kss -> sum_of (ss_sum ss) (concat kss)
  with sums_of : list Sm -> list (list K) -> Prop :=
  | sums_nil : sums_of [] []
  | sums_cons s ss ks kss : sum_of s ks -> sums_of ss kss -> sums_of (s :: ss) (ks :: kss).

  (** [query_ok q m]: [q] is a query for the events whose offset and key satisfy
      [m]. This is what banyan expects of an implementation of the trait [Query]
      (query.rs 10-22):
      - for a leaf, a bit of the mask stays set exactly when the event matches;
      - for a branch, a bit may only be cleared when no event below that child
        matches, whatever the keys of the events were that the summaries of the
        branch stand for;
      - masks keep their length, and no bit gets set. *)
  Record query_ok (q : Query) (m : nat -> K -> bool) : Prop := {
    qo_leaf_length : forall off x mask, List.length mask = List.length (leaf_keys x) ->
      List.length (q_containing q off x mask) = List.length mask;
    qo_leaf : forall off x mask i b k, List.length mask = List.length (leaf_keys x) ->
      nth_error mask i = Some b -> nth_error (leaf_keys x) i = Some k ->
      nth_error (q_containing q off x mask) i = Some (b && m (off + i) k);
    qo_branch_length : forall off x mask, List.length mask = List.length (branch_sums x) ->
      List.length (q_intersecting q off x mask) = List.length mask;
    qo_branch_mask : forall off x mask i, List.length mask = List.length (branch_sums x) ->
      nth_error (q_intersecting q off x mask) i = Some true -> nth_error mask i = Some true;
    qo_branch : forall off x mask kss i j ks k,
      List.length mask = List.length (branch_sums x) ->
      branch_sums x <> [] ->
      sums_of (branch_sums x) kss -> bi_count x = List.length (concat kss) ->
      nth_error mask i = Some true ->
      nth_error kss i = Some ks -> nth_error ks j = Some k ->
      m (off + List.length (concat (firstn i kss)) + j) k = true ->
      nth_error (q_intersecting q off x mask) i = Some true
  }.

  Scheme sum_of_min := Minimality for sum_of Sort Prop
    with sums_of_min := Minimality for sums_of Sort Prop.

  Lemma sums_length ss kss : sums_of ss kss -> List.length kss = List.length ss.
  Proof. induction 1; cbn; congruence. Qed.

  Lemma sum_nonempty s ks : sum_of s ks -> ks <> [].
  Proof.
    revert s ks. apply (sum_of_min (fun _ ks => ks <> []) (fun ss kss => ss <> [] -> concat kss <> [])); auto.
    intros s ss ks kss _ H _ _ _. cbn. now destruct ks.
  Qed.
End QuerySpec.

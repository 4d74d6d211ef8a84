(** C43: what does not depend on the value key. *)
From Coq Require Import List NArith ZArith Lia Bool String Arith.
From Verif Require Import Base BaseProofs Cbor Types Seq Query World Read Write Api Iter History Instance Example.
Import ListNotations.

Section Props.
  Context {T : Types} {X : Ext} {B : Backend T}.

  (** The same secrets, trees and builders with another value key. *)
  Definition rekey (vk : bytes) (s : Secrets) : Secrets := {| index_key := index_key s; value_key := vk |}.
  Definition rekey_tree (vk : bytes) (t : Tree) : Tree :=
    match t with Some (i, s, o) => Some (i, rekey vk s, o) | None => None end.
  Definition rekey_b (vk : bytes) (b : Builder) : Builder :=
    {| b_root := b_root b; b_off := b_off b; b_sec := rekey vk (b_sec b); b_cfg := b_cfg b |}.
  Definition rekey_iter (vk : bytes) (it : index_iter) : index_iter :=
    match it with
    | Some it => Some {| ii_sec := rekey vk (ii_sec it); ii_off := ii_off it; ii_query := ii_query it;
                         ii_stack := ii_stack it; ii_mode := ii_mode it |}
    | None => None
    end.

  Theorem C43_is_packed fo t vk : is_packed fo (rekey_tree vk t) = is_packed fo t.
  Proof. destruct t as [[[i s] o]|]; reflexivity. Qed.

  Theorem C43_left_roots fo t vk :
    left_roots fo (rekey_tree vk t) =
      (rmap (map (rekey_tree vk)) (fst (left_roots fo t)), snd (left_roots fo t)).
  Proof.
    destruct t as [[[i s] o]|]; [|reflexivity]. cbn [rekey_tree left_roots].
    change (left_roots0 (rekey vk s)) with (left_roots0 s). destruct (read fo _) as [r fo'].
    destruct r as [l|e|p|]; cbn; [|reflexivity..]. now rewrite map_map.
  Qed.

  Theorem C43_dump_graph {S} fo t (f : nat -> Index -> S) vk : dump_graph fo (rekey_tree vk t) f = dump_graph fo t f.
  Proof. destruct t as [[[i s] o]|]; reflexivity. Qed.

  Theorem C43_roots fo b vk : roots fo (rekey_b vk b) = roots fo b.
  Proof. reflexivity. Qed.

  (** [iter_index] and [iter_index_reverse], item by item. *)
  Lemma iloop_rekey vk fuel : forall it w,
    iloop fuel {| ii_sec := rekey vk (ii_sec it); ii_off := ii_off it; ii_query := ii_query it;
                         ii_stack := ii_stack it; ii_mode := ii_mode it |} w =
    (let '(r, it', w') := iloop fuel it w in
     (r, {| ii_sec := rekey vk (ii_sec it'); ii_off := ii_off it'; ii_query := ii_query it';
                         ii_stack := ii_stack it'; ii_mode := ii_mode it' |}, w')).
  Proof.
    induction fuel as [|f IH]; intros it w; [reflexivity|]. cbn [iloop].
    assert (E : istep {| ii_sec := rekey vk (ii_sec it); ii_off := ii_off it; ii_query := ii_query it;
                         ii_stack := ii_stack it; ii_mode := ii_mode it |} w =
       (let '(r, w') := istep it w in
        (rmap (fun p => ({| ii_sec := rekey vk (ii_sec (fst p)); ii_off := ii_off (fst p); ii_query := ii_query (fst p);
                         ii_stack := ii_stack (fst p); ii_mode := ii_mode (fst p) |}, snd p)) r, w'))).
    { clear IH. destruct it as [sc off q st md]. unfold istep. cbn [ii_sec ii_off ii_query ii_stack ii_mode].
      destruct st as [|head below]; [reflexivity|].
      destruct (exhausted _ _); [reflexivity|]. destruct (node_info_of _) as [x l|x l|x|x].
      - change (load_branch_cached (rekey vk sc)) with (load_branch_cached sc).
        unfold mbind. destruct (load_branch_cached sc l w) as [[b|e|p|] w1]; try reflexivity.
        destruct (Iter.is_nil _).
        + destruct md.
          * unfold ret. destruct (negb _); reflexivity.
          * destruct (move_off _ _ _ w1) as [[s0|e|p|] w2]; try reflexivity. destruct (negb _); reflexivity.
        + destruct (at_pos _ _ w1) as [[bit|e|p|] w2]; try reflexivity.
          destruct (at_pos _ _ w2) as [[c|e|p|] w3]; try reflexivity. destruct bit; [reflexivity|].
          destruct (move_off _ _ _ w3) as [[o|e|p|] w4]; reflexivity.
      - unfold mbind. destruct (move_off _ _ _ w) as [[o|e|p|] w4]; reflexivity.
      - unfold mbind. destruct (move_off _ _ _ w) as [[o|e|p|] w4]; reflexivity.
      - unfold mbind. destruct (move_off _ _ _ w) as [[o|e|p|] w4]; reflexivity. }
    rewrite E. destruct (istep it w) as [[[it' [[i|]|]]|e|p|] w']; cbn [rmap fst snd]; try reflexivity. apply IH.
  Qed.

  Lemma take_indexes_rekey vk n : forall fo it,
    take_indexes n fo (rekey_iter vk it) =
    (let '(rs, fo', it') := take_indexes n fo it in (rs, fo', rekey_iter vk it')).
  Proof.
    induction n as [|n IH]; intros fo it; [reflexivity|]. cbn [take_indexes].
    assert (E : next_index fo (rekey_iter vk it) = (let '(r, fo', it') := next_index fo it in (r, fo', rekey_iter vk it'))).
    { destruct it as [it|]; [|reflexivity]. unfold rekey_iter at 1, next_index. cbn [ii_stack]. rewrite iloop_rekey.
      destruct (iloop _ it _) as [[r it'] w]. reflexivity. }
    rewrite E. destruct (next_index fo it) as [[[r|] fo'] it']; [|reflexivity]. rewrite IH.
    destruct (take_indexes n fo' it') as [[rs fo2] it2]. reflexivity.
  Qed.

  Theorem C43_iter_index fo t q n vk :
    fst (take_indexes n fo (iter_index (rekey_tree vk t) q)) = fst (take_indexes n fo (iter_index t q))
    /\ fst (take_indexes n fo (iter_index_reverse (rekey_tree vk t) q)) = fst (take_indexes n fo (iter_index_reverse t q)).
  Proof.
    assert (E1 : iter_index (rekey_tree vk t) q = rekey_iter vk (iter_index t q)) by (destruct t as [[[i s] o]|]; reflexivity).
    assert (E2 : iter_index_reverse (rekey_tree vk t) q = rekey_iter vk (iter_index_reverse t q)) by (destruct t as [[[i s] o]|]; reflexivity).
    rewrite E1, E2, !take_indexes_rekey. split.
    - now destruct (take_indexes n fo (iter_index t q)) as [[rs fo'] it'].
    - now destruct (take_indexes n fo (iter_index_reverse t q)) as [[rs fo'] it'].
  Qed.

  (** [retain] writes the same blocks and leaves the same root. *)
  Theorem C43_retain fo b q vk :
    retain fo (rekey_b vk b) q =
      (let '(r, fo', b') := retain fo b q in (r, fo', rekey_b vk b')).
  Proof.
    unfold retain. cbn [rekey_b b_root b_cfg b_sec]. destruct (b_root b) as [i|] eqn:Er; [|destruct b; cbn in *; now subst].
    change (retain0 (b_cfg b) (rekey vk (b_sec b))) with (retain0 (b_cfg b) (b_sec b)).
    unfold run. cbn [rekey_b b_off].
    destruct (retain0 _ _ _ _ _ _ _ _) as [[[i' c]|e|p|] w]; reflexivity.
  Qed.

  (** [repair] loads every leaf, but only looks at whether that succeeds. *)
  Lemma repair0_rekey cfg sec vk d : forall i cur w,
    repair0 cfg (rekey vk sec) d i cur w = repair0 cfg sec d i cur w.
  Proof.
    assert (Lf : forall x c w, (r <- try (load_leaf (rekey vk sec) x) ;;
                  match r with inl _ => ret (ILeaf x, [], c)
                  | inr _ => ret (ILeaf (leaf_set_link x None),
                     ForgetLeaf (li_link x) :: (if negb (li_sealed x) then [WarnUnsealedLeaf]
                           else if negb (cur_le 0 c) then [WarnUnpackedLeaf] else []), c) end)%M w
                = (r <- try (load_leaf sec x) ;;
                  match r with inl _ => ret (ILeaf x, [], c)
                  | inr _ => ret (ILeaf (leaf_set_link x None),
                     ForgetLeaf (li_link x) :: (if negb (li_sealed x) then [WarnUnsealedLeaf]
                           else if negb (cur_le 0 c) then [WarnUnpackedLeaf] else []), c) end)%M w).
    { intros x c w. unfold mbind, try, load_leaf. destruct (li_link x) as [l|]; [|reflexivity].
      unfold load_leaf_from_link, mbind, lift, decrypt, rekey. cbn [value_key].
      destruct (get_block l w) as [[dd|e|p|] w1]; try reflexivity.
      destruct (decode_block dd) as [[[off ls] p]|]; cbn [ok_or rbind]; [|reflexivity].
      destruct (off + Nlen p <? two64)%N; reflexivity. }
    induction d as [|d IH]; intros i cur w; cbn [repair0]; destruct i as [x|x]; try apply Lf.
    - reflexivity.
    - change (load_branch (rekey vk sec) x) with (load_branch sec x).
      match goal with |- mbind ?m ?f w = mbind _ ?g w => change (match m w with (Ok a, w') => f a w' | (Err e, w') => (Err e, w') | (Panic p, w') => (Panic p, w') | (NoFuel, w') => (NoFuel, w') end = match m w with (Ok a, w') => g a w' | (Err e, w') => (Err e, w') | (Panic p, w') => (Panic p, w') | (NoFuel, w') => (NoFuel, w') end) end.
      destruct (try (load_branch sec x) w) as [[[[b|]|e]|e|p|] w1]; try reflexivity.
      match goal with |- mbind (?g1 (br_children b) _) _ _ = mbind (?g2 _ _) _ _ =>
        assert (G : forall l c w, g1 l c w = g2 l c w) end.
      { intros cs. induction cs as [|c cs IHc]; intros c0 w0; [reflexivity|].
        unfold mbind. rewrite IH. destruct (repair0 cfg sec d c c0 w0) as [[[[c1 rep1] cur1]|e|p|] w2]; try reflexivity.
        rewrite IHc. reflexivity. }
      unfold mbind. rewrite G. reflexivity.
  Qed.

  Theorem C43_repair fo b vk :
    repair fo (rekey_b vk b) =
      (let '(r, fo', b') := repair fo b in (r, fo', rekey_b vk b')).
  Proof.
    unfold repair. cbn [rekey_b b_root b_cfg b_sec]. destruct (b_root b) as [i|] eqn:Er; [|destruct b; cbn in *; now subst].
    unfold run. cbn [rekey_b b_off]. rewrite repair0_rekey.
    destruct (repair0 _ _ _ _ _ _) as [[[[i' rep] c]|e|p|] w]; reflexivity.
  Qed.

  (** Loading from a link. *)
  Theorem C43_load fo sec cfg l vk :
    load_tree fo (rekey vk sec) l = (rmap (rekey_tree vk) (fst (load_tree fo sec l)), snd (load_tree fo sec l))
    /\ load_stream_builder fo (rekey vk sec) cfg l =
       (rmap (rekey_b vk) (fst (load_stream_builder fo sec cfg l)), snd (load_stream_builder fo sec cfg l)).
  Proof.
    unfold load_tree, load_stream_builder.
    change (create_index_from_link (rekey vk sec)) with (create_index_from_link sec).
    split; destruct (read fo _) as [[[i r]|e|p|] fo']; reflexivity.
  Qed.
End Props.

(** The tree of Example.v with a wrong value key: the index is complete, the
    values are not what was written. *)
Example C43_case :
  let t := snapshot (sy_b st3) in
  List.length (fst (fst (take_indexes 100 (sy_fo st3) (iter_index (rekey_tree [] t) all_query)))) = 13
  /\ match fst (collect (sy_fo st3) (rekey_tree [] t)) with Ok _ => false | _ => true end = true.
Proof. split; vm_compute; reflexivity. Qed.

(** Properties that do not hold, with witnesses, and what holds instead:
    C11, C15, C17, C20, C25, C57, C58. The witnesses are histories of the
    concrete instance (Instance.v, Example.v), in a store that keeps everything
    it accepted unless stated otherwise. *)
From Coq Require Import List NArith ZArith Lia Bool String Arith.
From Verif Require Import Base BaseProofs Cbor Types Seq SeqProofs Query QuerySpec World Read Write Api Iter History Spec IterSpec Ghost Frame ReadProofs Packable WriteProofs QueryProofs PackProofs RetainProofs RepairProofs NoPurged ApiProofs SysProofs HistProofs Instance Example PropsRead PropsIter PropsShape.
Import ListNotations.

Section Props.
  Context {T : Types} {TL : TypesLaws T} {X : Ext} {XL : ExtLaws X}
          {B : Backend T} {BL : BackendLaws T B}.
  Variable cfg : Config.
  Variable sec : Secrets.
  Hypothesis Hcfg : config_ok cfg.

  (** ** C20: what a failed [pack] leaves is a prefix *)
  Theorem C20_prefix_partial s r fo' b' c c' :
    reach no_repair cfg sec s ->
    pack (sy_fo s) (sy_b s) = (r, fo', b') ->
    reads (sy_fo s) (snapshot (sy_b s)) c -> reads fo' (snapshot b') c' ->
    exists rest, c = c' ++ rest.
  Proof.
    intros R E H1 H2. destruct (reach_b cfg sec Hcfg _ _ R) as (n & I).
    destruct (pack_full cfg sec Hcfg _ _ _ _ _ _ _ _ I E) as (_ & n' & I' & _ & _ & H & _).
    rewrite (reads_b _ _ _ _ _ _ _ _ I H1), (reads_b _ _ _ _ _ _ _ _ I' H2). now apply H.
  Qed.

  (** ** C25: [pack] after [repair] keeps the number of entries *)
  Theorem C25_count_partial s fo' b' :
    reach anything cfg sec s ->
    pack (sy_fo s) (sy_b s) = (Ok tt, fo', b') ->
    builder_count b' = builder_count (sy_b s).
  Proof.
    intros R E. destruct (reach_b cfg sec Hcfg _ _ R) as (n & I).
    destruct (pack_full cfg sec Hcfg _ _ _ _ _ _ _ _ I E) as (_ & n' & I' & _ & _ & _ & H & _).
    rewrite (b_count _ _ _ _ _ _ _ I), (b_count _ _ _ _ _ _ _ I'). now apply H.
  Qed.
End Props.

(** * Witnesses *)

Definition asserts {A} (r : res A) : bool := match r with Panic (PAssert _) => true | _ => false end.
Definition keys_of (l : list (option (N * N))) : list (option N) := map (option_map fst) l.
(** The keys of the entries; [None] for purged ones. *)
Definition content_of (s : sys) : option (list (option N)) :=
  match fst (collect (sy_fo s) (snapshot (sy_b s))) with Ok l => Some (keys_of l) | _ => None end.

(** ** C11: [extend] may panic after [extend_unpacked]

    Five entries on top of one entry; then [extend] is called with one more. *)
Definition ops11 : list (@op ITypes IBackend) := [OExtend (pairs 0 1); OExtendUnpacked (pairs 1 5)].
Theorem C11_refuted :
  exists s, reach no_loss ecfg esec s
    /\ s = state no_loss 1000000 ops11
    /\ asserts (fst (exec (OExtend (pairs 6 1)) s)) = true
    /\ asserts (fst (exec (OPush 6%N 6%N) s)) = true.
Proof.
  exists (state no_loss 1000000 ops11). split; [reached|]. split; [easy|]. split; vm_compute; reflexivity.
Qed.

(** ** C15: keystream bytes are used twice after a rollback and a restart

    Three entries; two more in a transaction that is rolled back; the builder is
    loaded from the link of the three entries, and two other entries are appended.
    Two different blocks of the log are encrypted with the same key and the same
    part of the keystream. *)
Definition ops15 : list (@op ITypes IBackend) :=
  [OExtend (pairs 0 3); OSnapshot; OBegin; OExtend (pairs 3 2); ODrop; OReload 0; OExtend (pairs 10 2)].
Definition clash (e e' : event) : bool :=
  bytes_eqb (ev_key e) (ev_key e') && (ev_off e <? ev_end e')%N && (ev_off e' <? ev_end e)%N
  && negb (bytes_eqb (ev_block e) (ev_block e')).
Theorem C15_refuted :
  exists s i j e e', reach anything ecfg esec s
    /\ i <> j /\ nth_error (fo_log (sy_fo s)) i = Some e /\ nth_error (fo_log (sy_fo s)) j = Some e'
    /\ ev_key e = ev_key e' /\ (ev_off e < ev_end e')%N /\ (ev_off e' < ev_end e)%N
    /\ ev_block e <> ev_block e'.
Proof.
  set (s := state anything 1000000 ops15).
  assert (Hs : reach anything ecfg esec s) by reached.
  assert (H : match nth_error (fo_log (sy_fo s)) 3, nth_error (fo_log (sy_fo s)) 8 with
              | Some e, Some e' => clash e e' | _, _ => false end = true) by (vm_compute; reflexivity).
  clearbody s. destruct (nth_error (fo_log (sy_fo s)) 3) as [e|] eqn:E1; [|discriminate].
  destruct (nth_error (fo_log (sy_fo s)) 8) as [e'|] eqn:E2; [|discriminate].
  unfold clash in H. rewrite !andb_true_iff, negb_true_iff in H. destruct H as (((H1 & H2) & H3) & H4).
  exists s, 3, 8, e, e'. splits; auto; try now apply N.ltb_lt.
  - now apply bytes_eqb_eq.
  - intros H. apply bytes_eqb_eq in H. congruence.
Qed.

(** ** C17: the link of a packed tree with a single leaf cannot be loaded

    Two entries fill one leaf; [pack] makes that leaf the root. *)
Definition ops17 : list (@op ITypes IBackend) := [OExtend (pairs 0 2); OPack].
Theorem C17_refuted :
  exists s l, reach no_loss ecfg esec s /\ s = state no_loss 1000000 ops17
    /\ builder_link (sy_b s) = Some l
    /\ content_of s = Some [Some 0; Some 1]%N
    /\ isErr (fst (load_tree (sy_fo s) esec l)) = true
    /\ isErr (fst (load_stream_builder (sy_fo s) esec ecfg l)) = true.
Proof.
  remember (state no_loss 1000000 ops17) as s eqn:Es.
  assert (Hs : reach no_loss ecfg esec s) by (rewrite Es; reached).
  assert (H : match builder_link (sy_b s) with
              | Some l => isErr (fst (load_tree (sy_fo s) esec l)) && isErr (fst (load_stream_builder (sy_fo s) esec ecfg l))
              | None => false end = true) by (rewrite Es; vm_compute; reflexivity).
  assert (Hc : content_of s = Some [Some 0; Some 1]%N) by (rewrite Es; vm_compute; reflexivity).
  destruct (builder_link (sy_b s)) as [l|] eqn:El; [|discriminate]. apply andb_prop in H as [H1 H2].
  exists s, l. splits; auto.
Qed.

(** ** C20: a failed [pack] loses entries

    Nine entries in two batches; the store has room for the merged roots, but
    not for the rest: [pack] fails, and five entries are gone from the
    builder. *)
Definition ops20 : list (@op ITypes IBackend) := [OExtendUnpacked (pairs 0 5); OExtendUnpacked (pairs 5 4)].
Theorem C20_refuted :
  exists s, reach no_loss ecfg esec s
    /\ isErr (fst (exec OPack s)) = true
    /\ content_of s = Some (keys_of (map Some (pairs 0 9)))
    /\ content_of (snd (exec OPack s)) = Some (keys_of (map Some (pairs 0 4))).
Proof.
  exists (state no_loss 3000 ops20). split; [reached|]. split; [|split]; vm_compute; reflexivity.
Qed.

(** ** C25: [pack] after [repair] can move entries

    One entry, and four on top of it; the block of the first branch is lost;
    after [repair] the first entry is purged; [pack] succeeds, and every entry
    is at another offset, the last one twice. *)
Definition ops25 : list (@op ITypes IBackend) := [OExtend (pairs 0 1); OExtendUnpacked (pairs 1 4)].
Fixpoint without {A} (n : nat) (l : list A) : list A :=
  match l, n with [], _ => [] | _ :: l', O => l' | a :: l', S n' => a :: without n' l' end.
Definition store25 : @Store ITypes IBackend :=
  let st := fo_store (sy_fo (state no_loss 1000000 ops25)) in (fst st, without 4 (snd st)).
Definition ops25' : list (@op ITypes IBackend) := ops25 ++ [OLose store25; OEvict []; ORepair].
Theorem C25_refuted :
  exists s, reach anything ecfg esec s
    /\ content_of s = Some [None; Some 1; Some 2; Some 3; Some 4]%N
    /\ fst (exec OPack s) = Ok tt
    /\ content_of (snd (exec OPack s)) = Some [Some 1; Some 2; Some 3; Some 4; Some 4]%N.
Proof.
  exists (state anything 1000000 ops25'). split; [reached|]. split; [|split]; vm_compute; reflexivity.
Qed.

(** ** C57: [iter_filtered_reverse] does not give descending offsets

    The tree of Example.v with eleven entries. *)
Definition offsets_of {A C} (l : list (res (nat * A * C))) : list (option nat) :=
  map (fun r => match r with Ok (o, _, _) => Some o | _ => None end) l.
Theorem C57_refuted :
  exists s t, reach no_loss ecfg esec s /\ known s t
    /\ offsets_of (flatten_chunks (fst (fst (take_chunks 100 (sy_fo s) (iter_filtered_chunked_reverse t all_query (fun _ => tt))))))
       = map Some [9; 10; 8; 6; 7; 4; 5; 2; 3; 0; 1].
Proof.
  exists st3, t3. split; [exact st3_ok|]. split; [left; reflexivity|]. vm_compute. reflexivity.
Qed.

(** ** C58: a loaded tree claims to be packed *)
Definition ops58 : list (@op ITypes IBackend) := [OExtend (pairs 0 1); OExtendUnpacked (pairs 1 4); OSnapshot; OLoad 0].
Theorem C58_refuted :
  exists s t t', reach no_loss ecfg esec s
    /\ In t (sy_snaps s) /\ In t' (sy_snaps s) /\ tree_link t = tree_link t'
    /\ says_packed (sy_fo s) t false /\ says_packed (sy_fo s) t' true.
Proof.
  set (s := state no_loss 1000000 ops58).
  assert (Hs : reach no_loss ecfg esec s) by reached.
  assert (H : match sy_snaps s with
              | [t; t'] => match tree_link t, tree_link t', fst (is_packed (sy_fo s) t), fst (is_packed (sy_fo s) t') with
                           | Some l, Some l', Ok false, Ok true => bytes_eqb l l'
                           | _, _, _, _ => false end
              | _ => false end = true) by (vm_compute; reflexivity).
  clearbody s. destruct (sy_snaps s) as [|t [|t' [|]]] eqn:El; try discriminate.
  destruct (tree_link t) as [l|] eqn:E1; [|discriminate]. destruct (tree_link t') as [l'|] eqn:E2; [|discriminate].
  destruct (is_packed (sy_fo s) t) as [[[|]|?|?|] fo1] eqn:E3; try discriminate.
  destruct (is_packed (sy_fo s) t') as [[[|]|?|?|] fo2] eqn:E4; try discriminate. cbn [fst] in H. apply bytes_eqb_eq in H.
  exists s, t, t'. rewrite El. splits; auto; try (now left); try (now right; left); try congruence.
  - now exists fo1.
  - now exists fo2.
Qed.

(** C93: the lines that filter prints before the entries. *)
From Coq Require Import List NArith ZArith Lia Bool String Arith.
From Verif Require Import Base BaseProofs Cbor Types Seq SeqProofs Query QuerySpec World Read Write Api Iter IterFrame History Spec IterSpec Ghost Frame ReadProofs Packable WriteProofs QueryProofs PackProofs RetainProofs RepairProofs NoPurged ApiProofs SysProofs HistProofs IterProofs IndexProofs Instance Example PropsWrite PropsRead PropsQuery PropsRefine PropsConfig PropsIter PropsNear PropsIndex DumpTree Cli Commands PropsCommands ReadCommands PropsDumpTree.
From Verif Require PropsProgress PropsCli.
From Verif Require Import PropsRefuted PropsReadCommands.
Import ListNotations.

Section Lines.
  Context {T : Types} {TL : TypesLaws T} {X : Ext} {XL : ExtLaws X}
          {B : Backend T} {BL : BackendLaws T B}.
  Variable sec : Secrets.

  Lemma dump_lines fo g lim o ls r fo' : fok sec fo -> repr sec lim g ->
    dump fo (Some (root_ix g, sec, o)) = (ls, r, fo') ->
    exists es is rest, graph_ok sec 0 es ((0, root_ix g) :: is)
      /\ Forall2 (line_of es) ((0, root_ix g) :: is) (ls ++ rest)
      /\ (r = Ok tt /\ rest = [] \/ exists e, r = Err e).
  Proof.
    intros F Rg E. destruct (gdump_ok _ g _ 0 Rg) as (es & is & E1 & G1).
    unfold dump in E. destruct (dump0 sec (depth (root_ix g)) 0 (root_ix g) _) as [[ls1 r1] w1] eqn:Ed. injection E as <- <- <-.
    destruct (dump0_prints sec (depth (root_ix g)) lim g 0 Rg (depth_ok (root_ix g)) _ _ _ _ F Ed) as (_ & (rest & P1 & P2) & P3 & _).
    exists es, is, rest. split; [exact G1|]. split.
    - rewrite <- P1. assert (Q := glines_graph sec es g lim 0 0 None es _ Rg E1 (incl_refl _) (at_root _)).
      destruct G1 as (_ & _ & _ & G4).
      assert (Hin : forall n, In n ((0, root_ix g) :: is) -> In n ((0, root_ix g) :: is)) by auto.
      clear P1. revert Q Hin. generalize ((0, root_ix g) :: is) at 1 2 4. intros l Q. induction Q as [|n ln l' ll [A (k & B1 & B2)] _ IH]; intros Hin; constructor.
      + split; [exact A|]. destruct n as [p j]. destruct (G4 p j (Hin _ (or_introl eq_refl))) as (cs & C1 & C2).
        cbn [fst snd] in *. rewrite (block_children_fun sec _ _ _ B1 C1) in B2. apply Forall2_len in C2. now rewrite C2.
      + apply IH. intros n' Hn. apply Hin. now right.
    - destruct P3 as [->|P3]; [left; auto|auto].
  Qed.
End Lines.

Section Theorems.
  Context {T : Types} {TL : TypesLaws T} {X : Ext} {XL : ExtLaws X}
          {B : Backend T} {BL : BackendLaws T B}.
  Variable ev : nat -> K * V.

  (** Before the entries filter prints the graph of the tree, one line for each
      node; see C91. The first line is that of a branch with the given link. Only
      an error makes it stop early, and then there are no entries. *)
  Theorem C93_filter_dump lossy tr d n t l cache q ls is r fo' :
    session ev lossy tr d -> given_tree d n t l -> (forall l b, ~ cin cache l b) ->
    cmd_filter q l (fresh d cache) = (ls, is, r, fo') ->
    (ls = [] /\ is = [] /\ exists e, r = Err e)
    \/ exists x es ns rest, bi_link x = Some l
         /\ graph_ok default_secrets 0 es ((0, IBranch x) :: ns)
         /\ Forall2 (line_of es) ((0, IBranch x) :: ns) (ls ++ rest)
         /\ (rest = [] \/ is = [] /\ exists e, r = Err e).
  Proof.
    intros S (Et & Hb & El) Hc E. unfold cmd_filter in E.
    destruct (opened ev _ _ _ _ _ _ _ S Et Hb El Hc) as (cs & c & p & set & i & o & lim & g & b & X1 & X2 & X3 & X4 & F & Ht & Sn & Ec & e & A).
    destruct (load_stream_builder _ _ _ l) as [r1 fo1] eqn:E1.
    destruct (st_load _ _ _ _ _ _ _ _ _ _ _ _ _ _ X4 debug_ok A Et Hb El E1) as (A1 & H1 & H2 & H3).
    destruct H2 as [(b' & ->)|(x & ->)].
    2: { injection E as <- <- <- <-. left. cbn. eauto. }
    destruct (H1 _ eq_refl) as (old & Ho & A2 & _). rewrite nth_error_map, X2 in Ho. injection Ho as <-. cbn [fst] in A2.
    destruct A2 as (((m & I) & _) & _ & S1 & _). cbn [at_ sy_fo sy_b sy_se se_b] in I, S1.
    assert (Hx : exists x, b_root b' = Some (IBranch x) /\ bi_link x = Some l).
    { clear -E1. unfold load_stream_builder, read in E1. destruct (create_index_from_link _ _ _ _) as [r w] eqn:E0.
      destruct r as [[i0 rg]|?|?|]; cbn in E1; try discriminate. injection E1 as <- <-. cbn.
      unfold create_index_from_link in E0. unfold mbind, lift in E0. destruct (get_block l _) as [[d0|?|?|] w0]; try discriminate.
      destruct (deserialize_compressed _ d0) as [[cs r0]|?|?|]; try discriminate. destruct cs; [discriminate|].
      injection E0 as <- _ _. eexists. split; [reflexivity|reflexivity]. }
    destruct Hx as (x & Hx1 & Hx2).
    destruct m as [g'|].
    2: { apply binv_none in I as (_ & En). unfold snapshot in En. rewrite Hx1 in En. discriminate. }
    apply binv_snap in I as (F1 & En & G). rewrite En in E. pose proof (snap_repr _ _ _ _ _ _ _ _ G) as Rg.
    assert (Eg : root_ix g' = IBranch x).
    { unfold snapshot in En. rewrite Hx1 in En. now injection En as <-. }
    destruct (dump fo1 _) as [[ls1 r2] fo2] eqn:Ed.
    destruct (dump_lines default_secrets _ _ _ _ _ _ _ F1 Rg Ed) as (es & ns & rest & D1 & D2 & D3). rewrite Eg in *.
    right. exists x, es, ns, rest. split; [exact Hx2|]. split; [exact D1|].
    destruct D3 as [[-> ->]|(e0 & ->)].
    - destruct (print_stream _ _ _) as [[is' r'] fo3]. injection E as <- <- <- <-. auto.
    - injection E as <- <- <- <-. split; [exact D2|]. right. cbn. eauto.
  Qed.
End Theorems.

(** The tree of C93_filter_case: filter prints more than two lines and no error. *)
Example C93_filter_dump_case : exists tr d t l ls is fo', session cev false tr d /\ given_tree d 2 t l
  /\ cmd_filter (offset_range_query (range_incl_opt 15 None)) l (fresh d cache0) = (ls, is, Ok tt, fo')
  /\ is = [(15, 15%N, 15%N)] /\ 2 < List.length ls.
Proof.
  destruct C93_filter_case as (tr & d & t & l & S & G & _ & _ & E).
  destruct (cmd_filter _ l _) as [[[ls is] r] fo'] eqn:Ec. destruct E as (E1 & -> & E2).
  exists tr, d, t, l, ls, is, fo'. split; [exact S|]. split; [exact G|]. split; [exact Ec|]. split; [exact E1|].
  now apply Nat.ltb_lt.
Qed.

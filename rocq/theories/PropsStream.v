(** Streams over sequences of trees: C38, C39, C40, C55. *)
From Coq Require Import List NArith ZArith Lia Bool String Arith.
From Verif Require Import Base BaseProofs Cbor Types Seq SeqProofs Query QuerySpec World Read Write Api Iter IterFrame History Spec IterSpec Ghost Frame ReadProofs Packable WriteProofs QueryProofs PackProofs RetainProofs RepairProofs NoPurged ApiProofs SysProofs HistProofs IterProofs Stream Instance Example PropsRead PropsQuery PropsIter.
Import ListNotations.

(** * Specification *)
Section Spec.
  Context {T : Types} {X : Ext} {B : Backend T}.

  (** A stream assigns an entry to every offset, [None] when it was purged. The
      tree content [c] holds a first part of it. *)
  Definition part_of (all : nat -> option (K * V)) (c : list (option (K * V))) : Prop :=
    c = map all (seq 0 (List.length c)).

  (** [c] is what the tree [t] holds: if others put back the blocks that are
      missing now, [collect] returns [c]. *)
  Definition holds (s : sys) (t : Tree) (c : list (option (K * V))) : Prop :=
    exists st ca, op_ok (OOthers st ca) s
      /\ reads {| fo_store := st; fo_cache := ca; fo_log := fo_log (sy_fo s) |} t c.

  Definition tree_of (all : nat -> option (K * V)) (s : sys) (t : Tree) : Prop :=
    known s t /\ exists c, holds s t c /\ part_of all c.

  (** The matching entries with offsets from [lo] to before [hi]. *)
  Definition window (m : nat -> K -> bool) (all : nat -> option (K * V)) (lo hi : nat) : list (nat * K * V) :=
    matches m lo (map all (seq lo (hi - lo))).

  (** Offset [o] is not above the inclusive bound [e]. *)
  Definition up_to (e : option nat) (o : nat) : bool :=
    match e with Some e => Nat.leb o e | None => true end.

  Section Run.
    Context {E : Type}.

    (** The offset before which the chunks [cs] of a stream from [start] cover everything. *)
    Definition covered (start : nat) (cs : list (chunk E)) : nat :=
      fold_left Nat.max (map (fun c => snd (c_range c)) cs) start.

    (** Runs of a stream: the trees [ts] were taken from the stream of trees,
        and the items [outs] were delivered. In between anything may happen to
        the forest. All trees belong to the stream [all]. *)
    Inductive run (k : kind) (all : nat -> option (K * V)) (s0 : sys) (st0 : tstream E)
      : list Tree -> list (res (chunk E)) -> sys -> tstream E -> Prop :=
    | run_start : run k all s0 st0 [] [] s0 st0
    | run_feed ts outs s st t :
        run k all s0 st0 ts outs s st -> sm_cur st = None -> sm_done st = false -> tree_of all s t ->
        run k all s0 st0 (ts ++ [t]) outs s (sm_feed st t)
    | run_next ts outs s st r fo st' :
        run k all s0 st0 ts outs s st -> sm_next (sy_fo s) st = (r, fo, st') ->
        run k all s0 st0 ts (outs ++ match r with Some c => [c] | None => [] end) (with_fo s fo) st'
    | run_op ts outs s st o r s' :
        run k all s0 st0 ts outs s st -> op_ok o s -> op_in k o -> exec o s = (r, s') ->
        run k all s0 st0 ts outs s' st.

    (** Runs of a threaded stream: any interleaving of the task, the consumer
        and everything else. The channel has room for [cap] items. *)
    Inductive trun (k : kind) (cap : nat) (all : nat -> option (K * V)) (s0 : sys) (th0 : threaded E)
      : list Tree -> list (res (chunk E)) -> sys -> threaded E -> Prop :=
    | trun_start : trun k cap all s0 th0 [] [] s0 th0
    | trun_feed ts outs s th t :
        trun k cap all s0 th0 ts outs s th -> th_idle th = true -> tree_of all s t ->
        trun k cap all s0 th0 (ts ++ [t]) outs s (th_feed th t)
    | trun_produce ts outs s th fo th' :
        trun k cap all s0 th0 ts outs s th -> th_produce (sy_fo s) th = (fo, th') ->
        trun k cap all s0 th0 ts outs (with_fo s fo) th'
    | trun_send ts outs s th :
        trun k cap all s0 th0 ts outs s th -> trun k cap all s0 th0 ts outs s (th_send cap th)
    | trun_take ts outs s th r th' :
        trun k cap all s0 th0 ts outs s th -> th_take th = (r, th') ->
        trun k cap all s0 th0 ts (outs ++ match r with Some c => [c] | None => [] end) s th'
    | trun_drop ts outs s th :
        trun k cap all s0 th0 ts outs s th -> trun k cap all s0 th0 ts outs s (th_drop th)
    | trun_op ts outs s th o r s' :
        trun k cap all s0 th0 ts outs s th -> op_ok o s -> op_in k o -> exec o s = (r, s') ->
        trun k cap all s0 th0 ts outs s' th.
  End Run.
End Spec.

(** * Lists *)
Section Lists.
  Context {T : Types} {X : Ext} {B : Backend T}.

  Lemma matches_split (m : nat -> K -> bool) off a (b : list (option (K * V))) :
    matches m off (a ++ b) = matches m off a ++ matches m (off + List.length a) b.
  Proof.
    revert off. induction a as [|[[k v]|] a IH]; intros off; cbn [app matches List.length].
    - now rewrite Nat.add_0_r.
    - rewrite IH, <- Nat.add_succ_comm. now destruct (m off k).
    - now rewrite IH, <- Nat.add_succ_comm.
  Qed.
  Lemma matches_ext (m m' : nat -> K -> bool) (c : list (option (K * V))) : forall off,
    (forall o k, off <= o < off + List.length c -> m o k = m' o k) -> matches m off c = matches m' off c.
  Proof.
    induction c as [|[[k v]|] c IH]; intros off H; cbn [matches List.length] in *; [easy| |].
    - rewrite (H off) by lia. rewrite IH; [easy|]. intros; apply H; lia.
    - apply IH. intros; apply H; lia.
  Qed.
  Lemma matches_false (m : nat -> K -> bool) (c : list (option (K * V))) : forall off,
    (forall o k, off <= o < off + List.length c -> m o k = false) -> matches m off c = [].
  Proof.
    induction c as [|[[k v]|] c IH]; intros off H; cbn [matches List.length] in *; [easy| |].
    - rewrite (H off) by lia. apply IH. intros; apply H; lia.
    - apply IH. intros; apply H; lia.
  Qed.
  Lemma matches_offsets (m : nat -> K -> bool) (c : list (option (K * V))) : forall off,
    Forall (fun e => off <= fst (fst e) < off + List.length c) (matches m off c).
  Proof.
    assert (W : forall off n (l : list (nat * K * V)), Forall (fun e => S off <= fst (fst e) < S off + n) l ->
                Forall (fun e => off <= fst (fst e) < off + S n) l).
    { intros off n l. apply Forall_impl. intros; lia. }
    induction c as [|[[k v]|] c IH]; intros off; cbn [matches List.length]; [constructor| |].
    - destruct (m off k); [constructor; [cbn; lia|]|]; apply W, IH.
    - apply W, IH.
  Qed.

  Variable all : nat -> option (K * V).

  Lemma window_nil m lo hi : hi <= lo -> window m all lo hi = [].
  Proof. intros H. unfold window. now replace (hi - lo) with 0 by lia. Qed.
  Lemma window_split m lo mid hi : lo <= mid <= hi -> window m all lo hi = window m all lo mid ++ window m all mid hi.
  Proof.
    intros H. unfold window. replace (hi - lo) with ((mid - lo) + (hi - mid)) by lia.
    rewrite seq_app, map_app, matches_split, map_length, seq_length. now replace (lo + (mid - lo)) with mid by lia.
  Qed.
  Lemma window_ext m m' lo hi : (forall o k, lo <= o < hi -> m o k = m' o k) -> window m all lo hi = window m' all lo hi.
  Proof. intros H. apply matches_ext. rewrite map_length, seq_length. intros; apply H; lia. Qed.
  Lemma window_false m lo hi : (forall o k, lo <= o < hi -> m o k = false) -> window m all lo hi = [].
  Proof. intros H. apply matches_false. rewrite map_length, seq_length. intros; apply H; lia. Qed.
  Lemma window_in m lo hi o k v : In (o, k, v) (window m all lo hi) ->
    lo <= o < hi /\ all o = Some (k, v) /\ m o k = true.
  Proof.
    unfold window. remember (hi - lo) as n. intros I. assert (G : lo <= o < lo + n /\ all o = Some (k, v) /\ m o k = true).
    { clear Heqn. revert lo I. induction n as [|n IH]; cbn [seq map matches]; intros lo I; [easy|].
      destruct (all lo) as [[k' v']|] eqn:A.
      - destruct (m lo k') eqn:M.
        + destruct I as [I|I]; [injection I as -> -> ->; splits; auto; lia|]. destruct (IH _ I) as (? & ? & ?). splits; auto; lia.
        + destruct (IH _ I) as (? & ? & ?). splits; auto; lia.
      - destruct (IH _ I) as (? & ? & ?). splits; auto; lia. }
    destruct G as (? & ? & ?). splits; auto; lia.
  Qed.

  Lemma part_slice c a b : part_of all c -> a <= b <= List.length c ->
    firstn (b - a) (skipn a c) = map all (seq a (b - a)).
  Proof.
    intros P H. rewrite P. set (n := List.length c) in *.
    replace n with (a + ((b - a) + (n - b))) by lia. rewrite seq_app, map_app, skipn_app, map_length, seq_length.
    rewrite skipn_all2 by (rewrite map_length, seq_length; lia). rewrite Nat.sub_diag. cbn [skipn app Nat.add].
    rewrite seq_app, map_app, firstn_app, map_length, seq_length, Nat.sub_diag. cbn [firstn]. rewrite app_nil_r.
    apply firstn_all2. rewrite map_length, seq_length. lia.
  Qed.

  Lemma tiles_le lo hi rs : tiles lo hi rs -> lo <= hi.
  Proof. revert lo. induction rs as [|[a b] rs IH]; intros lo; cbn [tiles]; [lia|]. intros (-> & H & H1). apply IH in H1. lia. Qed.
  Lemma tiles_app_inv a b : forall lo hi, tiles lo hi (a ++ b) -> exists mid, tiles lo mid a /\ tiles mid hi b.
  Proof.
    induction a as [|[x y] a IH]; intros lo hi; cbn [app tiles]; [intros H; exists lo; auto|].
    intros (-> & H & H1). apply IH in H1 as (mid & H1 & H2). exists mid. auto.
  Qed.

  Section Data.
    Context {E : Type}.
    Notation within := (Forall (fun c : chunk E => offsets_in (fst (c_range c)) (snd (c_range c)) (c_data c))).

    Lemma in_offsets lo hi d : offsets_in lo hi d -> Forall (fun e : nat * K * V => lo <= fst (fst e) < hi) d.
    Proof.
      revert lo. induction d as [|[[o k] v] d IH]; intros lo; cbn [offsets_in]; [constructor|]. intros (H & H1).
      constructor; [exact H|]. apply IH in H1. eapply Forall_impl; [|exact H1]. cbn. intros; lia.
    Qed.
    Lemma tiles_data lo hi cs : tiles lo hi (map c_range cs) -> within cs ->
      Forall (fun e : nat * K * V => lo <= fst (fst e) < hi) (flat_map c_data cs).
    Proof.
      revert lo. induction cs as [|c cs IH]; intros lo; cbn [map tiles flat_map]; [constructor|].
      destruct (c_range c) as [a b] eqn:Er. intros (-> & H & H1) W. apply Forall_cons_iff in W as [W1 W2].
      apply Forall_app. rewrite Er in W1. apply in_offsets in W1. cbn [fst snd] in W1. pose proof (tiles_le _ _ _ H1). split.
      - eapply Forall_impl; [|exact W1]. cbn. intros; lia.
      - eapply Forall_impl; [|now apply (IH b)]. cbn. intros; lia.
    Qed.
    Lemma tiles_in cs y : forall lo hi, tiles lo hi (map c_range cs) -> In y cs ->
      lo <= fst (@c_range _ E y) /\ fst (c_range y) < snd (c_range y) /\ snd (c_range y) <= hi.
    Proof.
      induction cs as [|z cs IH]; [easy|]. intros lo hi. cbn [map tiles]. destruct (c_range z) as [p r] eqn:Ez.
      intros (-> & H & H1) [<-|Hy].
      - rewrite Ez. cbn. apply tiles_le in H1. lia.
      - destruct (IH _ _ H1 Hy). lia.
    Qed.
    Lemma skip_skip {A} n k (l : list A) : skipn n (skipn k l) = skipn (n + k) l.
    Proof.
      revert l. induction k as [|k IH]; intros l; [now rewrite Nat.add_0_r|]. rewrite Nat.add_succ_r.
      destruct l; [now rewrite !skipn_nil|]. apply IH.
    Qed.
    Lemma split_low b (x y : list (nat * K * V)) : Forall (fun e => fst (fst e) < b) x -> Forall (fun e => b <= fst (fst e)) y ->
      filter (fun e => Nat.ltb (fst (fst e)) b) (x ++ y) = x.
    Proof.
      intros H1 H2. rewrite filter_app. transitivity (x ++ []); [|apply app_nil_r]. f_equal.
      - induction H1 as [|e x H _ IH]; cbn [filter]; [easy|]. apply Nat.ltb_lt in H. now rewrite H, IH.
      - induction H2 as [|e y H _ IH]; cbn [filter]; [easy|]. apply Nat.ltb_ge in H. now rewrite H, IH.
    Qed.

    (** The data of each chunk are the matches in its range. *)
    Lemma chunk_data m cs : forall lo c, tiles lo (lo + List.length c) (map c_range cs) -> within cs ->
      flat_map c_data cs = matches m lo c ->
      Forall (fun x => c_data x = matches m (fst (c_range x)) (firstn (snd (c_range x) - fst (c_range x)) (skipn (fst (c_range x) - lo) c))) cs.
    Proof.
      induction cs as [|x cs IH]; intros lo c; cbn [map tiles flat_map]; [constructor|].
      destruct (c_range x) as [a b] eqn:Er. intros (-> & H & H1) W F. apply Forall_cons_iff in W as [W1 W2].
      rewrite Er in W1. apply in_offsets in W1. cbn [fst snd] in W1. pose proof (tiles_le _ _ _ H1) as Hle.
      rewrite <- (firstn_skipn (b - lo) c), matches_split in F.
      assert (Hf : List.length (firstn (b - lo) c) = b - lo) by (rewrite firstn_length; lia).
      rewrite Hf in F. replace (lo + (b - lo)) with b in F by lia.
      assert (Ha : c_data x = matches m lo (firstn (b - lo) c)).
      { rewrite <- (split_low b (c_data x) (flat_map c_data cs)).
        - rewrite F. apply split_low.
          + eapply Forall_impl; [|apply matches_offsets]. rewrite Hf. cbn. intros; lia.
          + eapply Forall_impl; [|apply matches_offsets]. cbn. intros; lia.
        - eapply Forall_impl; [|exact W1]. cbn. intros; lia.
        - eapply Forall_impl; [|eapply tiles_data; eauto]. cbn. intros; lia. }
      rewrite Ha in F. apply app_inv_head in F. constructor.
      - rewrite Er. cbn [fst snd]. rewrite Nat.sub_diag. exact Ha.
      - assert (Hl : b + List.length (skipn (b - lo) c) = lo + List.length c) by (rewrite skipn_length; lia).
        rewrite <- Hl in H1. specialize (IH _ _ H1 W2 F). apply Forall_forall. intros y Hy. rewrite Forall_forall in IH. rewrite (IH y Hy).
        destruct (tiles_in _ _ _ _ H1 Hy) as (Hb & _).
        do 2 f_equal. rewrite skip_skip. f_equal. lia.
    Qed.
  End Data.
End Lists.

Section Props.
  Context {T : Types} {TL : TypesLaws T} {X : Ext} {XL : ExtLaws X}
          {B : Backend T} {BL : BackendLaws T B}.
  Variable cfg : Config.
  Variable sec : Secrets.
  Hypothesis Hcfg : config_ok cfg.

  Section Kind.
    Context {E : Type}.
    Variable k : kind.
    Notation sys_ok := (sys_good cfg sec (k_lose k = false) (k_repair k = false)).

    Lemma known_snap s t : sys_ok s -> known s t ->
      fok sec (sy_fo s) /\ snap_good cfg sec (k_lose k = false) (k_repair k = false) (sy_fo s) t.
    Proof.
      intros S K. pose proof S as ((n & I) & _ & Hs). split; [apply I|].
      destruct K as [->|K]; [eapply snapshot_good; eauto|]. rewrite Forall_forall in Hs. auto.
    Qed.

    Lemma holds_content s t n c : sys_ok s -> behind sec t n -> holds s t c -> c = ocontent n.
    Proof.
      intros S Bh (st & ca & O & fo' & R).
      destruct (step_ok cfg sec Hcfg k (OOthers st ca) s (Ok tt) (with_fo s {| fo_store := st; fo_cache := ca; fo_log := fo_log (sy_fo s) |}) S O Logic.I eq_refl) as [S1 _].
      destruct S1 as ((n1 & I1) & _ & _).
      apply (behind_collect sec _ _ n 0) in R as ([R|(e & R)] & _); [now injection R| discriminate|apply I1|exact Bh].
    Qed.

    (** The same as [tree_of], without reading the tree. *)
    Definition tree_in (all : nat -> option (K * V)) (s : sys) (t : Tree) : Prop :=
      known s t /\ forall n, behind sec t n -> part_of all (ocontent n).
    Lemma tree_of_in all s t : sys_ok s -> tree_of all s t -> tree_in all s t.
    Proof. intros S (Kn & c & Hh & Hp). split; [exact Kn|]. intros n Bh. now rewrite <- (holds_content _ _ _ _ S Bh Hh). Qed.

    (** A tree of the stream, and what iteration needs to know of it. *)
    Lemma tree_behind all s t i sec' o : sys_ok s -> tree_in all s t -> t = Some (i, sec', o) ->
      sec' = sec /\ exists lim g, root_ix g = i /\ repr sec lim g /\ keyed g /\ fullt g
        /\ part_of all (content g) /\ List.length (content g) = cnt g /\ cnt g = tree_count t
        /\ (k_lose k = false -> small_branches (sy_fo s) -> avail (fo_store (sy_fo s)) g).
    Proof.
      intros S (Kn & Hp) ->. destruct (known_snap _ _ S Kn) as [F G].
      destruct (snap_iter cfg sec _ _ _ _ _ _ _ G eq_refl) as (-> & lim & g & <- & Rg & Kg & Fg). split; [easy|].
      assert (Bh : behind sec (Some (root_ix g, sec, o)) (Some g)) by (cbn; eauto).
      exists lim, g. splits; auto.
      - exact (Hp _ Bh).
      - eapply length_content; eauto.
      - intros Hl Hs. exact (behind_avail cfg sec _ _ _ _ (Some g) G Bh Hl Hs).
    Qed.

    Variable all : nat -> option (K * V).
    Variable q : Query.
    Variable m : nat -> K -> bool.
    Variable mk : node_info -> E.
    Hypothesis Hq : query_ok q m.

    (** The query for a tree, and what it means. *)
    Definition rq (lo : nat) (hi : option nat) : Query := and_query (offset_range_query (range_incl_opt lo hi)) q.
    Definition rm (lo : nat) (hi : option nat) : nat -> K -> bool := fun o k => range_contains (range_incl_opt lo hi) o && m o k.
    Lemma rq_ok lo hi : query_ok (rq lo hi) (rm lo hi).
    Proof. apply C36_and; [apply C37_offset_range|exact Hq]. Qed.
    Lemma rm_eq lo hi o key : rm lo hi o key = Nat.leb lo o && up_to hi o && m o key.
    Proof. unfold rm, range_contains, range_incl_opt, up_to. cbn. destruct hi; reflexivity. Qed.

    (** The chunks of a tree under such a query. *)
    Lemma tree_chunks lo hi g lim : repr sec lim g -> keyed g -> fullt g -> part_of all (content g) -> List.length (content g) = cnt g ->
      tiles 0 (cnt g) (map c_range (chunks (rq lo hi) mk 0 g))
      /\ Forall (fun c => c_data c = window (rm lo hi) all (fst (c_range c)) (snd (c_range c))) (chunks (rq lo hi) mk 0 g).
    Proof.
      intros Rg Kg Fg Pg Lg. pose proof (query_sized _ _ (rq_ok lo hi)) as Hz.
      pose proof (chunks_tile sec (rq lo hi) mk Hz g lim 0 Rg Fg) as Ht. cbn [Nat.add] in Ht. split; [exact Ht|].
      pose proof (chunks_within (rq lo hi) mk Hz g 0) as Hw.
      pose proof (chunks_matches sec (rq lo hi) mk Hz (rm lo hi) (rq_ok lo hi) g lim 0 Rg Kg) as Hm.
      pose proof (chunk_data (rm lo hi) (chunks (rq lo hi) mk 0 g) 0 (content g)) as Hd. cbn [Nat.add] in Hd. rewrite Lg in Hd.
      specialize (Hd Ht Hw Hm). apply Forall_forall. intros c Hc. rewrite Forall_forall in Hd. rewrite (Hd c Hc).
      destruct (tiles_in _ _ _ _ Ht Hc) as (_ & H1 & H2). unfold window. f_equal. rewrite Nat.sub_0_r. apply part_slice; [exact Pg|lia].
    Qed.

    (** The iterator [it] over the tree [g] will still return [rest]. *)
    Definition cur_ok (md : mode) (lo : nat) (hi : option nat) (g : tree) (rest : list (chunk E)) (it : titer E) : Prop :=
      exists lim w, repr sec lim g /\ it_ok sec (rq lo hi) mk g md it w /\ remains (rq lo hi) mk md it w = rest.

    Lemma next_cur s md lo hi g rest it r fo it' : sys_ok s -> cur_ok md lo hi g rest it ->
      next_chunk (sy_fo s) (Some it) = (r, fo, it') ->
      sys_ok (with_fo s fo) /\ grows k s (with_fo s fo)
      /\ ((exists c rest' it2, r = Some (Ok c) /\ it' = Some it2 /\ rest = c :: rest' /\ cur_ok md lo hi g rest' it2)
          \/ (r = None /\ rest = [])
          \/ (exists e, r = Some (Err e) /\ (ReliableReads T B -> ~ avail (fo_store (sy_fo s)) g))).
    Proof.
      intros S (lim & w & Rg & Io & <-) En. pose proof En as En'.
      apply (next_sys cfg sec k) in En' as (S1 & G1 & _); [|exact S|apply Io]. split; [exact S1|]. split; [exact G1|].
      cbn [next_chunk] in En. destruct (tnext it _) as [[r2 it2] wd2] eqn:Et. injection En as <- <- <-.
      apply (tnext_ok sec (rq lo hi) mk (query_sized _ _ (rq_ok lo hi)) g lim Rg md it w) in Et; [|exact Io|apply (sys_fok cfg sec k _ S)].
      destruct Et as [[(c & w' & -> & H1 & H2)|[(-> & H1 & H2)|(e & -> & H1)]] Hrel].
      - left. exists c, (remains (rq lo hi) mk md it2 w'), it2. splits; auto. exists lim, w'. auto.
      - right. left. auto.
      - right. right. exists e. split; [reflexivity|]. intros Re A. now apply (Hrel Re A e).
    Qed.

    Lemma covered_app start (a b : list (chunk E)) : covered start (a ++ b) = covered (covered start a) b.
    Proof. unfold covered. now rewrite map_app, fold_left_app. Qed.
    Lemma covered_ge start (a : list (chunk E)) : start <= covered start a.
    Proof.
      unfold covered. revert start. induction (map _ a) as [|x l IH]; intros start; cbn [fold_left]; [lia|].
      specialize (IH (Nat.max start x)). lia.
    Qed.
    Lemma covered_mono start start' (a : list (chunk E)) : start <= start' -> covered start a <= covered start' a.
    Proof.
      unfold covered. revert start start'. induction (map _ a) as [|x l IH]; intros; cbn [fold_left]; [lia|].
      apply IH. lia.
    Qed.
    Lemma covered_in start (a : list (chunk E)) c : In c a -> snd (c_range c) <= covered start a.
    Proof.
      unfold covered. revert start. induction a as [|x l IH]; intros start; [easy|]. intros [->|I]; cbn [map fold_left].
      - pose proof (covered_ge (Nat.max start (snd (c_range c))) l) as H. unfold covered in H. lia.
      - now apply IH.
    Qed.
    Lemma covered_bound (a : list (chunk E)) n : Forall (fun c => snd (c_range c) <= n) a -> covered 0 a <= n.
    Proof.
      intros F. unfold covered. assert (H : 0 <= n) by lia. revert H. generalize 0.
      induction F as [|x l Hx _ IH]; intros start H; cbn [map fold_left]; [lia|]. apply IH. lia.
    Qed.

    Lemma small_before s s' : grows k s s' -> small_branches (sy_fo s') -> small_branches (sy_fo s).
    Proof. intros (_ & (new & Hn) & _). unfold small_branches. rewrite Hn. now intros H%Forall_app. Qed.
    Lemma avail_grows s s' g : grows k s s' -> k_lose k = false -> avail (fo_store (sy_fo s)) g -> avail (fo_store (sy_fo s')) g.
    Proof. intros (_ & _ & G) Hl. apply avail_mono. exact (G Hl). Qed.

    (** Trees with all that was said about them. *)
    Definition tree_facts (g : tree) : Prop :=
      keyed g /\ fullt g /\ part_of all (content g) /\ List.length (content g) = cnt g.

    Lemma cur_chunks md lo hi g rest it : cur_ok md lo hi g rest it -> tree_facts g ->
      tiles 0 (cnt g) (map c_range (chunks (rq lo hi) mk 0 g))
      /\ Forall (fun c => c_data c = window (rm lo hi) all (fst (c_range c)) (snd (c_range c))) (chunks (rq lo hi) mk 0 g).
    Proof. intros (lim & _ & Rg & _) (F1 & F2 & F3 & F4). eapply tree_chunks; eauto. Qed.

    Definition readable (s : sys) (g : tree) : Prop :=
      k_lose k = false -> small_branches (sy_fo s) -> avail (fo_store (sy_fo s)) g.
    Lemma readable_grows s s' g : grows k s s' -> readable s g -> readable s' g.
    Proof. intros G R Hl Hs. eapply avail_grows; eauto. apply R; auto. eapply small_before; eauto. Qed.

    Section Forward.
      Variable stops : bool.
      Variable start : nat.
      Variable e : option nat.
      Notation mm := (fun o key => m o key && up_to e o).

      Definition stopped_at (cs : list (chunk E)) (done : bool) : Prop :=
        match e with
        | None => done = false
        | Some e =>
            if done then exists pre c, cs = pre ++ [c] /\ e < snd (c_range c) /\ Forall (fun c => snd (c_range c) <= e) pre
            else Forall (fun c => snd (c_range c) <= e) cs
        end.

      Definition fargs (st : tstream E) : Prop :=
        sm_mode st = Forward /\ sm_stops st = stops /\ sm_query st = q /\ sm_mk st = mk /\ sm_end st = e /\ sm_hi st = e.
      Definition finv (ts : list Tree) (outs : list (res (chunk E))) (s : sys) (st : tstream E) : Prop :=
        sys_ok s
        /\ fargs st
        /\ (sm_done st = true -> sm_cur st = None)
        /\ (stops = false -> sm_done st = false)
        /\ exists cs, outs = map Ok cs
           /\ sm_lo st = covered start cs
           /\ flat_map c_data cs = window mm all start (sm_lo st)
           /\ (stops = true -> stopped_at cs (sm_done st))
           /\ match sm_cur st with
              | None =>
                  ReliableReads T B -> k_lose k = false -> small_branches (sy_fo s) ->
                  forall t, In t ts -> tree_count t <= covered 0 cs \/ sm_done st = true
              | Some it =>
                  exists lo g pre rest pos, cur_ok Forward lo e g rest it /\ tree_facts g /\ readable s g
                  /\ chunks (rq lo e) mk 0 g = pre ++ rest /\ incl pre cs
                  /\ tiles 0 pos (map c_range pre) /\ sm_lo st = Nat.max lo pos
                  /\ (ReliableReads T B -> k_lose k = false -> small_branches (sy_fo s) ->
                      forall t, In t ts -> tree_count t <= covered 0 cs \/ tree_count t = cnt g)
              end.

      Lemma tiles_covered (pre cs : list (chunk E)) pos : tiles 0 pos (map c_range pre) -> incl pre cs -> pos <= covered 0 cs.
      Proof.
        intros Ht Hi. destruct (rev pre) as [|c p] eqn:Er.
        - apply (f_equal (@rev _)) in Er. rewrite rev_involutive in Er. subst pre. cbn in Ht. lia.
        - apply (f_equal (@rev _)) in Er. rewrite rev_involutive in Er. cbn [rev] in Er. subst pre.
          rewrite map_app in Ht. apply tiles_app_inv in Ht as (mid & _ & Ht). cbn [map] in Ht. cbn [tiles] in Ht.
          destruct (c_range c) as [a b] eqn:Ec. destruct Ht as (_ & _ & ->).
          assert (I : In c cs) by (apply Hi, in_or_app; right; now left).
          apply (covered_in 0) in I. rewrite Ec in I. exact I.
      Qed.

      Lemma finv_op ts outs s st s' : finv ts outs s st -> sys_ok s' -> grows k s s' -> finv ts outs s' st.
      Proof.
        intros (S & H1 & H2 & H3 & cs & H4 & H5 & H6 & H7 & H8) S' G. split; [exact S'|]. splits; auto.
        exists cs. splits; auto. destruct (sm_cur st) as [it|].
        - destruct H8 as (lo & g & pre & rest & pos & A1 & A2 & A3 & A4 & A5 & A6 & A7 & A8).
          exists lo, g, pre, rest, pos. splits; auto; [eapply readable_grows; eauto|].
          intros Re Hl Hs. apply A8; auto. eapply small_before; eauto.
        - intros Re Hl Hs. apply H8; auto. eapply small_before; eauto.
      Qed.

      Lemma finv_feed ts outs s st t : finv ts outs s st -> sm_cur st = None -> sm_done st = false -> tree_in all s t ->
        finv (ts ++ [t]) outs s (sm_feed st t).
      Proof.
        intros (S & H1 & H2 & H3 & cs & H4 & H5 & H6 & H7 & H8) Hc Hd Ht. rewrite Hc in H8.
        pose proof H1 as (M1 & M2 & M3 & M4 & M5 & M6).
        destruct t as [[[i sec'] o]|].
        - destruct (tree_behind _ _ _ _ _ _ S Ht eq_refl) as (-> & lim & g & <- & Rg & Kg & Fg & Pg & Lg & Cg & Ag).
          cbn [sm_feed]. rewrite M1, Hd. split; [exact S|]. cbn [sm_with sm_mode sm_stops sm_query sm_mk sm_end sm_hi sm_done sm_cur sm_lo].
          splits; auto; [discriminate|]. exists cs. rewrite Hd in H7. splits; auto.
          pose proof (start_fw sec (rq (sm_lo st) e) mk g) as [Hf1 Hf2].
          exists (sm_lo st), g, [], (chunks (rq (sm_lo st) e) mk 0 g), 0. splits.
          + exists lim, [(true, g)]. unfold sm_next_query. rewrite M3, M4, M6. splits; auto.
          + unfold tree_facts. splits; auto.
          + exact Ag.
          + reflexivity.
          + intros x [].
          + reflexivity.
          + lia.
          + intros Re Hl Hs t I. apply in_app_or in I as [I|[<-|[]]].
            * destruct (H8 Re Hl Hs t I); [now left|congruence].
            * right. now rewrite Cg.
        - cbn [sm_feed]. split; [exact S|]. splits; auto. exists cs. splits; auto. rewrite Hc.
          intros Re Hl Hs t I. apply in_app_or in I as [I|[<-|[]]]; [now apply H8|]. left. cbn. lia.
      Qed.

      (** The window of the next chunk continues the one before. *)
      Lemma next_window lo pos a b cov : cov = Nat.max lo pos -> a = pos -> a < b -> start <= cov ->
        window mm all start cov ++ window (rm lo e) all a b = window mm all start (Nat.max cov b).
      Proof.
        intros -> -> Hab Hst.
        assert (Heq : forall o key, lo <= o -> rm lo e o key = m o key && up_to e o).
        { intros o key Ho. rewrite rm_eq. apply Nat.leb_le in Ho. rewrite Ho. cbn. apply andb_comm. }
        assert (Hno : forall o key, o < lo -> rm lo e o key = false).
        { intros o key Ho. rewrite rm_eq. apply Nat.leb_gt in Ho. now rewrite Ho. }
        destruct (Nat.le_gt_cases b (Nat.max lo pos)) as [Hb|Hb].
        - rewrite (Nat.max_l (Nat.max lo pos) b) by lia. rewrite (window_false all (rm lo e)); [apply app_nil_r|]. intros o key Ho. apply Hno. lia.
        - rewrite (Nat.max_r (Nat.max lo pos) b) by lia. rewrite (window_split all mm start (Nat.max lo pos) b) by lia. f_equal.
          rewrite (window_split all (rm lo e) pos (Nat.max lo pos) b) by lia.
          rewrite (window_false all (rm lo e) pos); [|intros o key Ho; apply Hno; lia]. cbn [app].
          apply window_ext. intros o key Ho. apply Heq. lia.
      Qed.

      Lemma finv_next ts outs s st r fo st' : finv ts outs s st -> sm_next (sy_fo s) st = (r, fo, st') ->
        finv ts (outs ++ match r with Some c => [c] | None => [] end) (with_fo s fo) st'.
      Proof.
        intros I En. destruct I as (S & H1 & H2 & H3 & cs & H4 & H5 & H6 & H7 & H8).
        unfold sm_next in En. destruct (sm_cur st) as [it|] eqn:Hc.
        2:{ injection En as <- <- <-. rewrite app_nil_r.
            replace (with_fo s (sy_fo s)) with s by now destruct s.
            split; [exact S|]. splits; auto. exists cs. splits; auto. now rewrite Hc. }
        destruct H8 as (lo & g & pre & rest & pos & A1 & A2 & A3 & A4 & A5 & A6 & A7 & A8).
        destruct (next_chunk (sy_fo s) (Some it)) as [[r1 fo1] it1] eqn:Ec.
        destruct (next_cur _ _ _ _ _ _ _ _ _ _ S A1 Ec) as (S1 & G1 & Hr).
        assert (Hd : sm_done st = false). { destruct (sm_done st); [now specialize (H2 eq_refl)|easy]. }
        pose proof H1 as (M1 & M2 & M3 & M4 & M5 & M6).
        pose proof (cur_chunks _ _ _ _ _ _ A1 A2) as [Ht Hw]. rewrite A4 in Ht, Hw. rewrite map_app in Ht.
        destruct (tiles_app_inv _ _ _ _ Ht) as (mid & Ht1 & Ht2).
        assert (mid = pos) as ->.
        { clear -Ht1 A6. revert Ht1 A6. generalize 0. induction (map c_range pre) as [|[x y] l IH]; cbn [tiles]; [lia|]. intros n (-> & _ & H1) (_ & _ & H2). eauto. }
        destruct Hr as [(c & rest' & it2 & -> & -> & -> & C1)|[(-> & ->)|(er & -> & Hno)]].
        - (* a chunk *)
          unfold sm_advance in En. rewrite M1 in En. cbn [map tiles] in Ht2.
          destruct (c_range c) as [a b] eqn:Er. destruct Ht2 as (-> & Hab & Ht2). cbn [snd] in En.
          apply Forall_app in Hw as [_ Hw]. apply Forall_cons_iff in Hw as [Hw _]. rewrite Er in Hw. cbn [fst snd] in Hw.
          assert (Hcov : Nat.max (sm_lo st) b = covered start (cs ++ [c])).
          { rewrite covered_app, <- H5. unfold covered. cbn [map fold_left]. now rewrite Er. }
          assert (Hdat : flat_map c_data (cs ++ [c]) = window mm all start (Nat.max (sm_lo st) b)).
          { rewrite flat_map_app, H6. cbn [flat_map]. rewrite app_nil_r, Hw. apply (next_window _ pos); auto.
            rewrite H5. apply covered_ge. }
          unfold sm_reached in En. rewrite M1, M5, Er in En. cbn [snd] in En.
          destruct (sm_stops st && match e with Some e => Nat.ltb e b | None => false end) eqn:Estop.
          + injection En as <- <- <-. split; [exact S1|]. cbn [sm_with sm_mode sm_stops sm_query sm_mk sm_end sm_hi sm_done sm_cur sm_lo].
            apply andb_prop in Estop as [Es1 Es2].
            splits; auto; [intros F; congruence|].
            exists (cs ++ [c]). splits; auto.
            * rewrite H4, map_app. reflexivity.
            * intros Hs. specialize (H7 Hs). rewrite Hd in H7. unfold stopped_at in *. destruct e as [e'|]; [|discriminate].
              apply Nat.ltb_lt in Es2. exists cs, c. rewrite Er. auto.
          + injection En as <- <- <-. split; [exact S1|]. cbn [sm_with sm_mode sm_stops sm_query sm_mk sm_end sm_hi sm_done sm_cur sm_lo].
            splits; auto; [discriminate|].
            exists (cs ++ [c]). splits; auto.
            * rewrite H4, map_app. reflexivity.
            * intros Hs. specialize (H7 Hs). rewrite Hd in H7. unfold stopped_at in *. destruct e as [e'|]; [|easy].
              rewrite M2, Hs in Estop. cbn [andb] in Estop. apply Nat.ltb_ge in Estop. apply Forall_app. split; [exact H7|]. constructor; [|constructor]. now rewrite Er.
            * exists lo, g, (pre ++ [c]), rest', b. splits; auto.
              -- eapply readable_grows; eauto.
              -- rewrite A4, <- app_assoc. reflexivity.
              -- apply incl_app; [now apply incl_appl|]. apply incl_appr, incl_refl.
              -- rewrite map_app. eapply tiles_app; [exact A6|]. cbn [map tiles]. rewrite Er. auto.
              -- lia.
              -- intros Re Hl Hs t I. destruct (A8 Re Hl (small_before _ _ G1 Hs) t I) as [H|H]; [|now right].
                 left. rewrite covered_app. pose proof (covered_ge (covered 0 cs) [c]). lia.
        - (* the end of the tree *)
          injection En as <- <- <-. rewrite app_nil_r. split; [exact S1|]. cbn [sm_with sm_mode sm_stops sm_query sm_mk sm_end sm_hi sm_done sm_cur sm_lo].
          splits; auto. exists cs. rewrite Hd in H7. splits; auto.
          cbn [map tiles] in Ht2. subst pos.
          intros Re Hl Hs t I. left. destruct (A8 Re Hl (small_before _ _ G1 Hs) t I) as [H|H]; [exact H|].
          rewrite H. eapply tiles_covered; eauto.
        - (* an error *)
          injection En as <- <- <-. rewrite app_nil_r. split; [exact S1|]. cbn [sm_with sm_mode sm_stops sm_query sm_mk sm_end sm_hi sm_done sm_cur sm_lo].
          splits; auto. exists cs. rewrite Hd in H7. splits; auto.
          intros Re Hl Hs t I. destruct (Hno Re). apply A3; auto. eapply small_before; eauto.
      Qed.

      Lemma finv_next_grows ts outs s st r fo st' : finv ts outs s st -> sm_next (sy_fo s) st = (r, fo, st') ->
        grows k s (with_fo s fo).
      Proof.
        intros (S & _ & _ & _ & cs & _ & _ & _ & _ & H8) En. unfold sm_next in En. destruct (sm_cur st) as [it|].
        2:{ injection En as _ <- _. replace (with_fo s (sy_fo s)) with s by now destruct s. apply grows_refl. }
        destruct H8 as (lo & g & pre & rest & pos & A1 & _).
        destruct (next_chunk (sy_fo s) (Some it)) as [[r1 fo1] it1] eqn:Ec.
        destruct (next_cur _ _ _ _ _ _ _ _ _ _ S A1 Ec) as (_ & G1 & _).
        assert (fo = fo1) as ->; [|exact G1].
        repeat match type of En with
               | context [match ?x with _ => _ end] => destruct x
               | (_, _, _) = (_, _, _) => injection En as _ <- _
               end; reflexivity.
      Qed.

      Lemma run_finv s0 ts outs s st : sys_ok s0 -> run k all s0 (sm_new Forward stops q mk start e) ts outs s st -> finv ts outs s st.
      Proof.
        intros S R. induction R as [|ts outs s st t R IH Hc Hd Ht|ts outs s st r fo st' R IH En|ts outs s st o r s' R IH O1 O2 Ex].
        - split; [exact S|]. split; [unfold fargs; cbn; splits; auto|]. split; [discriminate|]. split; [easy|].
          exists []. cbn [sm_new sm_lo sm_done sm_cur]. splits; auto.
          + cbn. now rewrite window_nil.
          + intros _. unfold stopped_at. destruct e; [constructor|easy].
        - apply finv_feed; auto. apply tree_of_in; [apply IH|exact Ht].
        - eapply finv_next; eauto.
        - destruct (step_ok cfg sec Hcfg k _ _ _ _ ltac:(apply IH) O1 O2 Ex) as [S1 G1]. eapply finv_op; eauto.
      Qed.
    End Forward.

    (** ** Backward *)

    (** Later chunks have no entry above the first offset of an earlier one. *)
    Fixpoint descends (cs : list (chunk E)) : Prop :=
      match cs with
      | [] => True
      | c :: cs' => Forall (fun d => Forall (fun x => fst (fst x) <= fst (c_range c)) (c_data d)) cs' /\ descends cs'
      end.
    Lemma descends_app cs c : descends cs ->
      Forall (fun d => Forall (fun x => fst (fst x) <= fst (c_range d)) (c_data c)) cs -> descends (cs ++ [c]).
    Proof.
      induction cs as [|d cs IH]; cbn [app descends]; [auto|]. intros (H1 & H2) H3. apply Forall_cons_iff in H3 as [H3 H4].
      split; [|auto]. apply Forall_app. auto.
    Qed.

    Lemma tiles_window f (cs : list (chunk E)) : forall lo hi, tiles lo hi (map c_range cs) ->
      Forall (fun c => c_data c = window f all (fst (c_range c)) (snd (c_range c))) cs ->
      flat_map c_data cs = window f all lo hi.
    Proof.
      induction cs as [|c cs IH]; intros lo hi; cbn [map tiles flat_map].
      - intros -> _. symmetry. now apply window_nil.
      - destruct (c_range c) as [a b] eqn:Er. intros (-> & H & H1) F. apply Forall_cons_iff in F as [F1 F2].
        rewrite F1, (IH _ _ H1 F2), Er. cbn [fst snd]. pose proof (tiles_le _ _ _ H1). symmetry. apply window_split. lia.
    Qed.

    Section Backward.
      Variable start : nat.
      Variable e : option nat.
      Notation mm := (fun o key => m o key && Nat.leb start o && up_to e o).

      Definition bargs (st : tstream E) : Prop :=
        sm_mode st = Backward /\ sm_stops st = true /\ sm_query st = q /\ sm_mk st = mk /\ sm_start st = start /\ sm_lo st = start.

      Definition good_chunk (c : chunk E) : Prop :=
        exists hi, c_data c = window (rm start hi) all (fst (c_range c)) (snd (c_range c))
          /\ (forall o, up_to hi o = true -> up_to e o = true).

      Definition bstopped (cs : list (chunk E)) (done : bool) : Prop :=
        if done then exists pre c, cs = pre ++ [c] /\ fst (c_range c) <= start /\ Forall (fun c => start < fst (c_range c)) pre
        else Forall (fun c => start < fst (c_range c)) cs.

      (** What is delivered when nothing fails: [t] is the first tree that is not empty. *)
      Definition from_first (ts : list Tree) (cs : list (chunk E)) (low : nat) : Prop :=
        exists ts1 t, ts = ts1 ++ [t] /\ Forall (fun t => tree_count t = 0) ts1
          /\ tiles low (tree_count t) (map c_range (rev cs))
          /\ flat_map c_data (rev cs) = window mm all low (tree_count t).

      Definition binv (ts : list Tree) (outs : list (res (chunk E))) (s : sys) (st : tstream E) : Prop :=
        sys_ok s
        /\ bargs st
        /\ (sm_done st = true -> sm_cur st = None)
        /\ exists cs, outs = map Ok cs
           /\ Forall good_chunk cs
           /\ descends cs
           /\ Forall (fun c => forall o, up_to (sm_hi st) o = true -> o <= fst (c_range c)) cs
           /\ (forall o, up_to (sm_hi st) o = true -> up_to e o = true)
           /\ bstopped cs (sm_done st)
           /\ match sm_cur st with
              | None =>
                  ReliableReads T B -> k_lose k = false -> small_branches (sy_fo s) ->
                  (sm_done st = false /\ Forall (fun t => tree_count t = 0) ts /\ cs = [] /\ sm_hi st = e)
                  \/ (sm_done st = true /\ exists low, low <= start /\ from_first ts cs low)
              | Some it =>
                  exists hi g pre rest pos old, cur_ok Backward start hi g rest it /\ tree_facts g /\ readable s g
                  /\ rev (chunks (rq start hi) mk 0 g) = pre ++ rest
                  /\ (forall o, up_to hi o = true -> up_to e o = true)
                  /\ tiles pos (cnt g) (map c_range (rev pre))
                  /\ cs = old ++ pre
                  /\ Forall (fun c => forall o, up_to hi o = true -> o <= fst (c_range c)) old
                  /\ (ReliableReads T B -> k_lose k = false -> small_branches (sy_fo s) ->
                      old = [] /\ hi = e /\ exists ts1 t, ts = ts1 ++ [t] /\ Forall (fun t => tree_count t = 0) ts1 /\ tree_count t = cnt g)
              end.

      Lemma binv_op ts outs s st s' : binv ts outs s st -> sys_ok s' -> grows k s s' -> binv ts outs s' st.
      Proof.
        intros (S & H1 & H2 & cs & H3 & H4 & H5 & H6 & H7 & H8 & H9) S' G. split; [exact S'|]. splits; auto.
        exists cs. splits; auto. destruct (sm_cur st) as [it|].
        - destruct H9 as (hi & g & pre & rest & pos & old & A1 & A2 & A3 & A4 & A5 & A6 & A7 & A8 & A9).
          exists hi, g, pre, rest, pos, old. splits; auto; [eapply readable_grows; eauto|].
          intros Re Hl Hs. apply A9; auto. eapply small_before; eauto.
        - intros Re Hl Hs. apply H9; auto. eapply small_before; eauto.
      Qed.

      Lemma binv_feed ts outs s st t : binv ts outs s st -> sm_cur st = None -> sm_done st = false -> tree_in all s t ->
        binv (ts ++ [t]) outs s (sm_feed st t).
      Proof.
        intros (S & H1 & H2 & cs & H3 & H4 & H5 & H6 & H7 & H8 & H9) Hc Hd Ht. rewrite Hc in H9.
        pose proof H1 as (M1 & M2 & M3 & M4 & M5 & M6).
        destruct t as [[[i sec'] o]|].
        - destruct (tree_behind _ _ _ _ _ _ S Ht eq_refl) as (-> & lim & g & <- & Rg & Kg & Fg & Pg & Lg & Cg & Ag).
          cbn [sm_feed]. rewrite M1, Hd. split; [exact S|]. split; [exact H1|]. cbn [sm_with sm_done sm_cur sm_lo sm_hi]. split; [discriminate|].
          exists cs. rewrite Hd in H8. splits; auto.
          pose proof (start_bw sec (rq start (sm_hi st)) mk g) as [Hf1 Hf2].
          exists (sm_hi st), g, [], (rev (chunks (rq start (sm_hi st)) mk 0 g)), (cnt g), cs. splits; auto.
          + exists lim, [(true, g)]. unfold sm_next_query. rewrite M3, M4, M6. splits; auto.
          + unfold tree_facts. splits; auto.
          + now rewrite app_nil_r.
          + intros Re Hl Hs. destruct (H9 Re Hl Hs) as [(_ & X1 & X2 & X3)|(Y & _)]; [|congruence]. splits; auto.
            exists ts, (Some (root_ix g, sec, o)). auto.
        - cbn [sm_feed]. split; [exact S|]. splits; auto. exists cs. splits; auto. rewrite Hc.
          intros Re Hl Hs. destruct (H9 Re Hl Hs) as [(_ & X1 & X2 & X3)|(Y & _)]; [|congruence]. left. splits; auto.
          apply Forall_app. split; auto.
      Qed.

      Lemma tiles_snoc lo hi rs a b : tiles lo hi (rs ++ [(a, b)]) -> b = hi /\ a < b /\ tiles lo a rs.
      Proof.
        intros H. apply tiles_app_inv in H as (mid & H1 & H2). cbn in H2. destruct H2 as (-> & H2 & ->). auto.
      Qed.
      Lemma tiles_end lo hi hi' rs : tiles lo hi rs -> tiles lo hi' rs -> hi = hi'.
      Proof. revert lo. induction rs as [|[a b] rs IH]; cbn [tiles]; [lia|]. intros lo (-> & _ & H) (_ & _ & H'). eauto. Qed.
      Lemma tiles_start lo lo' hi rs : tiles lo hi rs -> tiles lo' hi rs -> lo = lo'.
      Proof. destruct rs as [|[a b] rs]; cbn [tiles]; [lia|]. intros (-> & _) (-> & _). reflexivity. Qed.

      Lemma window_offsets f lo hi : Forall (fun x => lo <= fst (fst x) < hi) (window f all lo hi).
      Proof. apply Forall_forall. intros [[o key] v] I. now apply window_in in I as (I & _). Qed.

      Lemma rm_mm o key : rm start e o key = m o key && Nat.leb start o && up_to e o.
      Proof. rewrite rm_eq. now destruct (m o key), (Nat.leb start o), (up_to e o). Qed.

      Lemma binv_next ts outs s st r fo st' : binv ts outs s st -> sm_next (sy_fo s) st = (r, fo, st') ->
        binv ts (outs ++ match r with Some c => [c] | None => [] end) (with_fo s fo) st'.
      Proof.
        intros I En. destruct I as (S & H1 & H2 & cs & H3 & H4 & H5 & H6 & H7 & H8 & H9).
        unfold sm_next in En. destruct (sm_cur st) as [it|] eqn:Hc.
        2:{ injection En as <- <- <-. rewrite app_nil_r.
            replace (with_fo s (sy_fo s)) with s by now destruct s.
            split; [exact S|]. splits; auto. exists cs. splits; auto. now rewrite Hc. }
        destruct H9 as (hi & g & pre & rest & pos & old & A1 & A2 & A3 & A4 & A5 & A6 & A7 & A8 & A9).
        destruct (next_chunk (sy_fo s) (Some it)) as [[r1 fo1] it1] eqn:Ec.
        destruct (next_cur _ _ _ _ _ _ _ _ _ _ S A1 Ec) as (S1 & G1 & Hr).
        assert (Hd : sm_done st = false). { destruct (sm_done st); [now specialize (H2 eq_refl)|easy]. }
        rewrite Hd in H8. pose proof H1 as (M1 & M2 & M3 & M4 & M5 & M6).
        pose proof (cur_chunks _ _ _ _ _ _ A1 A2) as [Ht Hw].
        assert (Hch : chunks (rq start hi) mk 0 g = rev rest ++ rev pre).
        { rewrite <- rev_app_distr, <- A4. now rewrite rev_involutive. }
        rewrite Hch in Ht, Hw. rewrite map_app in Ht.
        destruct (tiles_app_inv _ _ _ _ Ht) as (mid & Ht1 & Ht2).
        assert (mid = pos) as -> by (eapply tiles_start; eauto).
        destruct Hr as [(c & rest' & it2 & -> & -> & -> & C1)|[(-> & ->)|(er & -> & Hno)]].
        - unfold sm_advance in En. rewrite M1, M6 in En.
          cbn [rev] in Ht1. rewrite map_app in Ht1. cbn [map] in Ht1. destruct (c_range c) as [a b] eqn:Er.
          apply tiles_snoc in Ht1 as (-> & Hab & Ht1). cbn [fst] in En.
          assert (Hwc : c_data c = window (rm start hi) all a pos).
          { rewrite Forall_forall in Hw. rewrite (Hw c) by (apply in_or_app; left; cbn [rev]; apply in_or_app; right; now left).
            now rewrite Er. }
          set (hi' := Some (match sm_hi st with Some h => Nat.min h a | None => a end)) in *.
          assert (Hhi : forall o, up_to hi' o = true -> up_to (sm_hi st) o = true /\ o <= a).
          { unfold hi'. intros o. cbn [up_to]. destruct (sm_hi st) as [h|]; cbn [up_to]; rewrite ?Nat.leb_le; [lia|auto]. }
          assert (Gc : good_chunk c). { exists hi. rewrite Er. split; [exact Hwc|exact A5]. }
          assert (Dc : descends (cs ++ [c])).
          { apply descends_app; [exact H5|]. rewrite A7. apply Forall_app. split.
            - eapply Forall_impl; [|exact A8]. intros d Hd'. apply Forall_forall. intros [[o key] v] I. rewrite Hwc in I.
              apply window_in in I as (_ & _ & I). rewrite rm_eq in I. apply andb_prop in I as [I _]. apply andb_prop in I as [_ I]. now apply Hd'.
            - apply Forall_forall. intros d Hd'. apply (in_rev pre) in Hd'. destruct (tiles_in _ _ _ _ A6 Hd') as (Hp & _).
              rewrite Hwc. eapply Forall_impl; [|apply window_offsets]. cbn. intros; lia. }
          assert (Hc1 : Forall (fun d => forall o, up_to hi' o = true -> o <= fst (c_range d)) (cs ++ [c])).
          { apply Forall_app. split.
            - eapply Forall_impl; [|exact H6]. intros d Hd' o Ho. apply Hd', Hhi, Ho.
            - constructor; [|constructor]. intros o Ho. rewrite Er. apply Hhi, Ho. }
          assert (Ha6 : tiles a (cnt g) (map c_range (rev (pre ++ [c])))).
          { rewrite rev_app_distr. cbn [rev app map tiles]. rewrite Er. auto. }
          unfold sm_reached in En. rewrite M1, M2, M5, Er in En. cbn [fst andb] in En.
          destruct (Nat.leb_spec a start) as [Hst|Hst].
          + injection En as <- <- <-. split; [exact S1|]. split; [unfold bargs; cbn; splits; auto|]. cbn [sm_with sm_hi sm_done sm_cur sm_lo].
            split; [reflexivity|]. exists (cs ++ [c]). splits; auto.
            * rewrite H3, map_app. reflexivity.
            * apply Forall_app. auto.
            * intros o Ho. apply H7, Hhi, Ho.
            * exists cs, c. rewrite Er. auto.
            * intros Re Hl Hs. right. split; [reflexivity|]. exists a. split; [exact Hst|].
              destruct (A9 Re Hl (small_before _ _ G1 Hs)) as (-> & -> & ts1 & t & -> & Hts & Ht').
              exists ts1, t. cbn [app] in A7. subst cs. splits; auto; rewrite Ht'; [exact Ha6|].
              rewrite (tiles_window (rm start e) (rev (pre ++ [c])) a (cnt g) Ha6).
              -- apply window_ext. intros; apply rm_mm.
              -- cbn [rev] in Hw. rewrite <- app_assoc in Hw. apply Forall_app in Hw as [_ Hw]. now rewrite rev_app_distr.
          + injection En as <- <- <-. split; [exact S1|]. split; [unfold bargs; cbn; splits; auto|]. cbn [sm_with sm_hi sm_done sm_cur sm_lo].
            split; [discriminate|]. exists (cs ++ [c]). splits; auto.
            * rewrite H3, map_app. reflexivity.
            * apply Forall_app. auto.
            * intros o Ho. apply H7, Hhi, Ho.
            * apply Forall_app. split; [exact H8|]. constructor; [|constructor]. now rewrite Er.
            * exists hi, g, (pre ++ [c]), rest', a, old. splits; auto.
              -- eapply readable_grows; eauto.
              -- rewrite A4, <- app_assoc. reflexivity.
              -- now rewrite A7, app_assoc.
              -- intros Re Hl Hs. apply A9; auto. eapply small_before; eauto.
        - exfalso. cbn [rev map tiles] in Ht1. subst pos. destruct A2 as (_ & F2 & _). pose proof (F2 g (sub_refl g)) as Hg.
          destruct (rev pre) as [|c p] eqn:Ep; [cbn in A6; lia|].
          assert (Ic : In c cs). { rewrite A7. apply in_or_app. right. apply in_rev. rewrite Ep. now left. }
          cbn [bstopped] in H8. rewrite Forall_forall in H8. apply H8 in Ic. cbn [map tiles] in A6.
          destruct (c_range c) as [a b]. destruct A6 as (-> & _). cbn in Ic. lia.
        - injection En as <- <- <-. rewrite app_nil_r. split; [exact S1|]. split; [unfold bargs; cbn; splits; auto|].
          cbn [sm_with sm_hi sm_done sm_cur sm_lo]. split; [reflexivity|]. exists cs. splits; auto.
          intros Re Hl Hs. destruct (Hno Re). apply A3; auto. eapply small_before; eauto.
      Qed.

      Lemma run_binv s0 ts outs s st : sys_ok s0 -> run k all s0 (sm_new Backward true q mk start e) ts outs s st -> binv ts outs s st.
      Proof.
        intros S R. induction R as [|ts outs s st t R IH Hc Hd Ht|ts outs s st r fo st' R IH En|ts outs s st o r s' R IH O1 O2 Ex].
        - split; [exact S|]. split; [unfold bargs; cbn; splits; auto|]. split; [discriminate|].
          exists []. cbn [sm_new sm_hi sm_done sm_cur]. splits; auto; try constructor.
        - apply binv_feed; auto. apply tree_of_in; [apply IH|exact Ht].
        - eapply binv_next; eauto.
        - destruct (step_ok cfg sec Hcfg k _ _ _ _ ltac:(apply IH) O1 O2 Ex) as [S1 G1]. eapply binv_op; eauto.
      Qed.
    End Backward.
  End Kind.

  (** ** C38: every matching entry exactly once *)

  (** After any run, with any failures: only chunks are delivered, no errors.
      Together they hold the matching entries from [start] up to the last range
      that was delivered, each once and in order. *)
  Theorem C38_once {E} k all s0 q m (mk : node_info -> E) start e ts outs s st :
    reach k cfg sec s0 -> query_ok q m ->
    run k all s0 (stream_trees_chunked q mk start e) ts outs s st ->
    exists cs, outs = map Ok cs
      /\ flat_map c_data cs = window (fun o key => m o key && up_to e o) all start (covered start cs).
  Proof.
    intros R Q Ru. apply (reach_ok cfg sec Hcfg) in R. destruct (run_finv k all q m mk Q true start e s0 ts outs s st R Ru) as (_ & _ & _ & _ & cs & H1 & H2 & H3 & _).
    exists cs. split; [exact H1|]. now rewrite <- H2.
  Qed.

  (** While the store keeps its blocks nothing is missing either: when the
      stream waits for the next tree, everything in the trees so far was
      delivered, unless it has ended ([C39_end]). *)
  Theorem C38_complete {E} all s0 q m (mk : node_info -> E) start e ts outs s st (RR : ReliableReads T B) :
    reach no_loss cfg sec s0 -> query_ok q m ->
    run no_loss all s0 (stream_trees_chunked q mk start e) ts outs s st -> small_branches (sy_fo s) ->
    sm_cur st = None -> sm_done st = false ->
    exists cs n, outs = map Ok cs
      /\ flat_map c_data cs = window (fun o key => m o key && up_to e o) all start n
      /\ forall t, In t ts -> tree_count t <= n.
  Proof.
    intros R Q Ru Hs Hc Hd. apply (reach_ok cfg sec Hcfg) in R. destruct (run_finv no_loss all q m mk Q true start e s0 ts outs s st R Ru) as (_ & _ & _ & _ & cs & H1 & H2 & H3 & _ & H4).
    exists cs, (covered start cs). rewrite Hc in H4. splits; auto; [now rewrite <- H2|].
    intros t I. destruct (H4 RR eq_refl Hs t I) as [H|H]; [|congruence]. pose proof (covered_mono 0 start cs). lia.
  Qed.

  (** [stream_trees]: the entries themselves, from the start and without bound. *)
  Theorem C38_items k all s0 q m ts outs s st :
    reach k cfg sec s0 -> query_ok q m ->
    run k all s0 (stream_trees_chunked q (fun _ => tt) 0 None) ts outs s st ->
    exists n, flatten_chunks outs = map Ok (window m all 0 n)
      /\ (ReliableReads T B -> k_lose k = false -> small_branches (sy_fo s) -> sm_cur st = None ->
          forall t, In t ts -> tree_count t <= n).
  Proof.
    intros R Q Ru. apply (reach_ok cfg sec Hcfg) in R. destruct (run_finv k all q m _ Q true 0 None s0 ts outs s st R Ru) as (_ & _ & _ & _ & cs & H1 & H2 & H3 & H5 & H4).
    exists (covered 0 cs). split.
    - rewrite H2 in H3. rewrite (window_ext all _ m) in H3 by (intros; apply andb_true_r). rewrite <- H3, H1. clear.
      unfold flatten_chunks. induction cs as [|c cs IH]; cbn; [easy|]. now rewrite map_app, IH.
    - intros RR Hl Hs Hc t I. rewrite Hc in H4. destruct (H4 RR Hl Hs t I) as [H|H]; [exact H|].
      specialize (H5 eq_refl). cbn in H5. congruence.
  Qed.

  (** ** C39: the stream ends at its upper bound *)

  (** It ends exactly with the first chunk whose range reaches past the bound. *)
  Theorem C39_end {E} k all s0 q m (mk : node_info -> E) start e ts outs s st :
    reach k cfg sec s0 -> query_ok q m ->
    run k all s0 (stream_trees_chunked q mk start (Some e)) ts outs s st ->
    exists cs, outs = map Ok cs
      /\ Forall (fun c => Forall (fun x => start <= fst (fst x) <= e) (c_data c)) cs
      /\ (sm_done st = true -> exists pre c, cs = pre ++ [c] /\ e < snd (c_range c) /\ Forall (fun c => snd (c_range c) <= e) pre)
      /\ (sm_done st = false -> Forall (fun c => snd (c_range c) <= e) cs).
  Proof.
    intros R Q Ru. apply (reach_ok cfg sec Hcfg) in R. destruct (run_finv k all q m mk Q true start (Some e) s0 ts outs s st R Ru) as (_ & _ & _ & _ & cs & H1 & H2 & H3 & H5 & H4).
    exists cs. split; [exact H1|]. split.
    - apply Forall_forall. intros c Hc. apply Forall_forall. intros [[o key] v] I.
      assert (J : In (o, key, v) (flat_map c_data cs)) by (apply in_flat_map; eauto). rewrite H3 in J.
      apply window_in in J as (J1 & _ & J2). apply andb_prop in J2 as [_ J2]. cbn in J2. apply Nat.leb_le in J2. cbn. lia.
    - specialize (H5 eq_refl). unfold stopped_at in H5. destruct (sm_done st); split; auto; discriminate.
  Qed.

  (** A stream that has ended delivers nothing more. *)
  Theorem C39_ended {E} k all s0 q m (mk : node_info -> E) start e ts outs s st r fo st' :
    reach k cfg sec s0 -> query_ok q m ->
    run k all s0 (stream_trees_chunked q mk start e) ts outs s st -> sm_done st = true ->
    sm_next (sy_fo s) st = (r, fo, st') -> r = None /\ fo = sy_fo s /\ st' = st.
  Proof.
    intros R Q Ru Hd En. apply (reach_ok cfg sec Hcfg) in R. destruct (run_finv k all q m mk Q true start e s0 ts outs s st R Ru) as (_ & _ & H & _).
    unfold sm_next in En. rewrite (H Hd) in En. injection En as <- <- <-. auto.
  Qed.

  (** While the store keeps its blocks: once a tree with the last offset was
      given and the stream asks for another one, it has in fact ended. *)
  Theorem C39_reached {E} all s0 q m (mk : node_info -> E) start e ts outs s st t (RR : ReliableReads T B) :
    reach no_loss cfg sec s0 -> query_ok q m ->
    run no_loss all s0 (stream_trees_chunked q mk start (Some e)) ts outs s st -> small_branches (sy_fo s) ->
    In t ts -> e < tree_count t -> sm_cur st = None ->
    sm_done st = true
    /\ exists cs, outs = map Ok cs
       /\ flat_map c_data cs = window (fun o key => m o key && Nat.leb o e) all start (S e).
  Proof.
    intros R Q Ru Hs I He Hc. apply (reach_ok cfg sec Hcfg) in R. destruct (run_finv no_loss all q m mk Q true start (Some e) s0 ts outs s st R Ru) as (_ & _ & _ & _ & cs & H1 & H2 & H3 & H5 & H4).
    rewrite Hc in H4. specialize (H5 eq_refl). unfold stopped_at in H5.
    assert (Hd : sm_done st = true).
    { destruct (sm_done st) eqn:Ed; [reflexivity|]. destruct (H4 RR eq_refl Hs t I) as [H|H]; [|discriminate].
      apply covered_bound in H5. lia. }
    split; [exact Hd|]. exists cs. split; [exact H1|]. rewrite H3, H2. rewrite Hd in H5. destruct H5 as (pre & c & -> & Hb & _).
    assert (Hcov : S e <= covered start (pre ++ [c])).
    { assert (J : In c (pre ++ [c])) by (apply in_or_app; right; now left). apply (covered_in start) in J. lia. }
    destruct (Nat.le_gt_cases start (S e)) as [Hse|Hse].
    - rewrite (window_split all _ start (S e) (covered start (pre ++ [c]))) by lia.
      rewrite (window_false all _ (S e)); [apply app_nil_r|]. intros o key Ho. cbn. rewrite andb_comm.
      replace (Nat.leb o e) with false; [reflexivity|]. symmetry. apply Nat.leb_gt. lia.
    - rewrite (window_nil all _ start (S e)) by lia. apply window_false. intros o key Ho. cbn. rewrite andb_comm.
      replace (Nat.leb o e) with false; [reflexivity|]. symmetry. apply Nat.leb_gt. lia.
  Qed.

  (** ** C40: backward streams *)

  (** What is missing: after a failure the first entry of a chunk can be
      delivered a second time ([C40_refuted]). Everything else holds: all
      items are chunks of matching entries of the range, and an entry of a later chunk never
      lies above the first offset of an earlier chunk. *)
  Theorem C40_descending_partial {E} k all s0 q m (mk : node_info -> E) start e ts outs s st :
    reach k cfg sec s0 -> query_ok q m ->
    run k all s0 (stream_trees_chunked_reverse q mk start e) ts outs s st ->
    exists cs, outs = map Ok cs
      /\ (forall c o key v, In c cs -> In (o, key, v) (c_data c) ->
            all o = Some (key, v) /\ m o key = true /\ start <= o /\ up_to e o = true
            /\ fst (c_range c) <= o < snd (c_range c))
      /\ (forall i j c d x, i < j -> nth_error cs i = Some c -> nth_error cs j = Some d ->
            In x (c_data d) -> fst (fst x) <= fst (c_range c)).
  Proof.
    intros R Q Ru. apply (reach_ok cfg sec Hcfg) in R. destruct (run_binv k all q m mk Q start e s0 ts outs s st R Ru) as (_ & _ & _ & cs & H1 & H2 & H3 & _).
    exists cs. splits; auto.
    - intros c o key v Hc I. rewrite Forall_forall in H2. destruct (H2 c Hc) as (hi & Hw & Hhi). rewrite Hw in I.
      apply window_in in I as (I1 & I2 & I3). rewrite rm_eq in I3. apply andb_prop in I3 as [I3 I4]. apply andb_prop in I3 as [I3 I5].
      apply Nat.leb_le in I3. splits; auto; lia.
    - clear -H3. revert H3. induction cs as [|a cs IH]; intros H3 i j c d x Hij Ei Ej I; [now destruct i|].
      cbn [descends] in H3. destruct H3 as [H3 H4]. destruct j as [|j]; [lia|]. cbn in Ej. destruct i as [|i]; cbn in Ei.
      + injection Ei as ->. rewrite Forall_forall in H3. apply nth_error_In in Ej. specialize (H3 d Ej). rewrite Forall_forall in H3. auto.
      + eapply (IH H4 i j); eauto. lia.
  Qed.

  (** While the store keeps its blocks, the first tree that is not empty is
      delivered, exactly once, and then the stream ends. *)
  Theorem C40_no_failure_partial {E} all s0 q m (mk : node_info -> E) start e ts outs s st (RR : ReliableReads T B) :
    reach no_loss cfg sec s0 -> query_ok q m ->
    run no_loss all s0 (stream_trees_chunked_reverse q mk start e) ts outs s st -> small_branches (sy_fo s) ->
    sm_cur st = None ->
    (sm_done st = false /\ outs = [] /\ Forall (fun t => tree_count t = 0) ts)
    \/ (sm_done st = true /\ exists cs ts1 t, outs = map Ok cs /\ ts = ts1 ++ [t] /\ Forall (fun t => tree_count t = 0) ts1
        /\ flat_map c_data (rev cs) = window (fun o key => m o key && Nat.leb start o && up_to e o) all 0 (tree_count t)).
  Proof.
    intros R Q Ru Hs Hc. apply (reach_ok cfg sec Hcfg) in R. destruct (run_binv no_loss all q m mk Q start e s0 ts outs s st R Ru) as (_ & _ & _ & cs & H1 & _ & _ & _ & _ & _ & H2).
    rewrite Hc in H2. destruct (H2 RR eq_refl Hs) as [(H3 & H4 & -> & _)|(H3 & low & Hl & ts1 & t & -> & H4 & H5 & H6)].
    - left. auto.
    - right. split; [exact H3|]. exists cs, ts1, t. splits; auto. rewrite H6.
      rewrite (window_split all _ 0 low) by (apply tiles_le in H5; lia).
      rewrite (window_false all _ 0 low); [reflexivity|]. intros o key Ho. replace (Nat.leb start o) with false; [now rewrite andb_false_r|].
      symmetry. apply Nat.leb_gt. lia.
  Qed.

  (** ** C55: the threaded stream *)

  (** Every run of the threaded stream, with any schedule, is a run of the
      sequential stream on the same forest with the same trees. What the consumer got
      is a first part of what the sequential stream delivered; what is left is
      in the channel or about to be sent. *)
  Theorem C55_sequential {E} k cap all s0 q (mk : node_info -> E) start e ts outs s th :
    trun k cap all s0 (th_new q mk start e) ts outs s th ->
    exists rest st, run k all s0 (sm_new Forward false q mk start e) ts (outs ++ rest) s st
      /\ (th_open th = true ->
          st = th_st th /\ rest = th_queue th ++ match th_held th with Some r => [r] | None => [] end).
  Proof.
    intros R.
    assert (H : exists rest st, run k all s0 (sm_new Forward false q mk start e) ts (outs ++ rest) s st
      /\ (th_open th = true ->
          st = th_st th /\ rest = th_queue th ++ match th_held th with Some r => [r] | None => [] end)
      /\ (th_open th = false -> th_queue th = [] /\ (st = th_st th \/ sm_cur (th_st th) = None))).
    2:{ destruct H as (rest & st & H1 & H2 & _). eauto. }
    induction R as [|ts outs s th t R IH Hi Ht|ts outs s th fo th' R IH Hp|ts outs s th R IH|ts outs s th r th' R IH Hk|ts outs s th R IH|ts outs s th o r s' R IH O1 O2 Ex].
    - exists [], (sm_new Forward false q mk start e). splits; [constructor|auto|discriminate].
    - destruct IH as (rest & st & H1 & H2 & H3). unfold th_idle in Hi.
      destruct (sm_cur (th_st th)) eqn:Ec; [discriminate|]. destruct (th_held th) eqn:Eh; [discriminate|]. destruct (th_queue th) eqn:Eq; [|discriminate].
      apply andb_prop in Hi as [Hi Hd]. apply negb_true_iff in Hd.
      destruct (H2 Hi) as [-> ->]. exists [], (sm_feed (th_st th) t). splits.
      + now apply run_feed.
      + cbn. intros _. now rewrite Eh, Eq.
      + cbn. congruence.
    - destruct IH as (rest & st & H1 & H2 & H3). unfold th_produce in Hp. destruct (th_held th) as [h|] eqn:Eh.
      { injection Hp as <- <-. replace (with_fo s (sy_fo s)) with s by now destruct s. exists rest, st. rewrite Eh. auto. }
      destruct (sm_next (sy_fo s) (th_st th)) as [[r fo1] st1] eqn:En. injection Hp as <- <-. cbn [th_open th_st th_queue th_held].
      assert (Hsame : st = th_st th \/ sm_cur (th_st th) = None).
      { destruct (th_open th); [left; now apply H2|now apply H3]. }
      destruct Hsame as [->|Hn].
      + exists (rest ++ match r with Some c => [c] | None => [] end), st1. splits.
        * rewrite app_assoc. eapply run_next; eauto.
        * intros Ho. split; [reflexivity|]. destruct (H2 Ho) as [_ ->]. now rewrite app_nil_r.
        * intros Ho. split; [now apply H3|now left].
      + unfold sm_next in En. rewrite Hn in En. injection En as <- <- <-.
        replace (with_fo s (sy_fo s)) with s by now destruct s. exists rest, st. splits; auto.
    - destruct IH as (rest & st & H1 & H2 & H3). exists rest, st. split; [exact H1|]. unfold th_send.
      destruct (th_held th) as [h|] eqn:Eh; [|now rewrite Eh]. destruct (th_open th) eqn:Eo; cbn [negb].
      + destruct (Nat.leb cap _); [rewrite Eh, Eo; auto|]. cbn [th_open th_st th_queue th_held]. split; [|discriminate].
        intros _. rewrite app_nil_r. now apply H2.
      + cbn [th_open th_st th_queue th_held sm_with sm_cur]. split; [discriminate|auto].
    - destruct IH as (rest & st & H1 & H2 & H3). unfold th_take in Hk. destruct (th_queue th) as [|c rest'] eqn:Eq.
      { injection Hk as <- <-. rewrite app_nil_r. exists rest, st. now rewrite Eq. }
      injection Hk as <- <-. cbn [th_open th_st th_queue th_held]. destruct (th_open th) eqn:Eo; [|now destruct (H3 eq_refl)].
      destruct (H2 eq_refl) as [-> ->]. exists (rest' ++ match th_held th with Some r => [r] | None => [] end), (th_st th). splits.
      + rewrite <- app_assoc. exact H1.
      + auto.
      + discriminate.
    - destruct IH as (rest & st & H1 & H2 & H3). exists rest, st. cbn [th_drop th_open th_st th_queue th_held]. splits; [exact H1|discriminate|].
      intros _. split; [reflexivity|]. destruct (th_open th); [left; now apply H2|now apply H3].
    - destruct IH as (rest & st & H1 & H2 & H3). exists rest, st. splits; auto. eapply run_op; eauto.
  Qed.

  (** So the consumer gets chunks only, and they hold the matching entries from
      [start] on, each once and in order. *)
  Theorem C55_once {E} k cap all s0 q m (mk : node_info -> E) start e ts outs s th :
    reach k cfg sec s0 -> query_ok q m ->
    trun k cap all s0 (th_new q mk start e) ts outs s th ->
    exists cs, outs = map Ok cs
      /\ flat_map c_data cs = window (fun o key => m o key && up_to e o) all start (covered start cs).
  Proof.
    intros R Q Ru. apply (reach_ok cfg sec Hcfg) in R.
    enough (H : exists s1 st1 ts1, run k all s0 (sm_new Forward false q mk start e) ts1 outs s1 st1).
    { destruct H as (s1 & st1 & ts1 & H). destruct (run_finv k all q m mk Q false start e s0 ts1 outs s1 st1 R H) as (_ & _ & _ & _ & cs & H1 & H2 & H3 & _).
      exists cs. split; [exact H1|]. now rewrite <- H2. }
    apply C55_sequential in Ru as (rest & st & Ru & _). clear -Ru. remember (outs ++ rest) as all_outs eqn:Eo. revert rest Eo.
    induction Ru as [|ts outs' s st t Ru IH Hc Hd Ht|ts outs' s st r fo st' Ru IH En|ts outs' s st o r s' Ru IH O1 O2 Ex]; intros rest Eo; eauto.
    - symmetry in Eo. apply app_eq_nil in Eo as [-> ->]. exists s0, (sm_new Forward false q mk start e), []. constructor.
    - destruct r as [c|]; [|rewrite app_nil_r in Eo; eauto].
      destruct (rev rest) as [|x l] eqn:El.
      + apply (f_equal (@rev _)) in El. rewrite rev_involutive in El. cbn in El. subst rest. rewrite app_nil_r in Eo.
        exists (with_fo s fo), st', ts. rewrite <- Eo. exact (run_next _ _ _ _ _ _ _ _ _ _ _ Ru En).
      + apply (f_equal (@rev _)) in El. rewrite rev_involutive in El. cbn in El. subst rest. rewrite app_assoc in Eo.
        apply app_inj_tail in Eo as [-> _]. eauto.
  Qed.

  (** While the store keeps its blocks: when the stream asks for the next tree,
      everything in the trees so far was delivered. *)
  Theorem C55_complete {E} cap all s0 q m (mk : node_info -> E) start e ts outs s th (RR : ReliableReads T B) :
    reach no_loss cfg sec s0 -> query_ok q m ->
    trun no_loss cap all s0 (th_new q mk start e) ts outs s th -> small_branches (sy_fo s) ->
    th_idle th = true ->
    exists cs n, outs = map Ok cs
      /\ flat_map c_data cs = window (fun o key => m o key && up_to e o) all start n
      /\ forall t, In t ts -> tree_count t <= n.
  Proof.
    intros R Q Ru Hs Hi. apply (reach_ok cfg sec Hcfg) in R. unfold th_idle in Hi.
    destruct (sm_cur (th_st th)) eqn:Ec; [discriminate|]. destruct (th_held th) eqn:Eh; [discriminate|]. destruct (th_queue th) eqn:Eq; [|discriminate].
    apply andb_prop in Hi as [Hi Hd]. apply negb_true_iff in Hd.
    apply C55_sequential in Ru as (rest & st & Ru & H). destruct (H Hi) as [-> ->]. rewrite Eq, Eh, app_nil_r in Ru.
    destruct (run_finv no_loss all q m mk Q false start e s0 ts outs s _ R Ru) as (_ & _ & _ & _ & cs & H1 & H2 & H3 & _ & H4).
    exists cs, (covered start cs). rewrite Ec in H4. splits; auto; [now rewrite <- H2|].
    intros t I. destruct (H4 RR eq_refl Hs t I) as [H5|H5]; [|congruence]. pose proof (covered_mono 0 start cs). lia.
  Qed.

  (** The task and the consumer never wait for each other: as long as the
      stream is not asking for the next tree, and the consumer has not dropped it, one
      of them can go on. *)
  Theorem C55_no_deadlock {E} cap (th : threaded E) :
    1 <= cap -> th_open th = true -> sm_done (th_st th) = false -> th_idle th = false ->
    (th_held th = None /\ sm_cur (th_st th) <> None)
    \/ th_held (th_send cap th) <> th_held th
    \/ (exists r th', th_take th = (Some r, th')).
  Proof.
    intros Hc Ho Hd Hi. unfold th_idle in Hi. destruct (th_held th) as [h|] eqn:Eh.
    - right. unfold th_send, th_take. rewrite Eh, Ho. cbn [negb]. destruct (Nat.leb_spec cap (List.length (th_queue th))) as [Hl|Hl].
      + right. destruct (th_queue th); [cbn in Hl; lia|eauto].
      + left. discriminate.
    - destruct (sm_cur (th_st th)); [left; split; [easy|discriminate]|]. right. right. unfold th_take.
      destruct (th_queue th); [|eauto]. rewrite Ho, Hd in Hi. discriminate.
  Qed.
End Props.

(** * Cases *)
(** A run of a stream by computation. [CFeed None] feeds the builder's current
    tree, [CFeed (Some n)] the [n]-th snapshot. [full] is a store that still has all
    blocks. *)
Inductive cstep := CFeed (n : option nat) | CNext | COp (o : @op ITypes IBackend).
Definition entry_of (i : nat) : option (N * N) := Some (N.of_nat i, N.of_nat (100 + i)).
Definition entry_eqb (a b : option (N * N)) : bool :=
  match a, b with
  | Some (k, v), Some (k', v') => (k =? k')%N && (v =? v')%N
  | None, None => true
  | _, _ => false
  end.
Fixpoint entries_eqb (a b : list (option (N * N))) : bool :=
  match a, b with
  | [], [] => true
  | x :: a, y :: b => entry_eqb x y && entries_eqb a b
  | _, _ => false
  end.
Lemma entries_eqb_eq a : forall b, entries_eqb a b = true -> a = b.
Proof.
  induction a as [|x a IH]; intros [|y b] H; cbn in H; try easy. apply andb_prop in H as [H1 H2]. f_equal; [|auto].
  destruct x as [[k v]|], y as [[k' v']|]; cbn in H1; try easy. apply andb_prop in H1 as [H1 H3].
  apply N.eqb_eq in H1, H3. congruence.
Qed.

Section Cases.
  Variable k : kind.
  Variable full : @Store ITypes IBackend.

  Definition tree_at (s : @sys ITypes IBackend) (n : option nat) : option (@Tree ITypes) :=
    match n with
    | None => Some (snapshot (sy_b s))
    | Some n => nth_error (sy_snaps s) n
    end.
  Definition tree_ofb (s : @sys ITypes IBackend) (t : @Tree ITypes) : bool :=
    op_okb (OOthers full []) s
    && match fst (collect {| fo_store := full; fo_cache := ([] : @Cache ITypes IBackend); fo_log := fo_log (sy_fo s) |} t) with
       | Ok c => entries_eqb c (map entry_of (seq 0 (List.length c)))
       | _ => false
       end.
  Lemma tree_ofb_ok s n t : tree_at s n = Some t -> tree_ofb s t = true -> tree_of entry_of s t.
  Proof.
    intros Ht H. unfold tree_ofb in H. apply andb_prop in H as [H1 H2].
    destruct (collect _ t) as [r fo'] eqn:Ec in H2. cbn [fst] in H2. destruct r as [c| | |]; try discriminate. split.
    - destruct n; cbn in Ht; [right; eapply nth_error_In; eauto|left; congruence].
    - exists c. split; [|apply entries_eqb_eq; exact H2]. exists full, []. split; [apply op_okb_ok; exact H1|].
      apply reads_c. now rewrite Ec.
  Qed.

  Definition cstate (E : Type) : Type := list Tree * list (res (@chunk ITypes E)) * @sys ITypes IBackend * @tstream ITypes E.
  Definition cstep1 {E} (x : cstep) (c : cstate E) : option (cstate E) :=
    let '(ts, outs, s, st) := c in
    match x with
    | CFeed n =>
        match sm_cur st, sm_done st, tree_at s n with
        | None, false, Some t => if tree_ofb s t then Some (ts ++ [t], outs, s, sm_feed st t) else None
        | _, _, _ => None
        end
    | CNext => let '(r, fo, st') := sm_next (sy_fo s) st in
               Some (ts, outs ++ match r with Some c => [c] | None => [] end, with_fo s fo, st')
    | COp o => if op_inb k o && op_okb o s then Some (ts, outs, snd (exec o s), st) else None
    end.
  Fixpoint csteps {E} (xs : list cstep) (c : cstate E) : option (cstate E) :=
    match xs with
    | [] => Some c
    | x :: xs' => match cstep1 x c with Some c' => csteps xs' c' | None => None end
    end.
  Lemma csteps_run {E} s0 (st0 : @tstream ITypes E) xs : forall ts outs s st ts' outs' s' st',
    run k entry_of s0 st0 ts outs s st -> csteps xs (ts, outs, s, st) = Some (ts', outs', s', st') ->
    run k entry_of s0 st0 ts' outs' s' st'.
  Proof.
    induction xs as [|x xs IH]; cbn [csteps]; intros ts outs s st ts' outs' s' st' R H.
    { injection H as <- <- <- <-. exact R. }
    destruct (cstep1 x (ts, outs, s, st)) as [[[[ts1 outs1] s1] st1]|] eqn:E1; [|discriminate].
    eapply IH; [|exact H]. clear IH H. destruct x as [n| |o]; cbn [cstep1] in E1.
    - destruct (sm_cur st) eqn:Ec; [discriminate|]. destruct (sm_done st) eqn:Ed; [discriminate|].
      destruct (tree_at s n) as [t|] eqn:Et; [|discriminate]. destruct (tree_ofb s t) eqn:Eb; [|discriminate].
      injection E1 as <- <- <- <-. apply run_feed; auto. eapply tree_ofb_ok; eauto.
    - destruct (sm_next (sy_fo s) st) as [[r fo] st2] eqn:En. injection E1 as <- <- <- <-. eapply run_next; eauto.
    - destruct (op_inb k o && op_okb o s) eqn:Eb; [|discriminate]. apply andb_prop in Eb as [B1 B2].
      injection E1 as <- <- <- <-. destruct (exec o s) as [r s2] eqn:Ex. eapply run_op; eauto; [now apply op_okb_ok|now apply op_inb_in].
  Qed.
End Cases.

Definition offsets_of (rs : list (res (@chunk ITypes unit))) : list (option (list nat)) :=
  map (fun r => match r with Ok c => Some (map (fun x => fst (fst x)) (c_data c)) | _ => None end) rs.
Definition q_all : @Query ITypes := offset_range_query (range_incl 0 100).



(** The first snapshot of [st3] loses blocks while it is streamed, its current
    tree fails as well, and when the blocks are back a third attempt delivers the
    rest. *)
Definition steps38 : list cstep :=
  [CFeed (Some 0); CNext; CNext; COp (OEvict []); COp (OLose part3); CNext; CNext; CFeed None; CNext; CNext;
   COp (OOthers (fo_store (sy_fo st3)) []); CFeed None; CNext; CNext; CNext; CNext; CNext; CNext; CNext].
Definition result {E} (r : option (cstate E)) (d : cstate E) : cstate E := match r with Some c => c | None => d end.
Definition case38 : cstate unit :=
  result (csteps anything (fo_store (sy_fo st3)) steps38 ([], [], st3, stream_trees_chunked q_all unit_of 1 None))
    ([], [], st3, stream_trees_chunked q_all unit_of 1 None).
Definition summary_of (c : cstate unit) : list (option (list nat)) * list (option (nat * nat)) * nat * bool * bool :=
  let '(ts, outs, s, st) := c in
  (offsets_of outs, ranges_of outs, List.length ts, match sm_cur st with None => true | Some _ => false end, sm_done st).
Definition somes {A} (l : list A) : list (option A) := map Some l.
Lemma q_all_ok : query_ok q_all (fun o _ => range_contains (range_incl 0 100) o).
Proof. apply C37_offset_range. Qed.

Definition case_run {E} (k : kind) (s0 : @sys ITypes IBackend) (st0 : @tstream ITypes E) (c : cstate E) : Prop :=
  let '(ts, outs, s, st) := c in run k entry_of s0 st0 ts outs s st.
Lemma csteps_case {E} k full s0 (st0 : @tstream ITypes E) xs :
  match csteps k full xs ([], [], s0, st0) with Some _ => true | None => false end = true ->
  case_run k s0 st0 (result (csteps k full xs ([], [], s0, st0)) ([], [], s0, st0)).
Proof.
  destruct (csteps k full xs ([], [], s0, st0)) as [[[[ts outs] s] st]|] eqn:E1; [|discriminate]. intros _.
  exact (csteps_run k full s0 st0 xs [] [] s0 st0 ts outs s st (run_start _ _ _ _) E1).
Qed.

Example C38_case :
  reach anything ecfg esec st3
  /\ case_run anything st3 (stream_trees_chunked q_all unit_of 1 None) case38
  /\ summary_of case38
     = (somes [[1]; [2; 3]; []; []; [4; 5]; [6; 7]; [8]; [9; 10]],
        somes [(0, 2); (2, 4); (0, 4); (0, 4); (4, 6); (6, 8); (8, 9); (9, 11)], 3, true, false).
Proof.
  splits; [apply no_loss_any, st3_ok| |vm_compute; reflexivity].
  apply csteps_case. vm_compute. reflexivity.
Qed.

(** The stream from 1 to 6, over two snapshots, ends with the chunk that holds 6. *)
Definition steps39 : list cstep :=
  [CFeed (Some 0); CNext; CNext; CNext; CNext; CFeed (Some 1); CNext; CNext; CNext; CNext].
Definition case39 : cstate unit :=
  result (csteps no_loss (fo_store (sy_fo st3)) steps39 ([], [], st3, stream_trees_chunked q_all unit_of 1 (Some 6)))
    ([], [], st3, stream_trees_chunked q_all unit_of 1 (Some 6)).
Example C39_case :
  reach no_loss ecfg esec st3
  /\ case_run no_loss st3 (stream_trees_chunked q_all unit_of 1 (Some 6)) case39
  /\ smallb (sy_fo (snd (fst case39))) = true
  /\ summary_of case39
     = (somes [[1]; [2; 3]; [4]; []; [5]; [6]], somes [(0, 2); (2, 4); (4, 5); (0, 4); (4, 6); (6, 8)], 2, true, true).
Proof.
  splits; [exact st3_ok| |vm_compute; reflexivity|vm_compute; reflexivity].
  apply csteps_case. vm_compute. reflexivity.
Qed.

(** The damaged tree is streamed in reverse until it fails; the same tree, with
    its blocks back, continues. The entry at the first offset of the last chunk
    before the failure is delivered again. *)
Definition steps40 : list cstep :=
  [COp (OEvict []); COp (OLose part3); CFeed None; CNext; CNext; CNext; CNext; COp (OOthers (fo_store (sy_fo st3)) []);
   CFeed None; CNext; CNext; CNext; CNext; CNext; CNext; CNext].
Definition case40 : cstate unit :=
  result (csteps anything (fo_store (sy_fo st3)) steps40 ([], [], st3, stream_trees_chunked_reverse q_all unit_of 1 None))
    ([], [], st3, stream_trees_chunked_reverse q_all unit_of 1 None).
Lemma case40_run : case_run anything st3 (stream_trees_chunked_reverse q_all unit_of 1 None) case40.
Proof. apply csteps_case. vm_compute. reflexivity. Qed.
Lemma case40_summary : summary_of case40
  = (somes [[9; 10]; [8]; [6; 7]; []; []; [6]; [4; 5]; [2; 3]; [1]],
     somes [(9, 11); (8, 9); (6, 8); (9, 11); (8, 9); (6, 8); (4, 6); (2, 4); (0, 2)], 2, true, true).
Proof. vm_compute. reflexivity. Qed.
Theorem C40_refuted :
  exists s0 ts outs s st cs,
    reach anything ecfg esec s0 /\ query_ok q_all (fun o _ => range_contains (range_incl 0 100) o)
    /\ run anything entry_of s0 (stream_trees_chunked_reverse q_all unit_of 1 None) ts outs s st
    /\ outs = map Ok cs
    /\ ~ NoDup (map (fun x => fst (fst x)) (flat_map c_data cs)).
Proof.
  pose proof case40_run as R. pose proof case40_summary as H. destruct case40 as [[[ts outs] s] st]. cbn [case_run] in R.
  destruct (C40_descending_partial (T:=ITypes) (B:=IBackend) ecfg esec ecfg_ok anything entry_of st3 q_all _ unit_of 1 None ts outs s st
              (no_loss_any _ st3_ok) q_all_ok R) as (cs & -> & _).
  exists st3, ts, (map Ok cs), s, st, cs. splits; [apply no_loss_any, st3_ok|exact q_all_ok|exact R|reflexivity|].
  assert (E : flat_map (fun c => map (fun x => fst (fst x)) (c_data c)) cs
              = List.concat (map (fun o => match o with Some l => l | None => [] end) (offsets_of (map Ok cs)))).
  { unfold offsets_of. rewrite !map_map, flat_map_concat_map. reflexivity. }
  assert (E' : map (fun x : nat * N * N => fst (fst x)) (flat_map c_data cs) = flat_map (fun c => map (fun x => fst (fst x)) (c_data c)) cs).
  { clear. induction cs as [|c cs IH]; cbn [flat_map map]; [reflexivity|]. etransitivity; [apply map_app|]. now f_equal. }
  cbn [summary_of] in H. injection H as H _ _ _ _. intros N0. assert (N : NoDup (flat_map (fun c => map (fun x => fst (fst x)) (c_data c)) cs)) by (rewrite <- E'; exact N0).
  rewrite E, H in N. cbn in N.
  inversion_clear N as [|? ? _ N1]. inversion_clear N1 as [|? ? _ N2]. inversion_clear N2 as [|? ? _ N3].
  inversion_clear N3 as [|? ? N4 _]. apply N4. cbn. auto.
Qed.
(** Without failures: *)
Definition steps40' : list cstep := [CFeed (Some 1); CNext; CNext; CNext; CNext; CNext; CNext; CNext].
Definition case40' : cstate unit :=
  result (csteps no_loss (fo_store (sy_fo st3)) steps40' ([], [], st3, stream_trees_chunked_reverse q_all unit_of 1 (Some 7)))
    ([], [], st3, stream_trees_chunked_reverse q_all unit_of 1 (Some 7)).
Example C40_case :
  reach no_loss ecfg esec st3
  /\ case_run no_loss st3 (stream_trees_chunked_reverse q_all unit_of 1 (Some 7)) case40'
  /\ smallb (sy_fo (snd (fst case40'))) = true
  /\ summary_of case40' = (somes [[]; [6; 7]; [4; 5]; [2; 3]; [1]], somes [(8, 9); (6, 8); (4, 6); (2, 4); (0, 2)], 1, true, true).
Proof.
  splits; [exact st3_ok| |vm_compute; reflexivity|vm_compute; reflexivity].
  apply csteps_case. vm_compute. reflexivity.
Qed.

(** Threaded runs by computation. *)
Inductive tstep := TFeed (n : option nat) | TProduce | TSend | TTake | TDrop.
Definition tcstate (E : Type) : Type := list Tree * list (res (@chunk ITypes E)) * @sys ITypes IBackend * @threaded ITypes E.
Definition tstep1 {E} (full : @Store ITypes IBackend) (x : tstep) (c : tcstate E) : option (tcstate E) :=
  let '(ts, outs, s, th) := c in
  match x with
  | TFeed n => match th_idle th, tree_at s n with
               | true, Some t => if tree_ofb full s t then Some (ts ++ [t], outs, s, th_feed th t) else None
               | _, _ => None
               end
  | TProduce => let '(fo, th') := th_produce (sy_fo s) th in Some (ts, outs, with_fo s fo, th')
  | TSend => Some (ts, outs, s, th_send 1 th)
  | TTake => let '(r, th') := th_take th in Some (ts, outs ++ match r with Some c => [c] | None => [] end, s, th')
  | TDrop => Some (ts, outs, s, th_drop th)
  end.
Fixpoint tsteps {E} (full : @Store ITypes IBackend) (xs : list tstep) (c : tcstate E) : option (tcstate E) :=
  match xs with
  | [] => Some c
  | x :: xs' => match tstep1 full x c with Some c' => tsteps full xs' c' | None => None end
  end.
Lemma tsteps_run {E} k full s0 (th0 : @threaded ITypes E) xs : forall ts outs s th ts' outs' s' th',
  trun k 1 entry_of s0 th0 ts outs s th -> tsteps full xs (ts, outs, s, th) = Some (ts', outs', s', th') ->
  trun k 1 entry_of s0 th0 ts' outs' s' th'.
Proof.
  induction xs as [|x xs IH]; cbn [tsteps]; intros ts outs s th ts' outs' s' th' R H.
  { injection H as <- <- <- <-. exact R. }
  destruct (tstep1 full x (ts, outs, s, th)) as [[[[ts1 outs1] s1] th1]|] eqn:E1; [|discriminate].
  eapply IH; [|exact H]. clear IH H. destruct x as [n| | | |]; cbn [tstep1] in E1.
  - destruct (th_idle th) eqn:Ei; [|discriminate]. destruct (tree_at s n) as [t|] eqn:Et; [|discriminate].
    destruct (tree_ofb full s t) eqn:Eb; [|discriminate]. injection E1 as <- <- <- <-. apply trun_feed; auto. eapply tree_ofb_ok; eauto.
  - destruct (th_produce (sy_fo s) th) as [fo th2] eqn:En. injection E1 as <- <- <- <-. eapply trun_produce; eauto.
  - injection E1 as <- <- <- <-. now apply trun_send.
  - destruct (th_take th) as [r th2] eqn:En. injection E1 as <- <- <- <-. eapply trun_take; eauto.
  - injection E1 as <- <- <- <-. now apply trun_drop.
Qed.

(** The task runs ahead, has to wait for room in the channel, and the consumer
    drains it; then comes the next tree, and the consumer drops the stream. *)
Definition steps55 : list tstep :=
  [TFeed (Some 0); TProduce; TSend; TProduce; TSend; TTake; TSend; TProduce; TTake; TSend; TTake; TProduce;
   TFeed (Some 1); TProduce; TSend; TProduce; TTake; TSend; TProduce; TTake; TSend; TTake; TProduce; TSend; TTake; TProduce].
Definition th55 : @threaded ITypes unit := th_new q_all unit_of 1 None.
Definition case55 (xs : list tstep) : tcstate unit :=
  match tsteps (fo_store (sy_fo st3)) xs ([], [], st3, th55) with Some c => c | None => ([], [], st3, th55) end.
Lemma case55_run xs : match tsteps (fo_store (sy_fo st3)) xs ([], [], st3, th55) with Some _ => true | None => false end = true ->
  let '(ts, outs, s, th) := case55 xs in trun no_loss 1 entry_of st3 th55 ts outs s th.
Proof.
  unfold case55. destruct (tsteps (fo_store (sy_fo st3)) xs ([], [], st3, th55)) as [[[[ts outs] s] th]|] eqn:E1; [|discriminate]. intros _.
  exact (tsteps_run no_loss (fo_store (sy_fo st3)) st3 th55 xs [] [] st3 th55 ts outs s th (trun_start _ _ _ _ _) E1).
Qed.
Definition tsummary (c : tcstate unit) : list (option (list nat)) * nat * bool :=
  let '(ts, outs, s, th) := c in (offsets_of outs, List.length ts, th_idle th).
Example C55_case :
  reach no_loss ecfg esec st3
  /\ (let '(ts, outs, s, th) := case55 steps55 in trun no_loss 1 entry_of st3 th55 ts outs s th)
  /\ smallb (sy_fo (snd (fst (case55 steps55)))) = true
  /\ tsummary (case55 steps55) = (somes [[1]; [2; 3]; [4]; []; [5]; [6; 7]; [8]], 2, true)
  /\ (let '(ts, outs, s, th) := case55 (firstn 16 steps55 ++ [TDrop; TProduce; TSend; TTake]) in
      trun no_loss 1 entry_of st3 th55 ts outs s th)
  /\ tsummary (case55 (firstn 16 steps55 ++ [TDrop; TProduce; TSend; TTake])) = (somes [[1]; [2; 3]; [4]], 2, false).
Proof.
  splits; [exact st3_ok|apply case55_run; vm_compute; reflexivity|vm_compute; reflexivity|vm_compute; reflexivity
          |apply case55_run; vm_compute; reflexivity|vm_compute; reflexivity].
Qed.

(** C80, C81: many at work. Other users of store and cache may act between any two
    accesses of an operation; and several streams may be written at the same time,
    with their accesses to store and cache interleaved in any way. *)
From Coq Require Import List NArith ZArith Lia Bool String Arith.
From Verif Require Import Base BaseProofs Cbor Types Seq SeqProofs Query QuerySpec World Read Write Api Iter History Spec Ghost Frame IterFrame ReadProofs Packable WriteProofs QueryProofs PackProofs RetainProofs RepairProofs NoPurged ApiProofs SysProofs HistProofs Instance Example PropsRead PropsRefine.
Import ListNotations.

(** * Specification *)

Section Shared.
  Context {T : Types} (B : Backend T).

  (** Accesses to the store and to the cache. *)
  Inductive act := APut (d : bytes) | AGet (l : L).
  Inductive cact := CPut (l : L) (b : Branch) | CGet (l : L).
  Definition act_on (s : Store) (a : act) : Store :=
    match a with APut d => snd (sput s d) | AGet l => snd (sget s l) end.
  Definition cact_on (c : Cache) (a : cact) : Cache :=
    match a with CPut l b => cput c l b | CGet l => snd (cget c l) end.

  (** A store as one of many users sees it (it is behind a lock, store/mem_store.rs
      12, so accesses do not overlap): the store itself, what others do before
      each of the user's accesses to come, and the user's accesses so far, latest
      first. In the same way the cache (store/branch_cache.rs 27-60). What can
      come out of the cache is what it holds and what others are going to put. *)
  Definition shared : Backend T := {|
    Store := Store * list (list act) * list act;
    sblocks := fun s => sblocks (fst (fst s));
    sget := fun s l =>
      let '(st, q, own) := s in
      let '(r, st) := sget (fold_left act_on (hd [] q) st) l in (r, (st, tl q, AGet l :: own));
    sput := fun s d =>
      let '(st, q, own) := s in
      let '(r, st) := sput (fold_left act_on (hd [] q) st) d in (r, (st, tl q, APut d :: own));
    digest := digest;
    Cache := Cache * list (list cact) * list cact;
    cin := fun c l b => let '(ca, q, _) := c in cin ca l b \/ exists a, In a q /\ In (CPut l b) a;
    cget := fun c l =>
      let '(ca, q, own) := c in
      let '(r, ca) := cget (fold_left cact_on (hd [] q) ca) l in (r, (ca, tl q, CGet l :: own));
    cput := fun c l b =>
      let '(ca, q, own) := c in
      (cput (fold_left cact_on (hd [] q) ca) l b, tl q, CPut l b :: own)
  |}.

  (** A new stream in a forest with other users. *)
  Definition joins (cfg : Config) (sec : Secrets) (st : @Store T B) (acts : list (list act)) (ca : @Cache T B) (cacts : list (list cact))
    : @sys T shared :=
    {| sy_fo := {| fo_store := ((st, acts, []) : @Store T shared); fo_cache := ((ca, cacts, []) : @Cache T shared); fo_log := [] |};
       sy_se := {| se_b := builder_new cfg sec; se_saved := [] |}; sy_snaps := [] |}.
  (** The accesses made so far. *)
  Definition accesses (s : @sys T shared) : list act := rev (snd (fo_store (sy_fo s))).
  Definition caccesses (s : @sys T shared) : list cact := rev (snd (fo_cache (sy_fo s))).

  (** All accesses to a store (or cache) in the order in which they happen, each
      with the number of the user: what user [i] does, and what the others do
      before each access of user [i], and after the last. *)
  Definition own {A} (i : nat) (g : list (nat * A)) : list A := map snd (filter (fun x => Nat.eqb (fst x) i) g).
  Fixpoint turns {A} (i : nat) (g : list (nat * A)) : list (list A) :=
    match g with
    | [] => [[]]
    | (j, a) :: g => let q := turns i g in if Nat.eqb j i then [] :: q else (a :: hd [] q) :: tl q
    end.
End Shared.

Section Together.
  Context {T : Types} {X : Ext} (B : Backend T).

  (** One of several streams: parameters, secrets, and its run. *)
  Record party := { p_cfg : Config; p_sec : Secrets; p_run : list (@op T (shared B) * res unit * @sys T (shared B)) }.
  Definition p_start (st : @Store T B) (ca : @Cache T B) (gs : list (nat * act)) (gc : list (nat * cact)) (i : nat) (p : party) :=
    joins B (p_cfg p) (p_sec p) st (turns i gs) ca (turns i gc).
  Definition p_end (st : @Store T B) (ca : @Cache T B) gs gc (i : nat) (p : party) : @sys T (shared B) :=
    last (map snd (p_run p)) (p_start st ca gs gc i p).

  (** An operation of the stream, not of the store or the cache. *)
  Definition own_op (x : @op T (shared B) * res unit * @sys T (shared B)) : Prop :=
    match x with (OLose _, _, _) | (OEvict _, _, _) | (OOthers _ _, _, _) => False | _ => True end.

  (** The streams [ps] work at the same time on the store [st] and the cache
      [ca]. The accesses to the store happen in the order [gs], those to the cache
      in the order [gc]: each stream runs among the accesses of the others, and
      makes the accesses that [gs] and [gc] say it makes. *)
  Definition together (st : @Store T B) (ca : @Cache T B) (gs : list (nat * act)) (gc : list (nat * cact)) (ps : list party) : Prop :=
    (forall i a, In (i, a) gs -> i < List.length ps) /\ (forall i a, In (i, a) gc -> i < List.length ps)
    /\ forall i p, nth_error ps i = Some p ->
         config_ok (p_cfg p) /\ Forall own_op (p_run p) /\ run (p_start st ca gs gc i p) (p_run p)
         /\ accesses B (p_end st ca gs gc i p) = own i gs /\ caccesses B (p_end st ca gs gc i p) = own i gc.

  (** A reader with the index key [key] can decrypt and decompress the block [d]. *)
  Definition readable (key : bytes) (d : bytes) : Prop :=
    exists z r p, decrypt d key nonce = Ok (z, r) /\ z_dec (zs_data z) = Some p.
  (** No block in the store can be read with the index keys of two streams,
      unless these have the same index key. *)
  Definition keys_apart (st : @Store T B) (ca : @Cache T B) gs gc (ps : list party) : Prop :=
    forall i p j q l d, nth_error ps i = Some p -> nth_error ps j = Some q ->
      @sblocks T (shared B) (fo_store (sy_fo (p_end st ca gs gc j q))) l = Some d ->
      readable (index_key (p_sec p)) d -> readable (index_key (p_sec q)) d ->
      index_key (p_sec p) = index_key (p_sec q).
End Together.
Arguments p_cfg {T B} _.
Arguments p_sec {T B} _.
Arguments p_run {T B} _.

(** * Proofs *)

Section Laws.
  Context {T : Types} {B : Backend T} {BL : BackendLaws T B}.

  Lemma acts_keep q : forall s l d, sblocks s l = Some d -> sblocks (fold_left (act_on B) q s) l = Some d.
  Proof.
    induction q as [|a q IH]; intros s l d H; [exact H|]. cbn [fold_left]. apply IH. destruct a as [d0|l0]; cbn [act_on].
    - destruct (sput s d0) as [r s'] eqn:E. eapply sput_keeps; eauto.
    - destruct (sget s l0) as [r s'] eqn:E. eapply sget_keeps; eauto.
  Qed.
  Lemma acts_add q : forall s l d, sblocks (fold_left (act_on B) q s) l = Some d -> sblocks s l = Some d \/ l = digest d.
  Proof.
    induction q as [|a q IH]; intros s l d H; [auto|]. cbn [fold_left] in H. apply IH in H as [H|H]; [|auto]. destruct a as [d0|l0]; cbn [act_on] in H.
    - destruct (sput s d0) as [r s'] eqn:E. eapply sput_adds; eauto.
    - destruct (sget s l0) as [r s'] eqn:E. eapply sget_adds; eauto.
  Qed.
  Lemma cacts_add q : forall c l b, cin (fold_left (cact_on B) q c) l b -> cin c l b \/ In (CPut l b) q.
  Proof.
    induction q as [|a q IH]; intros c l b H; [auto|]. cbn [fold_left] in H. apply IH in H as [H|H]; [|right; now right]. destruct a as [l0 b0|l0]; cbn [cact_on] in H.
    - apply cput_adds in H as [H|[-> ->]]; [auto|right; now left].
    - destruct (cget c l0) as [r c'] eqn:E. left. eapply cget_keeps; eauto.
  Qed.
  Lemma hd_in {A} (q : list (list A)) x : In x (hd [] q) -> exists a, In a q /\ In x a.
  Proof. destruct q as [|a q]; [easy|]. intros H. exists a. split; [now left|exact H]. Qed.
  Lemma tl_in {A} (q : list A) x : In x (tl q) -> In x q.
  Proof. destruct q; [easy|]. now right. Qed.
  Lemma cin_now (ca : @Cache T B) q x b : cin (fold_left (cact_on B) (hd [] q) ca) x b ->
    cin ca x b \/ exists a, In a q /\ In (CPut x b) a.
  Proof. intros H. apply cacts_add in H as [H|H]; [auto|]. right. now apply hd_in. Qed.
  Lemma cin_later (q : list (list cact)) x b : (exists a, In a (tl q) /\ In (CPut x b) a) -> exists a, In a q /\ In (CPut x b) a.
  Proof. intros (a & H & H'). exists a. split; [now apply tl_in|exact H']. Qed.

  #[export] Instance shared_laws : BackendLaws T (shared B).
  Proof.
    constructor; cbn [shared Store sblocks sget sput digest Cache cin cget cput].
    - apply digest_inj.
    - intros [[st q] o] l r s' x b E H. destruct (sget _ l) as [r0 st'] eqn:G. injection E as <- <-. cbn [fst] in *.
      eapply sget_keeps; [exact G|]. now apply acts_keep.
    - intros [[st q] o] l r s' x b E H. destruct (sget _ l) as [r0 st'] eqn:G. injection E as <- <-. cbn [fst] in *.
      eapply sget_adds in H as [H|H]; [|auto|exact G]. now apply acts_add in H.
    - intros [[st q] o] l d s' E. destruct (sget _ l) as [r0 st'] eqn:G. injection E as -> <-. cbn [fst]. eapply sget_sound; exact G.
    - intros [[st q] o] d r s' x b E H. destruct (sput _ d) as [r0 st'] eqn:G. injection E as <- <-. cbn [fst] in *.
      eapply sput_keeps; [exact G|]. now apply acts_keep.
    - intros [[st q] o] d r s' x b E H. destruct (sput _ d) as [r0 st'] eqn:G. injection E as <- <-. cbn [fst] in *.
      eapply sput_adds in H as [H|H]; [|auto|exact G]. now apply acts_add in H.
    - intros [[st q] o] d l s' E. destruct (sput _ d) as [r0 st'] eqn:G. injection E as -> <-. cbn [fst]. eapply sput_link; exact G.
    - intros [[ca q] o] l b c' E. destruct (cget _ l) as [r0 ca'] eqn:G. injection E as -> <-.
      apply cget_sound in G. now apply cin_now.
    - intros [[ca q] o] l r c' x b E H. destruct (cget _ l) as [r0 ca'] eqn:G. injection E as <- <-.
      destruct H as [H|H]; [|right; now apply cin_later]. eapply cget_keeps in H; [|exact G]. now apply cin_now.
    - intros [[ca q] o] l b x b' [H|H]; [|left; right; now apply cin_later].
      apply cput_adds in H as [H|H]; [|auto]. left. now apply cin_now.
  Qed.

  #[export] Instance shared_reliable {RR : ReliableReads T B} : ReliableReads T (shared B).
  Proof.
    constructor. cbn [shared Store sblocks sget]. intros [[st q] o] l d H. cbn [fst] in H.
    apply (acts_keep (hd [] q)) in H. apply sget_reliable in H. destruct (sget _ l) as [r0 st']. exact H.
  Qed.
End Laws.

Section Alongside.
  Context {T : Types} {TL : TypesLaws T} {X : Ext} {XL : ExtLaws X}
          {B : Backend T} {BL : BackendLaws T B}.
  Variable cfg : Config.
  Variable sec : Secrets.
  Hypothesis Hcfg : config_ok cfg.

  (** What others leave in the cache for a link is what this stream would have
      read there, unless it cannot read the block. *)
  Definition considerate (cacts : list (list cact)) : Prop :=
    forall a l b, In a cacts -> In (CPut l b) a ->
      @decodes T X (shared B) (index_key sec) l b \/ @foreign T X (shared B) (index_key sec) l.

  Lemma joins_start st acts ca cacts :
    (forall l d, sblocks st l = Some d -> l = digest d) -> (forall l b, ~ cin ca l b) -> considerate cacts ->
    @start T X (shared B) cfg sec (joins B cfg sec st acts ca cacts).
  Proof.
    intros Hs Hc Ho. split; [reflexivity|]. split; [exact Hs|]. split; [|reflexivity].
    intros l b [H|(a & H1 & H2)]; [now apply Hc in H|eauto].
  Qed.

  (** C80: whatever others do between any two accesses to store and cache, every
      run of operations is a run of the machine on lists. *)
  Theorem C80_undisturbed st acts ca cacts tr :
    (forall l d, sblocks st l = Some d -> l = digest d) -> (forall l b, ~ cin ca l b) -> considerate cacts ->
    @run T X (shared B) (joins B cfg sec st acts ca cacts) tr ->
    exists vs, tracks agrees view0 tr vs.
  Proof.
    intros Hs Hc Ho Hr. eapply (C79_refines cfg sec Hcfg); [|exact Hr]. now apply joins_start.
  Qed.

  (** And if the store loses nothing, no read fails. *)
  Theorem C80_undisturbed_total st acts ca cacts tr (RR : ReliableReads T B) :
    (forall l d, sblocks st l = Some d -> l = digest d) -> (forall l b, ~ cin ca l b) -> considerate cacts ->
    @run T X (shared B) (joins B cfg sec st acts ca cacts) tr -> (forall s r s', ~ In (OLose s, r, s') tr) ->
    exists vs, tracks (fun s a => agrees s a /\ agrees_all s a) view0 tr vs.
  Proof.
    intros Hs Hc Ho Hr Hl. eapply (C79_refines_total cfg sec Hcfg); [exact _| |exact Hr|exact Hl]. now apply joins_start.
  Qed.
End Alongside.

(** ** What an operation puts in the cache, whatever it finds there *)

Section Puts.
  Context {T : Types} {TL : TypesLaws T} {X : Ext} {XL : ExtLaws X}
          {B : Backend T} {BL : BackendLaws T B}.
  Variable sec : Secrets.
  Notation key := (index_key sec).

  Definition fstep (fo fo' : Forest) : Prop :=
    (forall l d, sblocks (fo_store fo) l = Some d -> sblocks (fo_store fo') l = Some d)
    /\ Frame.fills key (wof fo 0) (wof fo' 0).
  Lemma fstep_refl fo : fstep fo fo.
  Proof. split; [auto|apply fills_refl]. Qed.
  Lemma fstep_trans a b c : fstep a b -> fstep b c -> fstep a c.
  Proof. intros [H1 H2] [G1 G2]. split; [auto|]. exact (fills_trans _ _ (wof b 0) (wof c 0) G1 H2 G2). Qed.
  Lemma wext_fstep fo off fo' off' : wext key (wof fo off) (wof fo' off') -> fstep fo fo'.
  Proof. intros ((_ & H) & H' & _). split; [exact H'|exact H]. Qed.
  Lemma rext_fstep fo off fo' off' : rext key (wof fo off) (wof fo' off') -> fstep fo fo'.
  Proof. intros H. eapply wext_fstep, rext_wext, H. Qed.
  Lemma read_fstep {A} fo (m : M A) r fo' : frame (rext key) m -> read fo m = (r, fo') -> fstep fo fo'.
  Proof. intros F E. eapply rext_fstep. exact (read_fsame sec _ _ _ _ F E). Qed.
  Lemma run_fstep {A} fo b (m : M A) r fo' b' : frame (wext key) m -> Api.run fo b m = (r, fo', b') ->
    fstep fo fo' /\ b_sec b' = b_sec b /\ b_cfg b' = b_cfg b.
  Proof.
    intros F E. split; [eapply wext_fstep; exact (run_fext sec _ _ _ _ _ _ F E)|].
    unfold Api.run in E. destruct (m _) as [r0 w]. injection E as _ _ <-. auto.
  Qed.

  Lemma extend_fstep fo b items r fo' b' : b_sec b = sec -> extend fo b items = (r, fo', b') -> fstep fo fo' /\ b_sec b' = sec.
  Proof.
    intros Es E. unfold extend in E. destruct items as [|it items].
    { injection E as _ <- <-. split; [apply fstep_refl|exact Es]. }
    destruct (Api.run fo b _) as [[r0 fo0] b0] eqn:E0. rewrite Es in E0. apply run_fstep in E0 as (H1 & H2 & _); [|apply wf_extend_above].
    destruct r0 as [[i ?]|e|p|]; injection E as _ <- <-; (split; [exact H1|cbn; congruence]).
  Qed.
  Lemma collect_fstep fo i o off r fo' : collect_from fo (Some (i, sec, o)) off = (r, fo') -> fstep fo fo'.
  Proof. unfold collect_from. intros E. eapply read_fstep; [|exact E]. apply rf_collect0. Qed.
  Lemma snap_collect_fstep b fo off r fo' : b_sec b = sec -> collect_from fo (snapshot b) off = (r, fo') -> fstep fo fo'.
  Proof.
    intros Es. unfold snapshot. destruct (b_root b) as [i|]; [rewrite Es; apply collect_fstep|].
    cbn. intros [= _ <-]. apply fstep_refl.
  Qed.

  Lemma pack_fstep fo b r fo' b' : b_sec b = sec -> pack fo b = (r, fo', b') -> fstep fo fo' /\ b_sec b' = sec.
  Proof.
    intros Es E. unfold pack in E. destruct (roots fo b) as [r0 fo0] eqn:E0.
    assert (H0 : fstep fo fo0).
    { unfold roots in E0. destruct (b_root b) as [i|]; [|injection E0 as _ <-; apply fstep_refl].
      destruct (read fo _) as [r1 fo1] eqn:E1. injection E0 as _ <-. rewrite Es in E1. eapply read_fstep; [|exact E1]. apply rf_roots0. }
    destruct r0 as [rs|e|p|]; try (injection E as _ <- <-; auto).
    destruct (Api.run fo0 b _) as [[r1 fo1] b1] eqn:E1. rewrite Es in E1. apply run_fstep in E1 as (H1 & H2 & _); [|apply wf_tree_from_roots].
    pose proof (fstep_trans _ _ _ H0 H1) as H01.
    assert (Es1 : b_sec b1 = sec) by congruence.
    destruct r1 as [i|e|p|]; try (injection E as _ <- <-; auto).
    destruct (collect_from fo1 _ _) as [r2 fo2] eqn:E2. apply snap_collect_fstep in E2; [|exact Es].
    pose proof (fstep_trans _ _ _ H01 E2) as H02.
    destruct r2 as [l|e|p|]; try (injection E as _ <- <-; auto).
    destruct (omapM _ l) as [rem|]; [|injection E as _ <- <-; auto].
    apply extend_fstep in E as [H3 H4]; [|exact Es1]. split; [eapply fstep_trans; eauto|exact H4].
  Qed.

  Definition tree_sec (t : Tree) : Prop := match t with Some (_, s, _) => s = sec | None => True end.
  Definition sys_sec (s : sys) : Prop := b_sec (sy_b s) = sec /\ Forall tree_sec (sy_snaps s).

  Lemma do_read_fstep fo t rdg r fo' : tree_sec t -> do_read fo t rdg = (r, fo') -> fstep fo fo'.
  Proof.
    intros G E. destruct t as [[[i sec'] o]|].
    - cbn in G. subst sec'.
      destruct rdg as [off|off| | | |[|] q n|[|] q n]; cbn -[get collect_from is_packed left_roots dump_graph take_chunks take_indexes] in E.
      + destruct (get _ _ _) as [r0 fo0] eqn:E0. injection E as _ <-. eapply read_fstep; [|exact E0]. apply rf_get0.
      + destruct (collect_from _ _ _) as [r0 fo0] eqn:E0. injection E as _ <-. eapply read_fstep; [|exact E0]. apply rf_collect0.
      + destruct (is_packed _ _) as [r0 fo0] eqn:E0. injection E as _ <-. eapply read_fstep; [|exact E0]. apply rf_is_packed0.
      + destruct (left_roots _ _) as [r0 fo0] eqn:E0. injection E as _ <-. unfold left_roots in E0.
        destruct (read fo _) as [r1 fo1] eqn:E1. injection E0 as _ <-. eapply read_fstep; [|exact E1]. apply rf_left_roots0.
      + destruct (dump_graph _ _ _) as [r0 fo0] eqn:E0. injection E as _ <-. eapply read_fstep; [|exact E0]. apply rf_dump_graph0.
      + destruct (take_chunks _ _ _) as [[r0 fo0] it0] eqn:E0. injection E as _ <-. apply (take_chunks_rext sec) in E0 as [E0 _]; [|easy]. exact (rext_fstep _ 0 _ 0 E0).
      + destruct (take_chunks _ _ _) as [[r0 fo0] it0] eqn:E0. injection E as _ <-. apply (take_chunks_rext sec) in E0 as [E0 _]; [|easy]. exact (rext_fstep _ 0 _ 0 E0).
      + destruct (take_indexes _ _ _) as [[r0 fo0] it0] eqn:E0. injection E as _ <-. apply (take_indexes_rext sec) in E0 as [E0 _]; [|easy]. exact (rext_fstep _ 0 _ 0 E0).
      + destruct (take_indexes _ _ _) as [[r0 fo0] it0] eqn:E0. injection E as _ <-. apply (take_indexes_rext sec) in E0 as [E0 _]; [|easy]. exact (rext_fstep _ 0 _ 0 E0).
    - destruct rdg as [off|off| | | |[|] q [|n]|[|] q [|n]]; cbn in E; injection E as _ <-; apply fstep_refl.
  Qed.

  Definition env_op (o : op) : Prop := match o with OLose _ | OEvict _ | OOthers _ _ => True | _ => False end.

  Lemma tree_sec_snap b : b_sec b = sec -> tree_sec (snapshot b).
  Proof. unfold snapshot. now destruct (b_root b). Qed.

  Lemma exec_fstep o s r s' : sys_sec s -> ~ env_op o -> exec o s = (r, s') -> fstep (sy_fo s) (sy_fo s') /\ sys_sec s'.
  Proof.
    intros [Es Hs] Ho E. destruct o; cbn [exec env_op] in E, Ho; try tauto.
    - destruct (extend _ _ _) as [[r0 fo] b] eqn:E0. injection E as <- <-. apply extend_fstep in E0 as [H1 H2]; [|exact Es]. split; [exact H1|split; [exact H2|exact Hs]].
    - destruct (push _ _ _ _) as [[r0 fo] b] eqn:E0. injection E as <- <-. unfold push in E0. apply extend_fstep in E0 as [H1 H2]; [|exact Es]. split; [exact H1|split; [exact H2|exact Hs]].
    - destruct (extend_unpacked _ _ _) as [[r0 fo] b] eqn:E0. injection E as <- <-. unfold extend_unpacked in E0.
      destruct (Api.run _ _ _) as [[r1 fo1] b1] eqn:E1. rewrite Es in E1. apply run_fstep in E1 as (H1 & H2 & _); [|apply wf_extend_unpacked0].
      assert (fo = fo1 /\ b_sec b = sec) as [-> Eb] by (destruct r1; injection E0 as _ <- <-; cbn; split; congruence).
      split; [exact H1|split; [exact Eb|exact Hs]].
    - destruct (pack _ _) as [[r0 fo] b] eqn:E0. injection E as <- <-. apply pack_fstep in E0 as [H1 H2]; [|exact Es]. split; [exact H1|split; [exact H2|exact Hs]].
    - destruct (retain _ _ _) as [[r0 fo] b] eqn:E0. injection E as <- <-. unfold retain in E0.
      destruct (b_root (sy_b s)) as [i|]; [|injection E0 as _ <- <-; split; [apply fstep_refl|split; [exact Es|exact Hs]]].
      destruct (Api.run _ _ _) as [[r1 fo1] b1] eqn:E1. rewrite Es in E1. apply run_fstep in E1 as (H1 & H2 & _); [|apply wf_retain0].
      assert (fo = fo1 /\ b_sec b = sec) as [-> Eb] by (destruct r1 as [[? ?]|e|p|]; injection E0 as _ <- <-; cbn; split; congruence).
      split; [exact H1|split; [exact Eb|exact Hs]].
    - destruct (repair _ _) as [[r0 fo] b] eqn:E0. injection E as <- <-. unfold repair in E0.
      destruct (b_root (sy_b s)) as [i|]; [|injection E0 as _ <- <-; split; [apply fstep_refl|split; [exact Es|exact Hs]]].
      destruct (Api.run _ _ _) as [[r1 fo1] b1] eqn:E1. rewrite Es in E1. apply run_fstep in E1 as (H1 & H2 & _); [|apply wf_repair0].
      assert (fo = fo1 /\ b_sec b = sec) as [-> Eb] by (destruct r1 as [[[? ?] ?]|e|p|]; injection E0 as _ <- <-; cbn; split; congruence).
      split; [exact H1|split; [exact Eb|exact Hs]].
    - injection E as <- <-. split; [apply fstep_refl|split; [exact Es|exact Hs]].
    - injection E as <- <-. split; [apply fstep_refl|split; [exact Es|exact Hs]].
    - injection E as <- <-. split; [apply fstep_refl|split; [|exact Hs]]. unfold sy_b. cbn [sy_se]. unfold tx_drop. destruct (se_saved (sy_se s)); exact Es.
    - injection E as <- <-. split; [apply fstep_refl|split; [exact Es|]]. cbn [sy_snaps]. apply Forall_app. split; [exact Hs|]. constructor; [|constructor]. now apply tree_sec_snap.
    - destruct (obind _ _) as [l|]; [|injection E as <- <-; split; [apply fstep_refl|split; [exact Es|exact Hs]]].
      destruct (load_stream_builder _ _ _ _) as [r0 fo] eqn:E0. unfold load_stream_builder in E0. destruct (read _ _) as [r1 fo1] eqn:E1.
      injection E0 as <- <-. rewrite Es in E1. apply read_fstep in E1; [|apply rf_create_index].
      destruct r1 as [[i rg]|e|p|]; injection E as <- <-; (split; [exact E1|split; [exact Es|exact Hs]]).
    - destruct (obind _ _) as [l|]; [|injection E as <- <-; split; [apply fstep_refl|split; [exact Es|exact Hs]]].
      destruct (load_tree _ _ _) as [r0 fo] eqn:E0. unfold load_tree in E0. destruct (read _ _) as [r1 fo1] eqn:E1.
      injection E0 as <- <-. rewrite Es in E1. apply read_fstep in E1; [|apply rf_create_index].
      destruct r1 as [[i rg]|e|p|]; injection E as <- <-; (split; [exact E1|split; [exact Es|]]); try exact Hs.
      cbn [sy_snaps]. apply Forall_app. split; [exact Hs|]. constructor; [exact Es|constructor].
    - destruct (nth_error (sy_snaps s) n) as [t|] eqn:En; [|injection E as <- <-; split; [apply fstep_refl|split; [exact Es|exact Hs]]].
      destruct (do_read _ _ _) as [r1 fo1] eqn:E1. injection E as <- <-. apply nth_error_In in En. rewrite Forall_forall in Hs. pose proof (Hs _ En) as Ht.
      split; [eapply do_read_fstep; eauto|split; [exact Es|now apply Forall_forall]].
    - destruct (check_invariants _ _) as [r1 fo1] eqn:E1. injection E as <- <-. split; [|split; [exact Es|exact Hs]].
      unfold check_invariants in E1. destruct (b_root (sy_b s)) as [i|]; [|injection E1 as _ <-; apply fstep_refl].
      rewrite Es in E1. eapply read_fstep; [|exact E1]. apply rf_check_invariants0.
  Qed.

  Lemma run_fsteps tr : forall s, sys_sec s -> Forall (fun x => ~ env_op (fst (fst x))) tr -> run s tr ->
    fstep (sy_fo s) (sy_fo (last (map snd tr) s)).
  Proof.
    induction tr as [|[[o r] s'] tr IH]; intros s Hs Ho Hr; [apply fstep_refl|]. cbn [map snd]. rewrite last_cons.
    destruct Hr as (_ & E & Hr). apply Forall_inv in Ho as Ho1. apply Forall_inv_tail in Ho.
    apply exec_fstep in E as [H1 H2]; [|exact Hs|exact Ho1]. eapply fstep_trans; [exact H1|]. now apply IH.
  Qed.
End Puts.

Section Concurrent.
  Context {T : Types} {TL : TypesLaws T} {X : Ext} {XL : ExtLaws X}
          {B : Backend T} {BL : BackendLaws T B}.

  Lemma turns_others {A} i (g : list (nat * A)) : forall a x, In a (turns i g) -> In x a -> exists j, j <> i /\ In (j, x) g.
  Proof.
    induction g as [|[j y] g IH]; intros a x Ha Hx.
    { destruct Ha as [<-|[]]. destruct Hx. }
    cbn [turns] in Ha. destruct (Nat.eqb_spec j i) as [->|Hne].
    - destruct Ha as [<-|Ha]; [destruct Hx|]. destruct (IH _ _ Ha Hx) as (j & H1 & H2). exists j. split; [exact H1|now right].
    - destruct Ha as [<-|Ha].
      + destruct Hx as [->|Hx]; [exists j; split; [exact Hne|now left]|].
        apply hd_in in Hx as (a & Ha & Hx). destruct (IH _ _ Ha Hx) as (j' & H1 & H2). exists j'. split; [exact H1|now right].
      + apply tl_in in Ha. destruct (IH _ _ Ha Hx) as (j' & H1 & H2). exists j'. split; [exact H1|now right].
  Qed.
  Lemma own_in {A} i (g : list (nat * A)) x : In (i, x) g -> In x (own i g).
  Proof. intros H. apply in_map_iff. exists (i, x). split; [reflexivity|]. apply filter_In. split; [exact H|]. cbn. apply Nat.eqb_refl. Qed.

  Lemma deserialize_readable key d cs r : deserialize_compressed key d = Ok (cs, r) -> readable key d.
  Proof.
    unfold deserialize_compressed, readable. destruct (decrypt d key nonce) as [[z rg]|e|p|]; cbn; try discriminate.
    intros H. exists z, rg. unfold zs_items_ipld, decompress in H. destruct (z_dec (zs_data z)) as [p|]; [eauto|discriminate].
  Qed.

  Lemma own_ops tr : Forall (own_op B) tr -> Forall (fun x => ~ env_op (B := shared B) (fst (fst x))) tr.
  Proof. apply Forall_impl. intros [[o r] s]. destruct o; cbn; tauto. Qed.

  (** What a stream puts in the cache it has read from the store. *)
  Lemma puts_read cfg sec st acts ca cacts tr l b : let s0 := joins B cfg sec st acts ca cacts in
    Forall (own_op B) tr -> run s0 tr -> (forall l d, sblocks st l = Some d -> l = digest d) ->
    In (CPut l b) (caccesses B (last (map snd tr) s0)) ->
    exists d, @sblocks T (shared B) (fo_store (sy_fo (last (map snd tr) s0))) l = Some d /\ l = digest d
      /\ deserialize_compressed (index_key sec) d = Ok (br_children b, br_range b) /\ br_children b <> [].
  Proof.
    intros s0 Ho Hr Hs Hin. assert (S0 : sys_sec sec s0) by (split; [reflexivity|constructor]).
    destruct (run_fsteps sec tr s0 S0 (own_ops _ Ho) Hr) as [_ [[F0 _] F]].
    specialize (F (fun c l b => In (CPut l b) (snd c))). cbn [wof w_cache w_store] in F.
    destruct (F) with (l := l) (b := b) as [H|(d & H1 & H2 & H3)].
    - cbn [cget shared]. intros [[c q] o] l0 r [[c' q'] o'] x b0 E H. destruct (cget _ l0) as [r1 c1]. injection E as _ _ _ <-. cbn [snd] in *. destruct H as [H|H]; [discriminate|exact H].
    - cbn [cput shared]. intros [[c q] o] l0 b0 x b1 H. cbn [snd] in *. destruct H as [H|H]; [injection H as -> ->; auto|auto].
    - unfold caccesses in Hin. now apply in_rev in Hin.
    - destruct H.
    - exists d. split; [exact H1|]. split; [apply (F0 Hs _ _ H1)|auto].
  Qed.

  Lemma together_considerate st ca gs gc ps i p :
    together B st ca gs gc ps -> keys_apart B st ca gs gc ps -> (forall l d, sblocks st l = Some d -> l = digest d) ->
    nth_error ps i = Some p -> considerate (B := B) (p_sec p) (turns i gc).
  Proof.
    intros (_ & Hgc & Ht) Hk Hs Hp a l b Ha Hb. destruct (turns_others _ _ _ _ Ha Hb) as (j & Hj & Hin).
    pose proof (Hgc _ _ Hin) as Hlt. apply nth_error_Some in Hlt. destruct (nth_error ps j) as [q|] eqn:Hq; [|easy].
    destruct (Ht _ _ Hq) as (_ & Ho & Hr & _ & Hc).
    apply own_in in Hin. rewrite <- Hc in Hin.
    destruct (puts_read _ _ _ _ _ _ _ _ _ Ho Hr Hs Hin) as (d & H1 & H2 & H3 & H4).
    pose proof (deserialize_readable _ _ _ _ H3) as Rq.
    assert (D : index_key (p_sec p) = index_key (p_sec q) \/ ~ readable (index_key (p_sec p)) d).
    { destruct (decrypt d (index_key (p_sec p)) nonce) as [[z r]|e|pp|] eqn:Ed.
      - destruct (z_dec (zs_data z)) as [pl|] eqn:Ez.
        + left. eapply Hk; eauto. exists z, r, pl. auto.
        + right. intros (z' & r' & pl & E1 & E2). congruence.
      - right. intros (z' & r' & pl & E1 & E2). congruence.
      - right. intros (z' & r' & pl & E1 & E2). congruence.
      - right. intros (z' & r' & pl & E1 & E2). congruence. }
    destruct D as [D|D]; [left|right].
    - exists d. rewrite D. auto.
    - intros blk z r E Ed. cbn [digest shared] in E. rewrite H2 in E. apply digest_inj in E as ->.
      destruct (z_dec (zs_data z)) as [pl|] eqn:Ez; [|reflexivity]. destruct D. exists z, r, pl. auto.
  Qed.

  (** C81: streams that are written at the same time do not notice each other.
      However their accesses to store and cache are interleaved, the run of each
      of them is a run of its own machine on lists. *)
  Theorem C81_concurrent st ca gs gc ps :
    (forall l d, sblocks st l = Some d -> l = digest d) -> (forall l b, ~ cin ca l b) ->
    together B st ca gs gc ps -> keys_apart B st ca gs gc ps ->
    forall i p, nth_error ps i = Some p -> exists vs, tracks agrees view0 (p_run p) vs.
  Proof.
    intros Hs Hc Ht Hk i p Hp. pose proof (together_considerate _ _ _ _ _ _ _ Ht Hk Hs Hp) as Ho.
    destruct Ht as (_ & _ & Ht). destruct (Ht _ _ Hp) as (Hcfg & _ & Hr & _).
    eapply (C80_undisturbed _ _ Hcfg); [exact Hs|exact Hc|exact Ho|exact Hr].
  Qed.
  Theorem C81_concurrent_total st ca gs gc ps (RR : ReliableReads T B) :
    (forall l d, sblocks st l = Some d -> l = digest d) -> (forall l b, ~ cin ca l b) ->
    together B st ca gs gc ps -> keys_apart B st ca gs gc ps ->
    forall i p, nth_error ps i = Some p -> exists vs, tracks (fun s a => agrees s a /\ agrees_all s a) view0 (p_run p) vs.
  Proof.
    intros Hs Hc Ht Hk i p Hp. pose proof (together_considerate _ _ _ _ _ _ _ Ht Hk Hs Hp) as Ho.
    destruct Ht as (_ & _ & Ht). destruct (Ht _ _ Hp) as (Hcfg & Hown & Hr & _).
    eapply (C80_undisturbed_total _ _ Hcfg); [exact RR|exact Hs|exact Hc|exact Ho|exact Hr|].
    intros s r s' Hin. rewrite Forall_forall in Hown. now apply Hown in Hin.
  Qed.
End Concurrent.

(** ** Cases *)

Notation SB := (shared IBackend).
#[local] Hint Extern 0 (Backend ITypes) => exact (shared IBackend) : typeclass_instances.
Fixpoint trace_in (s : @sys ITypes SB) (ops : list (@op ITypes SB)) : list (@op ITypes SB * res unit * @sys ITypes SB) :=
  match ops with
  | [] => []
  | o :: ops => let '(r, s') := exec o s in (o, r, s') :: trace_in s' ops
  end.
Definition plainb (o : @op ITypes SB) (s : @sys ITypes SB) : bool :=
  match o with
  | OLose _ | OEvict _ | OOthers _ _ => false
  | OReload n | OLoad n => match nth_error (sy_snaps s) n with Some (Some (ILeaf _, _, _)) => false | _ => true end
  | _ => true
  end.
Fixpoint plain_run (s : @sys ITypes SB) (ops : list (@op ITypes SB)) : bool :=
  match ops with
  | [] => true
  | o :: ops => plainb o s && plain_run (snd (exec o s)) ops
  end.
Lemma plain_ok o s : plainb o s = true -> op_ok o s.
Proof.
  destruct o; cbn [plainb op_ok]; try discriminate; auto; intros H t E; rewrite E in H; now destruct t as [[[[] ?] ?]|].
Qed.
Lemma plain_run_ok ops : forall s, plain_run s ops = true -> run s (trace_in s ops) /\ Forall (own_op IBackend) (trace_in s ops).
Proof.
  induction ops as [|o ops IH]; intros s H; [split; [exact Logic.I|constructor]|]. cbn [plain_run trace_in] in *.
  apply andb_prop in H as [H1 H2]. destruct (exec o s) as [r s1] eqn:E. cbn [snd] in H2. destruct (IH _ H2) as [R1 R2].
  split; [cbn [run]; splits; [now apply plain_ok|exact E|exact R1]|]. constructor; [|exact R2]. now destruct o.
Qed.

(** Others write blocks and fill the cache in the middle of operations. *)
Definition junk (n : nat) : bytes := repeat Byte.x01 n.
Definition acts80 : list (list act) := [[]; [APut (junk 3); AGet (junk 9)]; []; [APut (junk 5)]; []; []; [AGet (junk 3)]; [APut (junk 7)]].
Definition branch80 : Branch := {| br_children := []; br_range := (0, 0)%N |}.
Definition cacts80 : list (list (@cact ITypes)) := [[CPut (junk 3) branch80]; []; [CGet (junk 5); CPut (junk 5) branch80]].
Definition s80 : @sys ITypes SB := joins IBackend ecfg esec ((1000000%N, []) : @Store ITypes IBackend) acts80 ([] : @Cache ITypes IBackend) cacts80.
Definition ops80 : list (@op ITypes SB) :=
  [OExtend (pairs 0 5); OSnapshot; OExtendUnpacked (pairs 5 3); OPack; OSnapshot; ORead 1 (RCollectFrom 0); OLoad 1; ORetain (offset_range_query (range_incl 2 6))].
Definition tr80 := trace_in s80 ops80.

Lemma junk_foreign key n : n < 10 -> @foreign ITypes IExt SB key (junk n).
Proof.
  intros H blk z r E. cbn [digest shared IBackend] in E. subst blk. intros Hd. exfalso.
  unfold decrypt, junk in Hd. do 10 (destruct n as [|n]; [vm_compute in Hd; discriminate|]). lia.
Qed.

Lemma tracks_counts' (tr : list (@op ITypes SB * res unit * @sys ITypes SB)) : forall a vs, tracks agrees a tr vs ->
  map (fun a => List.length (v_now a)) vs = map (fun x => builder_count (sy_b (snd x))) tr.
Proof.
  induction tr as [|[[o r] s'] tr IH]; intros a [|a' vs] H; cbn in H; try easy.
  destruct H as (_ & (A & _) & H). cbn [map snd]. f_equal; [now rewrite A|eapply IH; exact H].
Qed.

Example C80_case :
  considerate (B := IBackend) esec cacts80 /\ run s80 tr80 /\ oks tr80 = repeat true 8
  /\ map (fun x => forallb (fun n => existsb (bytes_eqb (junk n)) (snd (fst (fst (fo_store (sy_fo (snd x))))))) [3; 5; 7]) tr80
     = [false; false; true; true; true; true; true; true]
  /\ (forall vs, tracks agrees view0 tr80 vs -> map (fun a => List.length (v_now a)) vs = [5; 5; 8; 8; 8; 8; 8; 8]).
Proof.
  split.
  { intros a l b Ha Hb. right. destruct Ha as [<-|[<-|[<-|[]]]]; cbn in Hb; [|easy|].
    - destruct Hb as [[= <- <-]|[]]. apply (junk_foreign _ 3). lia.
    - destruct Hb as [?|[[= <- <-]|[]]]; [discriminate|]. apply (junk_foreign _ 5). lia. }
  assert (P : plain_run s80 ops80 = true) by (vm_compute; reflexivity).
  split; [exact (proj1 (plain_run_ok ops80 s80 P))|]. split; [vm_compute; reflexivity|]. split; [vm_compute; reflexivity|].
  intros vs H. apply tracks_counts' in H. rewrite H. vm_compute. reflexivity.
Qed.

(** Three streams: two with different secrets whose accesses alternate, and one
    that has the secrets and the data of the first, writes the same blocks, and
    finds branches in the cache that the first has put there. *)
Definition esec2 : Secrets := {| index_key := [Byte.x01; Byte.x02; Byte.x03]; value_key := [Byte.x02; Byte.x03; Byte.x04; Byte.x05] |}.
Definition st81 : @Store ITypes IBackend := (1000000%N, []).
Definition ca81 : @Cache ITypes IBackend := [].
Definition ops81 (n : nat) : list (@op ITypes SB) :=
  [OExtend (pairs n 5); OSnapshot; ORead 0 (RCollectFrom 0); OExtendUnpacked (pairs (n + 5) 3); OPack; OSnapshot; ORead 1 (RGet 4)].
Definition plan81 (i : nat) : Secrets * list (@op ITypes SB) :=
  match i with 0 => (esec, ops81 0) | 1 => (esec2, ops81 7) | _ => (esec, ops81 0) end.
Definition go81 (i : nat) (acts : list (list act)) (cacts : list (list cact)) : list (@op ITypes SB * res unit * @sys ITypes SB) :=
  trace_in (joins IBackend ecfg (fst (plan81 i)) st81 acts ca81 cacts) (snd (plan81 i)).
Definition end81 (i : nat) acts cacts : @sys ITypes SB :=
  last (map snd (go81 i acts cacts)) (joins IBackend ecfg (fst (plan81 i)) st81 acts ca81 cacts).
Fixpoint weave {A} (a b : list A) : list (nat * A) :=
  match a, b with
  | x :: a, y :: b => (0, x) :: (1, y) :: weave a b
  | _, [] => map (pair 0) a
  | [], _ => map (pair 1) b
  end.
Definition gs01 : list (nat * @act ITypes) := Eval vm_compute in weave (accesses IBackend (end81 0 [] [])) (accesses IBackend (end81 1 [] [])).
Definition gc01 : list (nat * @cact ITypes) := Eval vm_compute in weave (caccesses IBackend (end81 0 [] [])) (caccesses IBackend (end81 1 [] [])).
Definition gs81 := Eval vm_compute in gs01 ++ map (pair 2) (accesses IBackend (end81 2 (turns 2 gs01) (turns 2 gc01))).
Definition gc81 := Eval vm_compute in gc01 ++ map (pair 2) (caccesses IBackend (end81 2 (turns 2 gs01) (turns 2 gc01))).
Definition party81 (i : nat) : party IBackend :=
  {| p_cfg := ecfg; p_sec := fst (plan81 i); p_run := go81 i (turns i gs81) (turns i gc81) |}.
Definition ps81 : list (party IBackend) := [party81 0; party81 1; party81 2].

Definition readableb (key d : bytes) : bool :=
  match decrypt d key [] with Ok (z, _) => match z_dec (zs_data z) with Some _ => true | None => false end | _ => false end.
Lemma readableb_ok key d : readable (T := ITypes) key d -> readableb key d = true.
Proof. intros (z & r & p & H1 & H2). unfold readableb. change (@nil Byte.byte) with (@nonce ITypes). now rewrite H1, H2. Qed.
Definition blocks81 (i : nat) : list bytes := snd (fst (fst (fo_store (sy_fo (end81 i (turns i gs81) (turns i gc81)))))).

Example C81_case :
  together IBackend st81 ca81 gs81 gc81 ps81 /\ keys_apart IBackend st81 ca81 gs81 gc81 ps81
  /\ map (fun p => oks (p_run p)) ps81 = repeat (repeat true 7) 3
  /\ map (fun p => map (fun x => builder_count (sy_b (snd x))) (p_run p)) ps81 = repeat [5; 5; 5; 8; 8; 8; 8] 3
  /\ firstn 6 (map fst gs81) = [0; 1; 0; 1; 0; 1]
  /\ map (fun i => List.length (own i gs81)) [0; 1; 2] = [32; 32; 25]
  /\ map (fun i => List.length (blocks81 i)) [0; 1; 2] = [28; 28; 42].
Proof.
  assert (L3 : forall (A : Type) (P : nat -> A -> Prop) a b c, P 0 a -> P 1 b -> P 2 c -> forall i x, nth_error [a; b; c] i = Some x -> P i x).
  { intros A P a b c Ha Hb Hc [|[|[|i]]] x; cbn; try (intros [= <-]; assumption). now destruct i. }
  assert (P : forall i, i < 3 -> plain_run (joins IBackend ecfg (fst (plan81 i)) st81 (turns i gs81) ca81 (turns i gc81)) (snd (plan81 i)) = true).
  { intros [|[|[|i]]] H; [vm_compute; reflexivity|vm_compute; reflexivity|vm_compute; reflexivity|lia]. }
  split; [|split; [|split; [|split]]].
  - split; [|split].
    + intros i a H. assert (G : forallb (fun x => fst x <? 3) gs81 = true) by (vm_compute; reflexivity).
      rewrite forallb_forall in G. apply G in H. now apply Nat.ltb_lt in H.
    + intros i a H. assert (G : forallb (fun x => fst x <? 3) gc81 = true) by (vm_compute; reflexivity).
      rewrite forallb_forall in G. apply G in H. now apply Nat.ltb_lt in H.
    + assert (Q : forall i, i < 3 -> config_ok (p_cfg (party81 i)) /\ Forall (own_op IBackend) (p_run (party81 i))
        /\ run (p_start IBackend st81 ca81 gs81 gc81 i (party81 i)) (p_run (party81 i))
        /\ accesses IBackend (p_end IBackend st81 ca81 gs81 gc81 i (party81 i)) = own i gs81
        /\ caccesses IBackend (p_end IBackend st81 ca81 gs81 gc81 i (party81 i)) = own i gc81).
      { intros i Hi. destruct (plain_run_ok _ _ (P i Hi)) as [R1 R2]. splits; [exact ecfg_ok|exact R2|exact R1| |].
        - destruct i as [|[|[|i]]]; [vm_compute; reflexivity|vm_compute; reflexivity|vm_compute; reflexivity|lia].
        - destruct i as [|[|[|i]]]; [vm_compute; reflexivity|vm_compute; reflexivity|vm_compute; reflexivity|lia]. }
      apply L3; apply Q; lia.
  - assert (Q : forall i j l d, i < 3 -> j < 3 ->
      @sblocks ITypes SB (fo_store (sy_fo (p_end IBackend st81 ca81 gs81 gc81 j (party81 j)))) l = Some d ->
      readable (index_key (fst (plan81 i))) d -> readable (index_key (fst (plan81 j))) d ->
      index_key (fst (plan81 i)) = index_key (fst (plan81 j))).
    { intros i j l d Hi Hj Hd Ri Rj. apply readableb_ok in Ri, Rj. cbn [sblocks shared IBackend] in Hd.
      change ((if existsb (bytes_eqb l) (blocks81 j) then Some l else None) = Some d) in Hd.
      destruct (existsb (bytes_eqb l) (blocks81 j)) eqn:E; [|discriminate]. injection Hd as ->.
      apply existsb_exists in E as (d' & E & E'). apply bytes_eqb_eq in E' as <-.
      assert (G : forallb (fun j => forallb (fun d => negb (readableb (index_key esec) d && readableb (index_key esec2) d)) (blocks81 j)) [0; 1; 2] = true)
        by (vm_compute; reflexivity).
      rewrite forallb_forall in G. assert (Gj : In j [0; 1; 2]) by (cbn; lia). apply G in Gj. rewrite forallb_forall in Gj. apply Gj in E.
      destruct i as [|[|[|i]]], j as [|[|[|j]]]; try lia; try reflexivity; cbn [plan81 fst] in Ri, Rj; rewrite Ri, Rj in E; discriminate. }
    intros i p j q l d Hp Hq. assert (Hi : i < 3) by (apply (nth_error_Some ps81); congruence).
    assert (Hj : j < 3) by (apply (nth_error_Some ps81); congruence).
    assert (Ep : p = party81 i) by (destruct i as [|[|[|i]]]; [now injection Hp|now injection Hp|now injection Hp|lia]).
    assert (Eq : q = party81 j) by (destruct j as [|[|[|j]]]; [now injection Hq|now injection Hq|now injection Hq|lia]).
    rewrite Ep, Eq. now apply Q.
  - vm_compute; reflexivity.
  - vm_compute; reflexivity.
  - split; [vm_compute; reflexivity|]. split; vm_compute; reflexivity.
Qed.

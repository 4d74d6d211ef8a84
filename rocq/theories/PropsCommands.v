(** C92: the trees made by the commands build, pack, forget and repair. *)
From Coq Require Import List NArith ZArith Lia Bool String Arith.
From Verif Require Import Base BaseProofs Cbor Types Seq SeqProofs Query QuerySpec World Read Write Api Iter History Spec Ghost Frame ReadProofs Packable WriteProofs QueryProofs PackProofs RetainProofs RepairProofs NoPurged ApiProofs SysProofs HistProofs Instance Example PropsRead PropsQuery PropsRefine PropsConfig DumpTree Cli Commands.
From Verif Require PropsDumpTree PropsProgress PropsCli.
From Verif Require Import PropsRefuted.
Import ListNotations.

(** * Specification *)
Section Spec.
  Context {T : Types} {X : Ext} {B : Backend T}.
  Notation entries := (list (option (K * V))).   (* [None]: a purged entry *)
  Variable ev : nat -> K * V.

  (** The tree with which a command starts. *)
  Definition root_of (c : command) : option nat :=
    match c with Build base _ _ _ => base | Pack n | Forget n _ | Repair n => Some n end.
  (** That tree is a branch, whose link can be loaded (C17). *)
  Definition loadable (d : desk) (c : command) : Prop :=
    forall n t, root_of c = Some n -> nth_error (d_trees d) n = Some t -> branch_root t.

  Definition with_store (d : desk) (st : Store) : desk :=
    {| d_fo := {| fo_store := st; fo_cache := fo_cache (d_fo d); fo_log := fo_log (d_fo d) |}; d_trees := d_trees d |}.

  (** All uses of the program. Between two commands blocks of others appear in
      the store, and, if [lossy], blocks disappear. [session lossy tr d]: the
      commands [tr] were run, with the given success. *)
  Inductive session (lossy : bool) : list (command * bool) -> desk -> Prop :=
  | session_new fo :
      (forall l d, sblocks (fo_store fo) l = Some d -> l = digest d) -> (forall l b, ~ cin (fo_cache fo) l b) -> fo_log fo = [] ->
      session lossy [] {| d_fo := fo; d_trees := [] |}
  | session_command tr d c p cache ls r fo' :
      session lossy tr d -> loadable d c -> program ev d c = Some p ->
      (forall l b, ~ cin cache l b) -> p (fresh d cache) = (ls, r, fo') ->
      session lossy (tr ++ [(c, match r with Ok _ => true | _ => false end)]) (add_result d r fo')
  | session_others tr d st :
      session lossy tr d ->
      (forall l x, sblocks (fo_store (d_fo d)) l = Some x -> sblocks st l = Some x) ->
      (forall l x, sblocks st l = Some x -> l = digest x) -> session lossy tr (with_store d st)
  | session_lose tr d st :
      session lossy tr d -> lossy = true ->
      (forall l x, sblocks st l = Some x -> sblocks (fo_store (d_fo d)) l = Some x) -> session lossy tr (with_store d st).

  Definition is_repair (c : command) : bool := match c with Repair _ => true | _ => false end.

  (** The tree that a command makes, when [cs] are the trees before. Of a tree we
      say which entries it has, and whether it is known to be packed. *)
  Definition effect (cs : list (entries * bool)) (repaired : bool) (c : command) (new : entries * bool) : Prop :=
    match c with
    | Build base batches count unbalanced =>
        exists old packed, match base with None => old = [] /\ packed = true | Some n => nth_error cs n = Some (old, packed) end
          /\ new = (old ++ map (fun i => Some (ev i)) (seq 0 (batches * count)), packed && negb unbalanced)
    | Pack n => exists old packed e, nth_error cs n = Some (old, packed) /\ new = (e, true)
          /\ List.length e = List.length old /\ (repaired = false -> e = old)
    | Forget n before => exists old packed e, nth_error cs n = Some (old, packed) /\ new = (e, packed)
          /\ fades (fun i _ => before <= i) old e
    | Repair n => exists old packed e, nth_error cs n = Some (old, packed) /\ new = (e, false)
          /\ fades (fun _ _ => False) old e
    end.

  (** The trees [cs] after the commands [tr]; whether repair was among them. *)
  Inductive explained : list (command * bool) -> list (entries * bool) -> bool -> Prop :=
  | explained_nil : explained [] [] false
  | explained_ok tr cs rep c e :
      explained tr cs rep -> effect cs (rep || is_repair c) c e -> explained (tr ++ [(c, true)]) (cs ++ [e]) (rep || is_repair c)
  | explained_failed tr cs rep c : explained tr cs rep -> explained (tr ++ [(c, false)]) cs (rep || is_repair c).
End Spec.

(** * Proofs *)

Lemma next_only c : next (only c) c = only c.
Proof.
  unfold next, only. destruct c. cbn. f_equal; unfold cfg_min, cfg_max; cbn;
  rewrite ?Nat.min_id, ?Nat.max_id, ?N.min_id, ?N.max_id; reflexivity.
Qed.

Section Proofs.
  Context {T : Types} {TL : TypesLaws T} {X : Ext} {XL : ExtLaws X}
          {B : Backend T} {BL : BackendLaws T B}.
  Notation sec := default_secrets.
  Notation key := (index_key sec).
  Notation entries := (list (option (K * V))).
  Variable ev : nat -> K * V.

  Definition kk (lossy : bool) : kind := {| k_lose := lossy; k_repair := true; k_reload := true |}.
  Definition at_ (fo : Forest) (b : Builder) (ts : list Tree) : sys :=
    {| sy_fo := fo; sy_se := {| se_b := b; se_saved := [] |}; sy_snaps := ts |}.
  Definition seen (e : entries) (cs : list entries) (rep : bool) : view :=
    {| v_now := e; v_saved := []; v_snaps := cs; v_repaired := rep |}.
  (** The program has the builder [b] with the entries [e]. *)
  Definition St lossy set fo b ts e cs rep : Prop := abs set sec (kk lossy) (at_ fo b ts) (seen e cs rep).

  Lemma debug_ok : config_ok config_debug. Proof. exact (proj2 PropsCli.C85_config_case). Qed.
  Lemma debug_fast_ok : config_ok config_debug_fast. Proof. exact (proj1 PropsCli.C85_config_case). Qed.

  (** The tree is in packed form. *)
  Definition orelabel (m m' : option tree) : Prop :=
    match m, m' with Some g, Some g' => relabel g g' | None, None => True | _, _ => False end.
  Definition shows_packed (t : Tree) : Prop := forall m m', behind sec t m -> orelabel m m' -> opacked m'.

  (** Back to an empty builder, with the configuration [c]. *)
  Lemma reset lossy set c fo b ts e cs rep : setting_ok set -> config_ok c ->
    St lossy set fo b ts e cs rep -> St lossy (next set c) fo (builder_new c sec) ts [] cs rep.
  Proof.
    intros Hs Hc (G & Gu & S1 & S2 & S3). destruct (next_ok set c Hs Hc) as (N1 & _ & N3 & _).
    assert (P : forall k, sys_good set sec (k_lose k = false) (k_repair k = false) (at_ fo b ts) ->
      sys_good (next set c) sec (k_lose k = false) (k_repair k = false) (at_ fo (builder_new c sec) ts)).
    { intros k ((n & I) & _ & H). split; [|split; [constructor|]].
      - exists None. destruct I as (F & _). split; [exact F|]. repeat split.
      - eapply Forall_impl; [|exact H]. intros t. now apply snap_widen. }
    unfold St, abs. splits; [now apply P|intros Hr; apply P; now apply Gu| |constructor|exact S3].
    exists None. split; [exact Logic.I|reflexivity].
  Qed.

  Lemma same lossy set fo fo' b ts e cs rep : fsame sec fo fo' ->
    St lossy set fo b ts e cs rep -> St lossy set fo' b ts e cs rep.
  Proof.
    intros W (G & Gu & S). unfold St, abs. splits; try apply S.
    - exact (step_with_fo set sec _ _ (at_ fo b ts) fo' G W).
    - intros Hr. exact (step_with_fo set sec _ _ (at_ fo b ts) fo' (Gu Hr) W).
  Qed.

  (** The flag of the root does not matter for that. *)
  Definition sound (t : Tree) : Prop := forall m, behind sec t m -> opacked m -> shows_packed t.

  Lemma packed_shows set Av Ps fo b m : bgood set sec Av Ps fo b m -> opacked m -> shows_packed (snapshot b).
  Proof.
    intros I P m1 m2 H1 H2. rewrite (behind_det _ _ _ _ H1 (binv_behind _ _ _ _ _ _ _ I)) in H2.
    destruct m as [g|], m2 as [g2|]; try easy. destruct I as (_ & _ & _ & _ & ((_ & Iv & _) & _)). cbn [orelabel opacked] in *.
    destruct g, g2; cbn -[packed] in H2; try discriminate; try (injection H2 as -> ->); try (injection H2 as ->); auto.
    destruct H2 as ((_ & B2 & _) & ->). eapply packed_flip; eauto.
  Qed.
  Lemma shows_opacked set Av Ps fo b m : bgood set sec Av Ps fo b m -> shows_packed (snapshot b) -> opacked m.
  Proof.
    intros I P. apply (P m m); [eapply binv_behind; exact I|]. destruct m; [apply relabel_refl|exact Logic.I].
  Qed.

  Lemma st_load lossy set c fo b ts e cs rep n t l r fo' : setting_ok set -> config_ok c -> St lossy set fo b ts e cs rep ->
    nth_error ts n = Some t -> branch_root t -> tree_link t = Some l -> load_stream_builder fo sec c l = (r, fo') ->
    St lossy set fo' b ts e cs rep
    /\ (forall b', r = Ok b' -> exists old, nth_error cs n = Some old /\ St lossy (next set c) fo' b' ts old cs rep
         /\ (shows_packed t -> shows_packed (snapshot b')))
    /\ ((exists b', r = Ok b') \/ exists e, r = Err e)
    /\ (ReliableReads T B -> lossy = false -> small_branches fo -> exists b', r = Ok b').
  Proof.
    intros Hs Hc A Et Hb El E. pose proof A as (G & Gu & S1 & S2 & S3). destruct (next_ok set c Hs Hc) as (N1 & N2 & N3 & N4).
    pose proof G as ((n0 & I) & _ & Hs2). pose proof I as (F & _). cbn [sy_fo at_] in F.
    pose proof (nth_error_Forall _ _ _ _ Hs2 Et) as Hsn. destruct (Forall2_nth1 _ _ _ _ _ S3 Et) as (ct & Ect & nc & Hct & <-).
    destruct t as [[[i sec'] o]|]; [|discriminate]. cbn in El. destruct Hsn as (-> & lim & g & Hsn).
    assert (Eg : nc = Some g).
    { eapply behind_det; [exact Hct|]. cbn. splits; auto; [apply Hsn|]. pose proof (snap_repr _ _ _ _ _ _ _ _ Hsn). eauto. }
    subst nc. pose proof (snap_tree_widen _ _ N3 _ _ _ _ _ _ _ Hsn) as Hsn'.
    destruct (load_builder (next set c) sec N1 _ _ _ _ _ _ _ _ _ F Hsn' Hb El E) as (W & H1 & H2 & H3).
    split; [now apply (same _ _ _ _ _ _ _ _ _ W)|]. split; [|split].
    - intros b' ->. destruct (H1 _ eq_refl) as (g' & I' & Hrl & _). exists (content g). split; [exact Ect|]. split.
      2: { intros P m m' Hm Hm'. rewrite (behind_det _ _ _ _ Hm (binv_behind _ _ _ _ _ _ _ I')) in Hm'.
           apply (P _ _ Hct). destruct m' as [g2|]; [|easy]. exact (relabel_trans _ _ _ Hrl Hm'). }
      assert (P : forall kk, sys_good set sec (k_lose kk = false) (k_repair kk = false) (at_ fo b ts) ->
                             sys_good (next set c) sec (k_lose kk = false) (k_repair kk = false) (at_ fo' b' ts)).
      { intros kk Gk. pose proof Gk as (_ & _ & Hk2). pose proof (nth_error_Forall _ _ _ _ Hk2 Et) as (_ & limk & gk & Hk).
        apply (snap_tree_widen _ _ N3) in Hk.
        destruct (load_builder (next set c) sec N1 _ _ _ _ _ _ _ _ _ F Hk Hb El E) as (_ & Hb' & _).
        destruct (Hb' _ eq_refl) as (gk' & Ik & _). split; [exists (Some gk'); exact Ik|]. split; [constructor|]. cbn.
        eapply Forall_impl; [|exact Hk2]. intros t Ht. eapply snap_keep; [eapply (fsame_fext sec _ _ 0%N); exact W|].
        now apply (snap_widen _ _ N3). }
      unfold St, abs; splits; [now apply P|intros Hr; now apply P, Gu| |constructor|exact S3].
      exists (Some g'). split; [eapply binv_behind; exact I'|]. cbn. now apply relabel_content.
    - exact H2.
    - intros RR Hl Hsm. apply H3; [exact RR|]. apply avail_avail_branches. eapply snap_avail; [exact Hsn'|exact Hl|now apply small_fits].
  Qed.

  (** ** Runs of the program *)
  Definition grows (fo fo' : Forest) : Prop := exists new, fo_log fo' = fo_log fo ++ new.
  Lemma grows_refl fo : grows fo fo. Proof. exists []. now rewrite app_nil_r. Qed.
  Lemma grows_trans a b c : grows a b -> grows b c -> grows a c.
  Proof. intros (x & E) (y & E'). exists (x ++ y). now rewrite E', E, app_assoc. Qed.
  Lemma same_log fo fo' : fsame sec fo fo' -> fo_log fo' = fo_log fo. Proof. intros (_ & _ & _ & H). exact H. Qed.
  Lemma same_grows fo fo' : fsame sec fo fo' -> grows fo fo'. Proof. intros H. exists []. now rewrite (same_log _ _ H), app_nil_r. Qed.
  Lemma fext_grows fo o fo' o' : fext sec fo o fo' o' -> grows fo fo'.
  Proof. intros (_ & _ & new & H & _). now exists new. Qed.

  Section Runs.
    Variable lossy : bool.
    Variable ts : list Tree.
    Variable cs : list entries.
    Variable rep : bool.
    (* no assertion fails; and only the store may refuse a block *)
    Variable NA Cnd : Prop.
    Hypothesis CRR : Cnd -> ReliableReads T B.
    Hypothesis CL : Cnd -> lossy = false.
    Hypothesis CN : Cnd -> NA.
    Hypothesis CT : Cnd -> PropsProgress.types_good.
    Hypothesis CV : Cnd -> forall i, PropsProgress.good_value config_debug (snd (ev i)).

    Definition set_good (set : Setting) : Prop := setting_ok set /\ (rep = false -> set = only config_debug).
    Definition stat (fo : Forest) (b : Builder) (e : entries) : Prop :=
      exists set, set_good set /\ St lossy set fo b ts e cs rep.
    Definition ended (fo : Forest) : Prop := exists b e, stat fo b e.
    Definition verdict {A} (r : res A) (fo' : Forest) : Prop :=
      (NA -> no_assert r)
      /\ (Cnd -> small_branches fo' -> (r = Err EStoreFull /\ PropsProgress.refuses B) \/ r = Panic POverflow).

    Definition triple {A} (P : Forest -> Prop) (m : prog A) (Q : A -> Forest -> Prop) : Prop :=
      forall fo ls r fo', P fo -> m fo = (ls, r, fo') ->
        grows fo fo' /\ (forall a, r = Ok a -> Q a fo')
        /\ ((forall a, r <> Ok a) -> ended fo' /\ verdict r fo').

    Lemma t_done {A} (a : A) (P : Forest -> Prop) (Q : A -> Forest -> Prop) : (forall fo, P fo -> Q a fo) -> triple P (done a) Q.
    Proof. intros H fo ls r fo' HP [= <- <- <-]. split; [apply grows_refl|]. split; [intros a' [= <-]; auto|]. intros N. now destruct (N a). Qed.

    Lemma t_andthen {A C} (m : prog A) (f : A -> prog C) P Q Q' :
      triple P m Q -> (forall a, triple (Q a) (f a) Q') -> triple P (andthen m f) Q'.
    Proof.
      intros Hm Hf fo ls r fo' HP E. unfold andthen in E. destruct (m fo) as [[l0 r0] fo0] eqn:E0.
      destruct (Hm _ _ _ _ HP E0) as (G0 & H1 & H2). destruct r0 as [a|x|x|].
      - destruct (f a fo0) as [[l1 r1] fo1] eqn:E1. injection E as <- <- <-.
        destruct (Hf a _ _ _ _ (H1 _ eq_refl) E1) as (G1 & H3 & H4). split; [eapply grows_trans; eauto|auto].
      - injection E as <- <- <-. split; [exact G0|]. split; [discriminate|]. intros _. destruct H2 as [E1 [V1 V2]]; [discriminate|].
        split; [exact E1|]. split; [exact V1|]. intros c s. cbn. destruct (V2 c s) as [[[= ->] V]|V]; [auto|discriminate].
      - injection E as <- <- <-. split; [exact G0|]. split; [discriminate|]. intros _. destruct H2 as [E1 [V1 V2]]; [discriminate|].
        split; [exact E1|]. split; [exact V1|]. intros c s. cbn. destruct (V2 c s) as [[V _]|[= ->]]; [discriminate|auto].
      - injection E as <- <- <-. split; [exact G0|]. split; [discriminate|]. intros _. destruct H2 as [E1 [V1 V2]]; [discriminate|].
        split; [exact E1|]. split; [exact V1|]. intros c s. cbn. destruct (V2 c s) as [[V _]|V]; discriminate.
    Qed.

    Lemma t_pre {A} (m : prog A) (P P' : Forest -> Prop) Q : (forall fo, P' fo -> P fo) -> triple P m Q -> triple P' m Q.
    Proof. intros H Hm fo ls r fo' HP. apply Hm. auto. Qed.

    Lemma stat_same fo fo' b e : fsame sec fo fo' -> stat fo b e -> stat fo' b e.
    Proof. intros W (set & H1 & H2). exists set. split; [exact H1|]. now apply (same _ _ _ _ _ _ _ _ _ W). Qed.
    Lemma stat_fok fo b e : stat fo b e -> fok sec fo.
    Proof. intros (set & _ & ((n & I) & _) & _). apply I. Qed.
    Lemma set_next set c : config_ok c -> (rep = false -> c = config_debug) -> set_good set -> set_good (next set c).
    Proof.
      intros Hc Hr (H1 & H2). split; [now apply next_ok|]. intros E. rewrite (H2 E), (Hr E). apply next_only.
    Qed.

    (** Reading. [b] stays as it is. *)
    Lemma t_reads {A} (m : Forest -> res A * Forest) b e (R : A -> Prop) (F : Prop) :
      (forall fo r fo', stat fo b e -> m fo = (r, fo') ->
         fsame sec fo fo' /\ (forall a, r = Ok a -> R a) /\ ((exists a, r = Ok a) \/ exists x, r = Err x)
         /\ (Cnd -> small_branches fo -> exists a, r = Ok a)) ->
      triple (fun fo => stat fo b e /\ F) (reads m) (fun a fo => (stat fo b e /\ F) /\ R a).
    Proof.
      intros H fo ls r fo' (HP & HF) E. unfold reads in E. destruct (m fo) as [r0 fo0] eqn:E0. injection E as <- <- <-.
      destruct (H _ _ _ HP E0) as (W & H1 & H2 & H3). split; [now apply same_grows|]. split.
      - intros a ->. split; [split; [now apply (stat_same _ _ _ _ W)|exact HF]|auto].
      - intros N. split; [exists b, e; now apply (stat_same _ _ _ _ W)|]. destruct H2 as [(a & ->)|(x & ->)]; [now destruct (N a)|].
        split; [cbn; auto|]. intros c s. unfold small_branches in s. rewrite (same_log _ _ W) in s. destruct (H3 c s); discriminate.
    Qed.

    Lemma stat_inv fo b e : stat fo b e -> exists set n, set_good set /\ bgood set sec (lossy = false) (rep = false) fo b n
      /\ ocontent n = e.
    Proof.
      intros (set & Hs & (G & Gu & S & _)).
      assert (I : exists n, bgood set sec (lossy = false) (rep = false) fo b n).
      { destruct rep; [destruct G as (I & _); exact I|destruct (Gu eq_refl) as (I & _); exact I]. }
      destruct I as (n & I). exists set, n. split; [exact Hs|]. split; [exact I|]. symmetry.
      exact (stands_eq sec _ _ _ S (binv_behind _ _ _ _ _ _ _ I)).
    Qed.

    (** Operations of the history. *)
    Lemma stat_step fo b e o r s' : stat fo b e -> op_ok o (at_ fo b ts) -> op_in (kk lossy) o -> exec o (at_ fo b ts) = (r, s') ->
      exists a', moves o r (seen e cs rep) a' /\ forall fo' b' e', s' = at_ fo' b' ts -> a' = seen e' cs rep -> stat fo' b' e'.
    Proof.
      intros (set & Hs & A) Hok Hin E. destruct (abs_step set sec (proj1 Hs) _ _ _ _ _ _ A Hok Hin E) as (a' & M & A').
      exists a'. split; [exact M|]. intros fo' b' e' -> ->. exists set. split; [exact Hs|exact A'].
    Qed.

    Lemma full_intro {A} (r : res A) fo' : (NA -> no_assert r) ->
      (forall x, Cnd -> small_branches fo' -> r = Err x -> PropsProgress.refuses B /\ x = EStoreFull) ->
      (forall a, r <> Ok a) -> verdict r fo'.
    Proof.
      intros H1 H2 H3. split; [exact H1|]. intros c s. specialize (H1 (CN c)). destruct r as [a|x|[|]|]; try now destruct H1.
      - now destruct (H3 a).
      - destruct (H2 x c s eq_refl) as [H ->]. auto.
      - auto.
    Qed.

    Hypothesis Crep : Cnd -> rep = false.

    Lemma rmap_ok {A C} (f : A -> C) r c : rmap f r = Ok c -> exists a, r = Ok a /\ f a = c.
    Proof. destruct r; cbn; intros E; try discriminate. injection E as <-. eauto. Qed.

    (** Appending. *)
    Lemma t_append (unb : bool) lo n b e : (NA -> rep = false) ->
      triple (fun fo => stat fo b e /\ (unb = false -> NA -> shows_packed (snapshot b)))
        (writes (fun fo => if unb then extend_unpacked fo b (map ev (seq lo n)) else extend fo b (map ev (seq lo n))))
        (fun b' fo => stat fo b' (e ++ map (fun i => Some (ev i)) (seq lo n))
                      /\ (unb = false -> rep = false -> shows_packed (snapshot b) -> shows_packed (snapshot b'))).
    Proof.
      intros HN fo ls r fo' (S & HP) E. set (items := map ev (seq lo n)) in *. unfold writes in E.
      assert (Ei : map (fun i => Some (ev i)) (seq lo n) = map Some items) by (unfold items; now rewrite map_map). rewrite Ei. clear Ei.
      assert (Hg : Cnd -> forall k v, In (k, v) items -> PropsProgress.good_value config_debug v).
      { intros c k v Hin. unfold items in Hin. apply in_map_iff in Hin as (i & Ei & _). specialize (CV c i). now rewrite Ei in CV. }
      destruct (stat_inv _ _ _ S) as (set & m & Hs & I & Em). destruct unb.
      - destruct (extend_unpacked fo b items) as [[r0 fo0] b0] eqn:E0. injection E as <- <- <-.
        destruct (extend_unpacked_api set sec (proj1 Hs) _ _ _ _ _ _ _ _ _ I E0) as (W & _ & _ & N).
        destruct (stat_step fo b e (OExtendUnpacked items) r0 (at_ fo0 b0 ts) S Logic.I Logic.I) as (a' & M & St').
        { cbn [exec at_ sy_fo sy_b sy_se se_b]. now rewrite E0. }
        split; [eapply fext_grows; exact W|]. split.
        + intros a Ha. apply rmap_ok in Ha as ([] & -> & <-). split; [|discriminate]. cbn [moves] in M. eapply St'; [reflexivity|exact M].
        + intros Hn. split.
          * exists b0, e. destruct r0 as [u| | |]; [now destruct (Hn b0)| | |]; cbn [moves] in M; (eapply St'; [reflexivity|exact M]).
          * apply full_intro; [|intros x c s Ex|exact Hn].
            { intros _. specialize (N Logic.I). now destruct r0. }
            destruct r0 as [|x0| |]; try discriminate. injection Ex as ->. rewrite (proj2 Hs (Crep c)) in I.
            pose proof (CRR c) as RR. pose proof (CL c) as L1. 
            assert (I' : bgood config_debug sec (k_lose no_loss = false) (k_repair no_loss = false) fo b m).
            { rewrite (Crep c), L1 in I. exact I. }
            eapply (PropsProgress.extend_unpacked_err (Rl := PropsProgress.works (CT c)) config_debug sec);
              [exact debug_ok|exact (PropsProgress.works_av (CT c) RR)|exact I'|exact (PropsProgress.good_src config_debug (CT c) items (Hg c))|exact E0|exact Logic.I|exact s].
      - destruct (extend fo b items) as [[r0 fo0] b0] eqn:E0. injection E as <- <- <-.
        destruct (extend_api set sec (proj1 Hs) _ _ _ _ _ _ _ _ _ I E0) as (W & (m' & I' & Q & _) & _ & N).
        destruct (stat_step fo b e (OExtend items) r0 (at_ fo0 b0 ts) S Logic.I Logic.I) as (a' & M & St').
        { cbn [exec at_ sy_fo sy_b sy_se se_b]. now rewrite E0. }
        split; [eapply fext_grows; exact W|]. split.
        + intros a Ha. apply rmap_ok in Ha as ([] & -> & <-). split.
          * cbn [moves] in M. eapply St'; [reflexivity|exact M].
          * intros _ Hr Hp. eapply packed_shows; [exact I'|]. apply Q; auto. eapply shows_opacked; [exact I|exact Hp].
        + intros Hn. split.
          * exists b0, e. destruct r0 as [u| | |]; [now destruct (Hn b0)| | |]; cbn [moves] in M; (eapply St'; [reflexivity|exact M]).
          * apply full_intro; [|intros x c s Ex|exact Hn].
            { intros na. assert (N' : no_assert r0); [|now destruct r0]. apply N. split; [now apply HN|].
              eapply shows_opacked; [exact I|]. now apply HP. }
            destruct r0 as [|x0| |]; try discriminate. injection Ex as ->. rewrite (proj2 Hs (Crep c)) in I.
            pose proof (CRR c) as RR. pose proof (CL c) as L1. 
            assert (I2 : bgood config_debug sec (k_lose no_loss = false) (k_repair no_loss = false) fo b m).
            { rewrite (Crep c), L1 in I. exact I. }
            eapply (PropsProgress.extend_err (Rl := PropsProgress.works (CT c)) config_debug sec);
              [exact debug_ok|exact (PropsProgress.works_av (CT c) RR)|exact I2|exact (PropsProgress.good_src config_debug (CT c) items (Hg c))|exact E0|exact Logic.I|exact s].
    Qed.

    Lemma no_complaints c t : inv (only c) t -> complaints c t = [].
    Proof.
      induction t using tree_ind'; cbn [complaints]; auto. intros I. apply invs_branch in I as (I1 & (I2 & I3) & _ & _ & I5). cbn [s_lo s_hi only] in *.
      assert (E : bi_sealed x = branch_sealed c (map root_ix cs0) (bi_level x)).
      { destruct (bi_sealed x); [symmetry; now apply I2|]. destruct (branch_sealed c _ _); auto. }
      rewrite E, Bool.eqb_reflx. cbn [check app]. apply concat_nil_Forall. rewrite Forall_map.
      rewrite Forall_forall in *. auto.
    Qed.

    Lemma t_check b e (F : Prop) : (NA -> rep = false) ->
      triple (fun fo => stat fo b e /\ F) (assert_invariants b) (fun _ fo => stat fo b e /\ F).
    Proof.
      intros HN. eapply t_andthen.
      - apply (t_reads _ b e (fun msgs => rep = false -> msgs = []) F). intros fo r fo' S E.
        destruct (stat_inv _ _ _ S) as (set & m & Hs & I & Em). pose proof I as (F0 & Es & Ec & Er & G).
        unfold check_invariants in E. rewrite Er, Es in E. destruct m as [t|]; cbn [option_map] in E.
        + destruct G as ((R1 & I1 & A1 & _) & _).
          eapply (read_rd sec) in E as (W & E & E'); [|exact F0|apply rf_check_invariants0|eapply (check_rd sec set (b_cfg b)); [exact R1|exact I1|apply depth_ok]].
          split; [exact W|]. split; [|split].
          * intros a -> Hr. destruct E as [[= ->]|(x & [=])].
            rewrite (proj2 Hs Hr) in I1, Ec. rewrite Ec. now apply no_complaints.
          * destruct E as [->|E]; eauto.
          * intros c s. rewrite E'; [eauto|apply (CRR c)|]. apply A1; [exact (CL c)|now apply small_fits].
        + injection E as <- <-. split; [apply fsame_refl|]. split; [intros a [= <-]; auto|]. split; [eauto|eauto].
      - intros msgs fo ls r fo' (HP & Hm) E. unfold require in E. injection E as <- <- <-. split; [apply grows_refl|]. split.
        + intros [] _. exact HP.
        + intros Hn. destruct msgs; [now destruct (Hn tt)|]. split; [exists b, e; apply HP|]. split.
          * intros na. specialize (Hm (HN na)). discriminate.
          * intros c. specialize (Hm (Crep c)). discriminate.
    Qed.

    Lemma t_dump b e (F : Prop) : triple (fun fo => stat fo b e /\ F) (prints (snapshot b)) (fun _ fo => stat fo b e /\ F).
    Proof.
      intros fo ls r fo' (S & HF) E. unfold prints in E. destruct (stat_inv _ _ _ S) as (set & m & Hs & I & Em).
      destruct m as [g|].
      2: { apply binv_none in I as (_ & En). rewrite En in E. injection E as <- <- <-. split; [apply grows_refl|]. split; [auto|]. intros N. now destruct (N tt). }
      pose proof (binv_avail _ _ _ _ _ _ _ I) as Av. apply binv_snap in I as (F0 & En & G). rewrite En in E. pose proof (snap_repr _ _ _ _ _ _ _ _ G) as Rg.
      unfold dump in E. destruct (dump0 sec (depth (root_ix g)) 0 (root_ix g) _) as [[ls1 r1] w1] eqn:Ed. injection E as <- <- <-.
      destruct (PropsDumpTree.dump0_prints sec _ _ g 0 Rg (depth_ok (root_ix g)) _ _ _ _ F0 Ed) as (W & _ & P3 & P4).
      assert (W' : fsame sec fo {| fo_store := w_store w1; fo_cache := w_cache w1; fo_log := w_log w1 |}).
      { destruct w1 as [s1 c1 o1 l1]. pose proof (proj1 (proj2 (proj2 W))) as Eo. cbn in Eo. subst o1. exact W. }
      split; [now apply same_grows|]. split; [intros [] _; split; [now apply (stat_same _ _ _ _ W')|exact HF]|].
      intros N. split; [exists b, e; now apply (stat_same _ _ _ _ W')|]. destruct P3 as [->|(x & ->)]; [now destruct (N tt)|].
      split; [cbn; auto|]. intros c s. enough (Err x = Ok tt) by discriminate. apply P4; [exact (CRR c)|]. cbn [w_store].
      apply avail_avail_branches. apply Av; [exact (CL c)|]. unfold small_branches in *. rewrite (same_log _ _ W') in s. exact s.
    Qed.

    Lemma t_packed b e : (NA -> rep = false) ->
      triple (fun fo => stat fo b e /\ (rep = false -> shows_packed (snapshot b)))
        (reads (fun fo => is_packed fo (snapshot b)))
        (fun p fo => (stat fo b e /\ (rep = false -> shows_packed (snapshot b))) /\ (rep = false -> p = true)).
    Proof.
      intros HN fo ls r fo' HP E. pose proof HP as (S0 & Hp).
      assert (T0 : triple (fun fo => stat fo b e /\ (rep = false -> shows_packed (snapshot b))) (reads (fun fo => is_packed fo (snapshot b)))
        (fun p fo => (stat fo b e /\ (rep = false -> shows_packed (snapshot b))) /\ (rep = false -> p = true))).
      2: exact (T0 _ _ _ _ HP E).
      apply (t_reads _ b e (fun p => rep = false -> p = true)). clear fo ls r fo' E HP S0. intros fo r fo' S E.
      destruct (stat_inv _ _ _ S) as (set & m & Hs & I & Em).
      destruct (b_packed _ _ _ _ _ _ _ _ _ I E) as (H1 & H2).
      split; [|split; [|split]].
      - unfold is_packed in E. unfold snapshot in E. pose proof I as (F0 & Es & _). destruct (b_root b); [|injection E as <- <-; apply fsame_refl].
        rewrite Es in E. eapply read_fsame; [|exact E]. apply rf_is_packed0.
      - intros a -> Hr. destruct H1 as [[= ->]|(x & [=])]. apply opacked_b. eapply shows_opacked; [exact I|auto].
      - destruct H1 as [->|H1]; eauto.
      - intros c s. rewrite H2; [eauto|exact (CRR c)|]. eapply binv_avail; [exact I|exact (CL c)|exact s].
    Qed.

    Lemma t_require {A : Type} P p msg : (NA -> rep = false) ->
      triple (fun fo => (exists b e, stat fo b e) /\ P fo /\ (rep = false -> p = true)) (require p msg) (fun _ fo => P fo).
    Proof.
      intros HN fo ls r fo' ((b & e & S) & HP & Hp) E. unfold require in E. injection E as <- <- <-. split; [apply grows_refl|]. split.
      - intros _ _. exact HP.
      - intros N. destruct p; [now destruct (N tt)|]. split; [exists b, e; exact S|]. split.
        + intros na. discriminate (Hp (HN na)).
        + intros c. discriminate (Hp (Crep c)).
    Qed.

    Lemma t_pack b e : (NA -> rep = false) ->
      triple (fun fo => stat fo b e) (writes (fun fo => pack fo b))
        (fun b' fo => exists e', stat fo b' e' /\ List.length e' = List.length e /\ (rep = false -> e' = e)
                                 /\ (rep = false -> shows_packed (snapshot b'))).
    Proof.
      intros HN fo ls r fo' S E. unfold writes in E. destruct (stat_inv _ _ _ S) as (set & m & Hs & I & Em).
      destruct (pack fo b) as [[r0 fo0] b0] eqn:E0. injection E as <- <- <-.
      destruct (pack_full set sec (proj1 Hs) _ _ _ _ _ _ _ _ I E0) as (W & m' & I' & Q1 & Q2 & _).
      destruct (stat_step fo b e OPack r0 (at_ fo0 b0 ts) S Logic.I Logic.I) as (a' & M & St').
      { cbn [exec at_ sy_fo sy_b sy_se se_b]. now rewrite E0. }
      split; [eapply fext_grows; exact W|]. split.
      - intros a Ha. apply rmap_ok in Ha as ([] & -> & <-). cbn [moves] in M. destruct M as (c & Ea & L1 & L2).
        exists c. split; [eapply St'; [reflexivity|exact Ea]|]. split; [exact L1|]. split; [exact L2|].
        intros Hr. eapply packed_shows; [exact I'|]. now apply Q2.
      - intros Hn. split.
        + destruct r0 as [u| | |]; [now destruct (Hn b0)| | |]; cbn [moves] in M; destruct M as (c & Ea & _);
            exists b0, c; (eapply St'; [reflexivity|exact Ea]).
        + apply full_intro; [|intros x c s Ex|exact Hn].
          { intros na. destruct (Q1 (HN na)) as [N _]. now destruct r0. }
          destruct r0 as [|x0| |]; try discriminate. injection Ex as ->. rewrite (proj2 Hs (Crep c)) in I.
          pose proof (CRR c) as RR. pose proof (CL c) as L1.
          assert (I2 : bgood config_debug sec (k_lose no_loss = false) (k_repair no_loss = false) fo b m).
          { rewrite (Crep c), L1 in I. exact I. }
          eapply (PropsProgress.pack_err (Rl := PropsProgress.works (CT c)) config_debug sec);
            [exact debug_ok|exact (PropsProgress.works_av (CT c) RR)|exact (eq_refl : k_repair no_loss = false)|exact I2|exact E0|exact Logic.I|exact s].
    Qed.

    Lemma t_retain b e before :
      triple (fun fo => stat fo b e) (writes (fun fo => retain fo b (offset_range_query (range_incl_opt before None))))
        (fun b' fo => exists e', stat fo b' e' /\ fades (fun i _ => before <= i) e e'
                                 /\ (shows_packed (snapshot b) -> shows_packed (snapshot b'))).
    Proof.
      set (q := offset_range_query (range_incl_opt before None)).
      intros fo ls r fo' S E. unfold writes in E. destruct (stat_inv _ _ _ S) as (set & m & Hs & I & Em).
      destruct (retain fo b q) as [[r0 fo0] b0] eqn:E0. injection E as <- <- <-.
      destruct (retain_api set sec _ _ _ _ _ _ _ _ _ _ I (any_purge_ok set sec q) E0) as (W & (m' & I' & Q & _) & _ & N).
      destruct (stat_step fo b e (ORetain q) r0 (at_ fo0 b0 ts) S Logic.I Logic.I) as (a' & M & St').
      { cbn [exec at_ sy_fo sy_b sy_se se_b]. now rewrite E0. }
      split; [eapply fext_grows; exact W|]. split.
      - intros a Ha. apply rmap_ok in Ha as ([] & -> & <-). cbn [moves] in M. destruct M as (c & Ea & L1).
        exists c. split; [eapply St'; [reflexivity|exact Ea]|]. split.
        + destruct L1 as (L1 & L2). split; [exact L1|]. intros i x Hx. destruct (L2 _ _ Hx) as [H|(H & H')]; [now left|right].
          split; [exact H|]. intros k v -> Hle. apply (H' k v eq_refl). exists (fun o _ => range_contains (range_incl_opt before None) o).
          split; [apply C37_offset_range|]. unfold range_contains, range_incl_opt. cbn [r_start r_end]. rewrite andb_true_r. now apply Nat.leb_le.
        + intros Hp. eapply packed_shows; [exact I'|]. destruct (Q eq_refl) as (_ & Q' & _). apply Q'. eapply shows_opacked; [exact I|exact Hp].
      - intros Hn. split.
        + exists b0, e. destruct r0 as [u| | |]; [now destruct (Hn b0)| | |]; cbn [moves] in M; (eapply St'; [reflexivity|exact M]).
        + apply full_intro; [|intros x c s Ex|exact Hn].
          { intros _. specialize (N Logic.I). now destruct r0. }
          destruct r0 as [|x0| |]; try discriminate. injection Ex as ->. rewrite (proj2 Hs (Crep c)) in I.
          pose proof (CRR c) as RR. pose proof (CL c) as L1.
          assert (I2 : bgood config_debug sec (k_lose no_loss = false) (k_repair no_loss = false) fo b m).
          { rewrite (Crep c), L1 in I. exact I. }
          eapply (PropsProgress.retain_err (Rl := PropsProgress.works (CT c)) config_debug sec);
            [exact (PropsProgress.works_av (CT c) RR)|exact I2|exact E0|exact Logic.I|exact s].
    Qed.

    Lemma t_repair b e : rep = true ->
      triple (fun fo => stat fo b e) (writes (fun fo => repair fo b))
        (fun b' fo => exists e', stat fo b' e' /\ fades (fun _ _ => False) e e').
    Proof.
      intros Hr fo ls r fo' S E. unfold writes in E. destruct (stat_inv _ _ _ S) as (set & m & Hs & I & Em).
      destruct (repair fo b) as [[r0 fo0] b0] eqn:E0. injection E as <- <- <-.
      destruct (repair_api set sec _ _ _ _ _ _ _ _ I E0) as (W & N & _).
      destruct (stat_step fo b e ORepair (void r0) (at_ fo0 b0 ts) S Logic.I eq_refl) as (a' & M & St').
      { cbn [exec at_ sy_fo sy_b sy_se se_b]. now rewrite E0. }
      split; [eapply fext_grows; exact W|]. split.
      - intros a Ha. apply rmap_ok in Ha as (x & -> & <-). cbn [moves void rmap] in M. destruct M as (c & L1 & Ea).
        exists c. split; [eapply St'; [reflexivity|]|exact L1]. rewrite Ea. unfold seen. now rewrite Hr.
      - intros Hn. split.
        + exists b0, e. assert (Ea : a' = seen e cs rep); [|now eapply St'].
          destruct r0 as [u| | |]; [now destruct (Hn b0)| | |]; cbn [moves void rmap] in M; rewrite M; unfold seen; now rewrite Hr.
        + apply full_intro; [|intros x c s Ex|exact Hn]; [intros _; now destruct r0|]. specialize (Crep c). congruence.
    Qed.

    Lemma t_load c n t l : config_ok c -> (rep = false -> c = config_debug) ->
      nth_error ts n = Some t -> branch_root t -> tree_link t = Some l ->
      triple ended (reads (fun fo => load_stream_builder fo sec c l))
        (fun b fo => exists old, nth_error cs n = Some old /\ stat fo b old /\ (shows_packed t -> shows_packed (snapshot b))).
    Proof.
      intros Hc Hr Et Hb El fo ls r fo' (b & e & set & Hs & S) E. unfold reads in E.
      destruct (load_stream_builder _ _ _ _) as [r0 fo0] eqn:E0. injection E as <- <- <-.
      destruct (st_load _ _ _ _ _ _ _ _ _ _ _ _ _ _ (proj1 Hs) Hc S Et Hb El E0) as (S' & H1 & H2 & H3).
      assert (W : fsame sec fo fo0).
      { unfold load_stream_builder in E0. destruct (read fo _) as [r1 fo1] eqn:E1. injection E0 as _ <-.
        eapply read_fsame; [|exact E1]. apply rf_create_index. }
      split; [now apply same_grows|]. split.
      - intros b' ->. destruct (H1 _ eq_refl) as (old & A1 & A2 & A3). exists old. split; [exact A1|]. split; [|exact A3].
        exists (next set c). split; [now apply set_next|exact A2].
      - intros N. split; [exists b, e, set; auto|]. destruct H2 as [(b' & ->)|(x & ->)]; [now destruct (N b')|].
        split; [cbn; auto|]. intros cd s. destruct (H3 (CRR cd) (CL cd)) as (b' & [=]). unfold small_branches in *. now rewrite (same_log _ _ W) in s.
    Qed.

    Definition gains (lo n : nat) (unb : bool) (e : entries) (b b' : Builder) (fo : Forest) : Prop :=
      stat fo b' (e ++ map (fun i => Some (ev i)) (seq lo n))
      /\ (unb = false -> rep = false -> shows_packed (snapshot b) -> shows_packed (snapshot b')).

    Lemma t_batches (unb : bool) count todo : (NA -> rep = false) -> forall lo b e,
      (unb = false -> NA -> shows_packed (snapshot b)) ->
      triple (fun fo => stat fo b e) (build_batches ev todo lo count unb b) (gains lo (todo * count) unb e b).
    Proof.
      intros HN. induction todo as [|todo IH]; intros lo b e HP; cbn [build_batches].
      - apply t_done. intros fo S. split; [|auto]. cbn. now rewrite app_nil_r.
      - eapply t_andthen; [eapply t_pre; [|apply (t_append unb lo count b e HN)]; intros fo S; exact (conj S HP)|].
        intros b1. cbn beta. eapply t_andthen; [apply t_check, HN|]. intros []. intros fo ls r fo' (S & HF) E.
        assert (HP' : unb = false -> NA -> shows_packed (snapshot b1)) by (intros Hu na; apply HF; auto).
        destruct (IH _ _ _ HP' _ _ _ _ S E) as (G & H1 & H2). split; [exact G|]. split; [|exact H2].
        intros b' ->. destruct (H1 _ eq_refl) as (S' & F'). split; [|auto].
        rewrite <- app_assoc, <- map_app, <- seq_app in S'. exact S'.
    Qed.

    Lemma stat_new fo : ended fo -> stat fo (builder_new config_debug sec) [].
    Proof.
      intros (b & e & set & Hs & S). exists (next set config_debug). split; [apply set_next; auto; exact debug_ok|].
      eapply reset; [apply Hs|exact debug_ok|exact S].
    Qed.
    Lemma new_packed c : shows_packed (snapshot (builder_new c sec)).
    Proof. intros m m' H1 H2. destruct m, m'; easy. Qed.

    (** The tree that is given to a command. *)
    Definition given (n : nat) (t : Tree) (l : L) : Prop := nth_error ts n = Some t /\ branch_root t /\ tree_link t = Some l.

    Lemma t_build base batches count unb : (NA -> rep = false) ->
      match base with
      | None => True
      | Some (n, t, l) => given n t l /\ (unb = false -> NA -> shows_packed t)
      end ->
      triple ended (cmd_build ev (option_map snd base) batches count unb)
        (fun b fo => exists old, match base with None => old = [] | Some (n, _, _) => nth_error cs n = Some old end
           /\ stat fo b (old ++ map (fun i => Some (ev i)) (seq 0 (batches * count)))
           /\ (unb = false -> rep = false -> match base with None => True | Some (_, t, _) => shows_packed t end -> shows_packed (snapshot b))).
    Proof.
      intros HN Hb. unfold cmd_build, build_tree.
      eapply t_andthen with (Q := fun b fo => exists old, match base with None => old = [] | Some (n, _, _) => nth_error cs n = Some old end
           /\ stat fo b (old ++ map (fun i => Some (ev i)) (seq 0 (batches * count)))
           /\ (unb = false -> rep = false -> match base with None => True | Some (_, t, _) => shows_packed t end -> shows_packed (snapshot b))).
      - destruct base as [[[n t] l]|]; cbn [option_map snd].
        + destruct Hb as ((Et & Hb & El) & HP). eapply t_andthen; [apply (t_load config_debug n t l); auto; exact debug_ok|].
          intros b fo ls r fo' (old & A1 & A2 & A3) E.
          assert (HP' : unb = false -> NA -> shows_packed (snapshot b)) by auto.
          destruct (t_batches unb count batches HN _ _ _ HP' _ _ _ _ A2 E) as (G & H1 & H2).
          split; [exact G|]. split; [|exact H2]. intros b' ->. destruct (H1 _ eq_refl) as (S' & F'). exists old. auto.
        + eapply t_andthen; [apply (t_done _ _ (fun b fo => b = builder_new config_debug sec /\ stat fo b [])); intros fo H; split; [reflexivity|now apply stat_new]|].
          intros b fo ls r fo' (-> & S) E.
          destruct (t_batches unb count batches HN _ _ _ (fun _ _ => new_packed _) _ _ _ _ S E) as (G & H1 & H2).
          split; [exact G|]. split; [|exact H2]. intros b' ->. destruct (H1 _ eq_refl) as (S' & F'). exists []. split; [reflexivity|].
          split; [exact S'|]. intros Hu Hr _. apply F'; auto. apply new_packed.
      - intros b fo ls r fo' (old & A1 & A2 & A3) E.
        assert (T0 : triple (fun fo => stat fo b (old ++ map (fun i => Some (ev i)) (seq 0 (batches * count))) /\ True)
                  (andthen (prints (snapshot b)) (fun _ => done b)) (fun b' fo => b' = b /\ stat fo b (old ++ map (fun i => Some (ev i)) (seq 0 (batches * count))))).
        { eapply t_andthen; [apply t_dump|]. intros []. apply t_done. intros fo0 [S _]. auto. }
        destruct (T0 _ _ _ _ (conj A2 Logic.I) E) as (G & H1 & H2). split; [exact G|]. split; [|exact H2].
        intros b' ->. destruct (H1 _ eq_refl) as (-> & S'). exists old. auto.
    Qed.

    Lemma t_final b e : triple (fun fo => stat fo b e) (andthen (prints (snapshot b)) (fun _ => done b)) (fun b' fo => b' = b /\ stat fo b e).
    Proof.
      eapply t_andthen; [eapply t_pre; [|apply (t_dump b e True)]; intros; cbn; auto|]. intros []. apply t_done. intros fo0 [S _]. auto.
    Qed.

    Lemma t_cmd_pack n t l : (NA -> rep = false) -> given n t l ->
      triple ended (cmd_pack l) (fun b fo => exists old e, nth_error cs n = Some old /\ stat fo b e /\ List.length e = List.length old
        /\ (rep = false -> e = old) /\ (rep = false -> shows_packed (snapshot b))).
    Proof.
      intros HN (Et & Hb & El). unfold cmd_pack. eapply t_andthen; [apply (t_load config_debug n t l); auto; exact debug_ok|].
      intros b fo ls r fo' (old & A1 & A2 & A3) E. revert fo ls r fo' A2 E. clear A3.
      change (triple (fun fo => stat fo b old)
        (andthen (prints (snapshot b)) (fun _ => andthen (writes (fun fo => pack fo b)) (fun b =>
         andthen (assert_invariants b) (fun _ => andthen (reads (fun fo => is_packed fo (snapshot b))) (fun p =>
         andthen (require p "forest.is_packed(&tree.snapshot())?") (fun _ => andthen (prints (snapshot b)) (fun _ => done b)))))))
        (fun b fo => exists old e, nth_error cs n = Some old /\ stat fo b e /\ List.length e = List.length old
          /\ (rep = false -> e = old) /\ (rep = false -> shows_packed (snapshot b)))).
      eapply t_andthen; [eapply t_pre; [|apply (t_dump b old True)]; intros; cbn; auto|]. intros [].
      eapply t_andthen; [eapply t_pre; [|apply (t_pack b old HN)]; intros fo H; apply H|]. intros b'. cbn beta.
      intros fo ls r fo' (e & S & L1 & L2 & L3) E. 
      assert (T0 : triple (fun fo => stat fo b' e /\ (rep = false -> shows_packed (snapshot b')))
        (andthen (assert_invariants b') (fun _ => andthen (reads (fun fo => is_packed fo (snapshot b'))) (fun p =>
         andthen (require p "forest.is_packed(&tree.snapshot())?") (fun _ => andthen (prints (snapshot b')) (fun _ => done b')))))
        (fun b fo => b = b' /\ stat fo b' e)).
      { eapply t_andthen; [apply t_check, HN|]. intros []. eapply t_andthen; [apply t_packed, HN|]. intros p. cbn beta.
        eapply t_andthen; [eapply t_pre; [|apply (t_require (A := unit) (fun fo => stat fo b' e) p _ HN)]|].
        - intros fo0 ((H1 & H2) & H3). split; [exists b', e; exact H1|]. auto.
        - intros []. apply t_final. }
      destruct (T0 _ _ _ _ (conj S L3) E) as (G & H1 & H2). split; [exact G|]. split; [|exact H2].
      intros b1 ->. destruct (H1 _ eq_refl) as (-> & S'). exists old, e. auto.
    Qed.

    Lemma t_cmd_forget n t l before : given n t l ->
      triple ended (cmd_forget l before) (fun b fo => exists old e, nth_error cs n = Some old /\ stat fo b e
        /\ fades (fun i _ => before <= i) old e /\ (shows_packed t -> shows_packed (snapshot b))).
    Proof.
      intros (Et & Hb & El). unfold cmd_forget. eapply t_andthen; [apply (t_load config_debug n t l); auto; exact debug_ok|].
      intros b fo ls r fo' (old & A1 & A2 & A3) E.
      assert (T0 : triple (fun fo => stat fo b old)
        (andthen (writes (fun fo => retain fo b (offset_range_query (range_incl_opt before None)))) (fun b => andthen (prints (snapshot b)) (fun _ => done b)))
        (fun b' fo => exists e, stat fo b' e /\ fades (fun i _ => before <= i) old e /\ (shows_packed (snapshot b) -> shows_packed (snapshot b')))).
      { eapply t_andthen; [apply t_retain|]. intros b1. cbn beta. intros fo0 l0 r0 fo1 (e & S & H1 & H2) E0.
        destruct (t_final _ _ _ _ _ _ S E0) as (G & H3 & H4). split; [exact G|]. split; [|exact H4]. intros b2 ->.
        destruct (H3 _ eq_refl) as (-> & S'). exists e. auto. }
      destruct (T0 _ _ _ _ A2 E) as (G & H1 & H2). split; [exact G|]. split; [|exact H2].
      intros b1 ->. destruct (H1 _ eq_refl) as (e & S' & L1 & L2). exists old, e. split; [exact A1|]. split; [exact S'|]. split; [exact L1|]. intros Hp. apply L2, A3, Hp.
    Qed.

    Lemma t_cmd_repair n t l : rep = true -> given n t l ->
      triple ended (cmd_repair (cli_secrets None None) l)
        (fun b fo => exists old e, nth_error cs n = Some old /\ stat fo b e /\ fades (fun _ _ => False) old e).
    Proof.
      intros Hr (Et & Hb & El). unfold cmd_repair. change (cli_secrets None None) with sec.
      eapply t_andthen; [apply (t_load config_debug_fast n t l); auto; [exact debug_fast_ok|congruence]|].
      intros b fo ls r fo' (old & A1 & A2 & A3) E.
      assert (T0 : triple (fun fo => stat fo b old)
        (andthen (writes (fun fo => repair fo b)) (fun b => andthen (prints (snapshot b)) (fun _ => done b)))
        (fun b' fo => exists e, stat fo b' e /\ fades (fun _ _ => False) old e)).
      { eapply t_andthen; [apply t_repair, Hr|]. intros b1. cbn beta. intros fo0 l0 r0 fo1 (e & S & H1) E0.
        destruct (t_final _ _ _ _ _ _ S E0) as (G & H3 & H4). split; [exact G|]. split; [|exact H4]. intros b2 ->.
        destruct (H3 _ eq_refl) as (-> & S'). exists e. auto. }
      destruct (T0 _ _ _ _ A2 E) as (G & H1 & H2). split; [exact G|]. split; [|exact H2].
      intros b1 ->. destruct (H1 _ eq_refl) as (e & S' & L1). exists old, e. auto.
    Qed.
  End Runs.

  (** ** Sessions *)
  Definition Inv lossy tr (d : desk) cps rep : Prop :=
    explained ev tr cps rep /\ ended lossy (d_trees d) (map fst cps) rep (d_fo d)
    /\ (rep = false -> Forall2 (fun t (c : entries * bool) => snd c = true -> shows_packed t) (d_trees d) cps)
    /\ Forall sound (d_trees d).

  Lemma ended_weaken lossy ts cs rep rep' fo : (rep' = false -> rep = false) -> ended lossy ts cs rep fo -> ended lossy ts cs rep' fo.
  Proof.
    intros H (b & e & set & (H1 & H2) & (G & Gu & S)). exists b, e, set. split; [split; auto|].
    unfold St, abs. split; [exact G|]. split; [intros Hr; apply Gu; auto|exact S].
  Qed.

  Lemma ended_op lossy ts cs rep fo o : (forall b, op_ok o (at_ fo b ts)) -> op_in (kk lossy) o ->
    (forall a a', moves o (Ok tt) a a' -> a' = a) ->
    ended lossy ts cs rep fo -> forall fo', (forall b, exec o (at_ fo b ts) = (Ok tt, at_ fo' b ts)) -> ended lossy ts cs rep fo'.
  Proof.
    intros H1 H2 H3 (b & e & S) fo' E.
    destruct (stat_step lossy ts cs rep fo b e o _ _ S (H1 b) H2 (E b)) as (a' & M & St'). apply H3 in M. subst a'.
    exists b, e. now eapply St'.
  Qed.

  Lemma ended_snap lossy ts cs rep fo b e : stat lossy ts cs rep fo b e ->
    ended lossy (ts ++ [snapshot b]) (cs ++ [e]) rep fo.
  Proof.
    intros (set & Hs & A).
    destruct (abs_step set sec (proj1 Hs) _ _ _ OSnapshot (Ok tt) (at_ fo b (ts ++ [snapshot b])) A Logic.I Logic.I eq_refl) as (a' & M & A').
    cbn in M. subst a'. exists b, e, set. split; [exact Hs|exact A'].
  Qed.

  Lemma fresh_ended lossy ts cs rep d c : (forall l b, cin c l b -> cin (fo_cache (d_fo d)) l b) -> ts = d_trees d ->
    ended lossy ts cs rep (d_fo d) -> ended lossy ts cs rep (fresh d c).
  Proof.
    intros Hc -> E. eapply (ended_op _ _ _ _ _ (OEvict c)); [| | |exact E|].
    - intros b l x H. now apply Hc.
    - exact Logic.I.
    - intros a a' M. exact M.
    - reflexivity.
  Qed.

  Lemma nth_fst {A C} (l : list (A * C)) n x : nth_error (map fst l) n = Some x -> exists c, nth_error l n = Some (x, c).
  Proof.
    rewrite nth_error_map. destruct (nth_error l n) as [[a c]|]; [|discriminate]. cbn. intros [= ->]. eauto.
  Qed.

  (** What a command does in a session. *)
  Lemma command_ok lossy tr d cps rep c p cache ls r fo' (NA Cnd : Prop) :
    Inv lossy tr d cps rep -> loadable d c -> program ev d c = Some p -> (forall l b, ~ cin cache l b) -> p (fresh d cache) = (ls, r, fo') ->
    (Cnd -> ReliableReads T B) -> (Cnd -> lossy = false) -> (Cnd -> NA) -> (Cnd -> PropsProgress.types_good) ->
    (Cnd -> forall i, PropsProgress.good_value config_debug (snd (ev i))) ->
    (Cnd -> rep || is_repair c = false) ->
    (NA -> is_repair c = false -> rep = false) ->
    (NA -> forall n m k t, c = Build (Some n) m k false -> nth_error (d_trees d) n = Some t -> shows_packed t) ->
    (exists cps', Inv lossy (tr ++ [(c, match r with Ok _ => true | _ => false end)]) (add_result d r fo') cps' (rep || is_repair c))
    /\ grows (d_fo d) fo' /\ ((forall b, r <> Ok b) -> verdict NA Cnd r fo').
  Proof.
    intros (X1 & X2 & X3 & X4) Hl Hp Hc E H1 H2 H3 H4 H5 H6 H7 H8.
    set (rep' := rep || is_repair c) in *. set (cs := map fst cps) in *. set (ts := d_trees d) in *.
    assert (Y : ended lossy ts cs rep' (fresh d cache)).
    { apply fresh_ended; auto; [intros l b Hb; now destruct (Hc l b)|]. eapply ended_weaken; [|exact X2]. unfold rep'. now destruct rep. }
    assert (Hrep : rep' = false -> rep = false) by (unfold rep'; now destruct rep).
    assert (X3' : rep' = false -> Forall2 (fun t (c : entries * bool) => snd c = true -> shows_packed t) ts cps) by auto.
    assert (Giv : forall n l, root_of c = Some n -> link_of d n = Some l -> exists t, given ts n t l).
    { intros n l Hn Hk. unfold link_of in Hk. destruct (nth_error (d_trees d) n) as [t|] eqn:Et; [|discriminate]. exists t.
      split; [exact Et|]. split; [exact (Hl _ _ Hn Et)|exact Hk]. }
    assert (Pk : forall n t x, rep' = false -> nth_error ts n = Some t -> nth_error cps n = Some x -> snd x = true -> shows_packed t).
    { intros n t x Hr Et Ex Hx. destruct (Forall2_nth1 _ _ _ _ _ (X3' Hr) Et) as (x' & E1 & Hs). rewrite Ex in E1. injection E1 as <-. auto. }
    (* what is left to show of each command *)
    enough (Q : exists R : Builder -> Forest -> Prop, triple lossy ts cs rep' NA Cnd (ended lossy ts cs rep') p R
      /\ forall b fo, R b fo -> exists e, effect ev cps rep' c e /\ stat lossy ts cs rep' fo b (fst e)
           /\ (rep' = false -> snd e = true -> shows_packed (snapshot b))).
    { destruct Q as (R & Q1 & Q2). destruct (Q1 _ _ _ _ Y E) as (G & K1 & K2). split; [|split; [exact G|]].
      - destruct r as [b|x|x|].
        + destruct (Q2 _ _ (K1 _ eq_refl)) as (e & F1 & F2 & F3). exists (cps ++ [e]). split; [now constructor|]. split.
          * cbn [add_result d_trees d_fo]. rewrite map_app. now apply ended_snap.
          * split; [intros Hr; cbn [add_result d_trees]; apply Forall2_app; [auto|]; constructor; [auto|constructor]|].
            cbn [add_result d_trees]. apply Forall_app. split; [exact X4|]. constructor; [|constructor].
            destruct (stat_inv _ _ _ _ _ _ _ F2) as (set & m & _ & I & _). intros m1 M1 P1. eapply packed_shows; [exact I|].
            now rewrite <- (behind_det _ _ _ _ M1 (binv_behind _ _ _ _ _ _ _ I)).
        + exists cps. split; [now constructor|]. cbn [add_result d_trees d_fo]. rewrite app_nil_r. split; [apply K2; discriminate|]. split; [auto|exact X4].
        + exists cps. split; [now constructor|]. cbn [add_result d_trees d_fo]. rewrite app_nil_r. split; [apply K2; discriminate|]. split; [auto|exact X4].
        + exists cps. split; [now constructor|]. cbn [add_result d_trees d_fo]. rewrite app_nil_r. split; [apply K2; discriminate|]. split; [auto|exact X4].
      - intros N. now apply K2. }
    destruct c as [base m k unb|n|n before|n]; cbn [program] in Hp.
    - assert (HN : NA -> rep' = false) by (intros na; unfold rep'; rewrite (H7 na eq_refl); reflexivity).
      destruct base as [n|].
      + destruct (link_of d n) as [l|] eqn:Ek; [|discriminate]. injection Hp as <-. destruct (Giv n l eq_refl Ek) as (t & Hg).
        assert (Hpk : unb = false -> NA -> shows_packed t).
        { intros -> na. destruct Hg as (Et & _). eapply (H8 na); [reflexivity|exact Et]. }
        eexists. split; [apply (t_build lossy ts cs rep' NA Cnd H1 H2 H3 H4 H5 H6 (Some (n, t, l)) m k unb HN (conj Hg Hpk))|].
        intros b fo (old & F1 & F2 & F3). apply nth_fst in F1 as (pk & F1).
        eexists. split; [exists old, pk; split; [exact F1|reflexivity]|]. split; [exact F2|]. cbn [snd]. intros Hr Hx.
        apply andb_true_iff in Hx as (-> & Hu). apply F3; auto; [now destruct unb|]. eapply Pk; [exact Hr|apply Hg|exact F1|reflexivity].
      + injection Hp as <-.
        eexists. split; [apply (t_build lossy ts cs rep' NA Cnd H1 H2 H3 H4 H5 H6 None m k unb HN Logic.I)|].
        intros b fo (old & F1 & F2 & F3).
        eexists. split; [exists old, true; split; [split; [exact F1|reflexivity]|reflexivity]|]. split; [exact F2|]. cbn [snd]. intros Hr Hx.
        apply F3; auto. now destruct unb.
    - assert (HN : NA -> rep' = false) by (intros na; unfold rep'; rewrite (H7 na eq_refl); reflexivity).
      destruct (link_of d n) as [l|] eqn:Ek; [|discriminate]. injection Hp as <-. destruct (Giv n l eq_refl Ek) as (t & Hg).
      eexists. split; [apply (t_cmd_pack lossy ts cs rep' NA Cnd H1 H2 H3 H4 H6 n t l HN Hg)|].
      intros b fo (old & e & F1 & F2 & F3 & F4 & F5). apply nth_fst in F1 as (pk & F1).
      exists (e, true). split; [exists old, pk, e; auto|]. split; [exact F2|]. auto.
    - destruct (link_of d n) as [l|] eqn:Ek; [|discriminate]. injection Hp as <-. destruct (Giv n l eq_refl Ek) as (t & Hg).
      eexists. split; [apply (t_cmd_forget lossy ts cs rep' NA Cnd H1 H2 H3 H4 H6 n t l before Hg)|].
      intros b fo (old & e & F1 & F2 & F3 & F4). apply nth_fst in F1 as (pk & F1).
      exists (e, pk). split; [exists old, pk, e; auto|]. split; [exact F2|]. cbn [snd]. intros Hr ->. apply F4.
      eapply Pk; [exact Hr|apply Hg|exact F1|reflexivity].
    - destruct (link_of d n) as [l|] eqn:Ek; [|discriminate]. injection Hp as <-. destruct (Giv n l eq_refl Ek) as (t & Hg).
      assert (Hr : rep' = true) by (unfold rep'; cbn; apply orb_true_r).
      eexists. split; [apply (t_cmd_repair lossy ts cs rep' NA Cnd H1 H2 H3 H6 n t l Hr Hg)|].
      intros b fo (old & e & F1 & F2 & F3). apply nth_fst in F1 as (pk & F1).
      exists (e, false). split; [exists old, pk, e; auto|]. split; [exact F2|]. discriminate.
  Qed.

  Lemma session_inv lossy tr d : session ev lossy tr d -> exists cps rep, Inv lossy tr d cps rep.
  Proof.
    induction 1 as [fo Hf1 Hf2 Hf3|tr d c p cache ls r fo' _ (cps & rep & IH) Hl Hp Hc E|tr d st _ (cps & rep & IH) H1 H2|tr d st _ (cps & rep & IH) H1 H2].
    - exists [], false. split; [constructor|]. split; [|split; constructor].
      exists (builder_new config_debug sec), [], (only config_debug).
      split; [split; [exact (only_ok _ debug_ok)|reflexivity]|]. apply abs_start; [exact debug_ok|].
      split; [reflexivity|]. cbn. split; [exact Hf1|]. split; [|exact Hf3]. intros l b H. now destruct (Hf2 l b).
    - destruct (command_ok lossy tr d cps rep c p cache ls r fo' False False IH Hl Hp Hc E) as ((cps' & I) & _); try easy. eauto.
    - exists cps, rep. destruct IH as (X1 & X2 & X3 & X4). split; [exact X1|]. split; [|split; [exact X3|exact X4]].
      eapply (ended_op _ _ _ _ _ (OOthers st (fo_cache (d_fo d)))); [| | |exact X2|].
      + intros b. cbn. auto.
      + exact Logic.I.
      + intros a a' M. exact M.
      + reflexivity.
    - exists cps, rep. destruct IH as (X1 & X2 & X3 & X4). split; [exact X1|]. split; [|split; [exact X3|exact X4]].
      eapply (ended_op _ _ _ _ _ (OLose st)); [| | |exact X2|].
      + intros b. cbn. auto.
      + exact H1.
      + intros a a' M. exact M.
      + reflexivity.
  Qed.

  (** ** Packed trees *)
  Lemma said_packed lossy ts cs rep fo t : ended lossy ts cs rep fo -> In t ts -> sound t -> says_packed fo t true -> shows_packed t.
  Proof.
    intros (b & e & set & Hs & (G & _)) Hin Hsd (fo' & E). destruct G as ((n & I) & _ & Sn). pose proof I as (F & _).
    cbn [at_ sy_fo sy_snaps] in *. pose proof (proj1 (Forall_forall _ _) Sn t Hin) as Ht. cbv beta in Ht.
    destruct t as [[[i sec'] o]|]; [|apply (Hsd None); exact Logic.I].
    destruct Ht as (-> & lim & g & Ht). pose proof (snap_repr _ _ _ _ _ _ _ _ Ht) as R0. pose proof Ht as (Ei & _).
    destruct (is_packed_snap _ _ _ _ _ _ _ _ _ _ _ F Ht E) as (_ & [Ep|(x & Ep)] & _); [|discriminate]. injection Ep as Ep.
    apply (Hsd (Some g)); [cbn; eauto|]. now cbn.
  Qed.

  Lemma shown_packed lossy ts cs rep fo t x : ended lossy ts cs rep fo -> In t ts -> shows_packed t -> says_packed fo t x -> x = true.
  Proof.
    intros (b & e & set & Hs & (G & _)) Hin P (fo' & E). destruct G as ((n & I) & _ & Sn). pose proof I as (F & _).
    cbn [at_ sy_fo sy_snaps] in *. pose proof (proj1 (Forall_forall _ _) Sn t Hin) as Ht. cbv beta in Ht.
    destruct t as [[[i sec'] o]|]; [|cbn in E; congruence].
    destruct Ht as (-> & lim & g & Ht). pose proof (snap_repr _ _ _ _ _ _ _ _ Ht) as R0. pose proof Ht as (Ei & _).
    destruct (is_packed_snap _ _ _ _ _ _ _ _ _ _ _ F Ht E) as (_ & [Ep|(y & Ep)] & _); [|discriminate]. injection Ep as ->.
    apply (P (Some g) (Some g)); [|apply relabel_refl]. cbn. eauto.
  Qed.

  Lemma explained_rep tr cps rep : explained ev tr cps rep -> rep = existsb (fun x => is_repair (fst x)) tr.
  Proof.
    induction 1; [reflexivity| |]; rewrite existsb_app; cbn; now rewrite orb_false_r, <- IHexplained.
  Qed.
End Proofs.

(** * C92 *)
Section Theorems.
  Context {T : Types} {TL : TypesLaws T} {X : Ext} {XL : ExtLaws X}
          {B : Backend T} {BL : BackendLaws T B}.
  Notation entries := (list (option (K * V))).
  Variable ev : nat -> K * V.

  Definition repaired (tr : list (command * bool)) : bool := existsb (fun x => is_repair (fst x)) tr.

  (** A later process, with a cache that holds no more than this one. *)
  Definition cache_in (cache : Cache) (d : desk) : Prop := forall l b, cin cache l b -> cin (fo_cache (d_fo d)) l b.

  (** At the end of every session the trees are those that the commands explain:
      no read of any of them gives anything else. Trees that are said to be packed
      are, if no tree was repaired. *)
  Theorem C92_contents lossy tr d : session ev lossy tr d -> exists cs,
    explained ev tr cs (repaired tr)
    /\ forall cache, cache_in cache d ->
       Forall2 (fun t (c : entries * bool) => answers (fresh d cache) t (fst c)
                  /\ (repaired tr = false -> snd c = true -> forall x, says_packed (fresh d cache) t x -> x = true)) (d_trees d) cs.
  Proof.
    intros S. destruct (session_inv ev _ _ _ S) as (cps & rep & X1 & X2 & X3 & _). pose proof (explained_rep ev _ _ _ X1) as Er.
    fold (repaired tr) in Er. rewrite Er in X1, X2, X3. clear Er. exists cps. split; [exact X1|]. intros cache Hc.
    apply (fresh_ended _ _ _ _ d cache Hc eq_refl) in X2.
    assert (A : Forall2 (fun t c => answers (fresh d cache) t c) (d_trees d) (map fst cps)).
    { destruct X2 as (b & e & set & Hs & A). apply abs_agrees in A. apply A. }
    assert (P : repaired tr = false -> forall t, In t (d_trees d) -> shows_packed t -> forall x, says_packed (fresh d cache) t x -> x = true).
    { intros _ t Hin Hp x. exact (shown_packed _ _ _ _ _ _ _ X2 Hin Hp). } clear X1 X2 S.
    revert X3 A P. generalize (d_trees d) (repaired tr). clear -TL XL BL. intros ts rep X3 A. revert X3.
    remember (map fst cps) as cs eqn:Ec. revert cps Ec. induction A as [|t c ts cs H A IH]; intros [|[c0 p0] cps] Ec X3 P; try discriminate; constructor.
    - injection Ec as -> ->. split; [exact H|]. intros Hr Hp. apply (P Hr t); [now left|]. specialize (X3 Hr). inversion X3; subst. auto.
    - injection Ec as -> ->. apply IH; auto; [|intros Hr t' Hin; apply (P Hr t'); now right]. intros Hr. specialize (X3 Hr). now inversion X3.
  Qed.

  (** While nothing is lost, all reads succeed. *)
  Theorem C92_contents_total tr d : ReliableReads T B -> session ev false tr d -> small_branches (d_fo d) -> exists cs,
    explained ev tr cs (repaired tr)
    /\ forall cache, cache_in cache d -> Forall2 (fun t (c : entries * bool) => answers_all (fresh d cache) t (fst c)) (d_trees d) cs.
  Proof.
    intros RR S Hs. destruct (session_inv ev _ _ _ S) as (cps & rep & X1 & X2 & X3 & _). pose proof (explained_rep ev _ _ _ X1) as Er.
    fold (repaired tr) in Er. rewrite Er in X1, X2. clear Er X3. exists cps. split; [exact X1|]. intros cache Hc.
    apply (fresh_ended _ _ _ _ d cache Hc eq_refl) in X2.
    assert (A : Forall2 (fun t c => answers_all (fresh d cache) t c) (d_trees d) (map fst cps)).
    { destruct X2 as (b & e & set & _ & A). apply abs_agrees_all in A; [apply A; exact Hs|exact RR|reflexivity]. }
    clear -A. remember (map fst cps) as cs eqn:Ec. revert cps Ec. induction A; intros [|c0 cps] Ec; try discriminate; constructor.
    - injection Ec as -> ->. auto.
    - injection Ec as -> ->. auto.
  Qed.

  (** Balanced building continues a tree only if it is packed. *)
  Definition base_packed (d : desk) (cache : Cache) (c : command) : Prop :=
    forall n m k t, c = Build (Some n) m k false -> nth_error (d_trees d) n = Some t -> says_packed (fresh d cache) t true.

  (** No command trips an assertion of the library or of the program, whatever is
      lost, if no tree was repaired; repair itself never does. *)
  Theorem C92_no_assert_partial lossy tr d c p cache ls r fo' :
    session ev lossy tr d -> loadable d c -> program ev d c = Some p -> (forall l b, ~ cin cache l b) -> p (fresh d cache) = (ls, r, fo') ->
    is_repair c = true \/ (repaired tr = false /\ base_packed d cache c) -> no_assert r.
  Proof.
    intros S Hl Hp Hc E H. destruct (session_inv ev _ _ _ S) as (cps & rep & Iv). pose proof Iv as (X1 & X2 & _ & X4).
    apply explained_rep in X1 as Er. fold (repaired tr) in Er.
    destruct (command_ok ev lossy tr d cps rep c p cache ls r fo' True False Iv Hl Hp Hc E) as (_ & _ & V); try easy.
    - intros _ Hc0. destruct H as [H|[H _]]; [congruence|]. congruence.
    - intros _ n m k t -> Et. destruct H as [H|[_ H]]; [discriminate|].
      assert (X2' : ended lossy (d_trees d) (map fst cps) rep (fresh d cache)) by (apply fresh_ended; auto; intros l b Hb; now destruct (Hc l b)).
      pose proof (nth_error_Forall _ _ _ _ X4 Et) as Hsd. eapply said_packed; [exact X2'|eapply nth_error_In; exact Et|exact Hsd|]. eapply H; [reflexivity|exact Et].
    - destruct r; cbn; auto; apply V; easy.
  Qed.

  (** And it succeeds, unless the store refuses a block or a number overflows. *)
  Theorem C92_done_partial tr d c p cache ls r fo' :
    ReliableReads T B -> PropsProgress.types_good -> (forall i, PropsProgress.good_value config_debug (snd (ev i))) ->
    session ev false tr d -> loadable d c -> program ev d c = Some p -> (forall l b, ~ cin cache l b) -> p (fresh d cache) = (ls, r, fo') ->
    repaired tr = false -> is_repair c = false -> base_packed d cache c -> small_branches fo' ->
    (exists b, r = Ok b) \/ (r = Err EStoreFull /\ PropsProgress.refuses B) \/ r = Panic POverflow.
  Proof.
    intros RR TG GV S Hl Hp Hc E H1 H2 H3 Hs. destruct (session_inv ev _ _ _ S) as (cps & rep & Iv). pose proof Iv as (X1 & X2 & _ & X4).
    apply explained_rep in X1 as Er. fold (repaired tr) in Er.
    destruct (command_ok ev false tr d cps rep c p cache ls r fo' True True Iv Hl Hp Hc E) as (_ & _ & V); try easy.
    - intros _. now rewrite Er, H1, H2.
    - intros _ _. congruence.
    - intros _ n m k t -> Et.
      assert (X2' : ended false (d_trees d) (map fst cps) rep (fresh d cache)) by (apply fresh_ended; auto; intros l b Hb; now destruct (Hc l b)).
      pose proof (nth_error_Forall _ _ _ _ X4 Et) as Hsd. eapply said_packed; [exact X2'|eapply nth_error_In; exact Et|exact Hsd|]. eapply H3; [reflexivity|exact Et].
    - destruct r; eauto; right; apply V; easy.
  Qed.
End Theorems.

(** * A session *)
Definition cev (i : nat) : @K ITypes * @V ITypes := (N.of_nat i, N.of_nat i).
Definition desk0 : @desk ITypes IBackend := {| d_fo := sy_fo (efresh 1000000); d_trees := [] |}.
Definition cache0 : @Cache ITypes IBackend := fo_cache (d_fo desk0).
Definition loadableb (d : @desk ITypes IBackend) (c : command) : bool :=
  match root_of c with
  | None => true
  | Some n => match nth_error (d_trees d) n with Some (Some (ILeaf _, _, _)) => false | _ => true end
  end.
Definition play1 (d : desk) (c : command) : option (bool * desk) :=
  if loadableb d c then
    option_map (fun p => let '(_, r, fo) := p (fresh d cache0) in (match r with Ok _ => true | _ => false end, add_result d r fo))
      (program cev d c)
  else None.
Fixpoint play (d : desk) (cs : list command) : option (list (command * bool) * desk) :=
  match cs with
  | [] => Some ([], d)
  | c :: cs => obind (play1 d c) (fun x => option_map (fun y => ((c, fst x) :: fst y, snd y)) (play (snd x) cs))
  end.

Lemma play_session cs : forall d tr tr' d', session cev false tr d -> play d cs = Some (tr', d') -> session cev false (tr ++ tr') d'.
Proof.
  induction cs as [|c cs IH]; intros d tr tr' d' S E; cbn [play] in E.
  - injection E as <- <-. now rewrite app_nil_r.
  - destruct (play1 d c) as [[ok d1]|] eqn:E1; [|discriminate]. cbn [obind fst snd] in E.
    destruct (play d1 cs) as [[tr2 d2]|] eqn:E2; [|discriminate]. injection E as <- <-.
    change ((c, ok) :: tr2) with ([(c, ok)] ++ tr2). rewrite app_assoc. apply (IH d1); [|exact E2].
    unfold play1 in E1. destruct (loadableb d c) eqn:El; [|discriminate]. destruct (program cev d c) as [p|] eqn:Ep; [|discriminate].
    cbn [option_map] in E1. destruct (p (fresh d cache0)) as [[ls r] fo] eqn:Er. injection E1 as <- <-.
    eapply session_command; [exact S| |exact Ep| |exact Er].
    + intros n t Hn Ht. unfold loadableb in El. rewrite Hn, Ht in El. destruct t as [[[[] ?] ?]|]; cbn; auto. discriminate.
    + intros l b H. exact H.
Qed.
Lemma desk0_session : session cev false [] desk0.
Proof. apply session_new; [intros l d H; discriminate|intros l b H; exact H|reflexivity]. Qed.

Lemma played cs (P : list (command * bool) -> @desk ITypes IBackend -> Prop) :
  match play desk0 cs with Some (tr, d) => P tr d | None => False end ->
  exists tr d, play desk0 cs = Some (tr, d) /\ session cev false tr d /\ P tr d.
Proof.
  destruct (play desk0 cs) as [[tr d]|] eqn:E; [|easy]. intros H. exists tr, d. split; [reflexivity|].
  split; [exact (play_session _ _ _ _ _ desk0_session E)|exact H].
Qed.
Lemma loadable_b d c : loadableb d c = true -> loadable d c.
Proof.
  intros P n t Hn Ht. unfold loadableb in P. rewrite Hn, Ht in P. destruct t as [[[[] ?] ?]|]; cbn; auto. discriminate.
Qed.

(** Build a tree in two batches, unbalanced; pack it; forget the first twelve
    entries; continue the packed tree; repair. All succeed, and the trees have
    the given entries and are packed as given. *)
Definition script : list command :=
  [Build None 2 12 true; Pack 0; Forget 1 12; Build (Some 1) 1 5 false; Repair 2].
Definition shape (d : desk) (t : @Tree ITypes) : option (list (option N)) * option bool :=
  (match fst (collect (d_fo d) t) with Ok l => Some (keys_of l) | _ => None end,
   match fst (is_packed (d_fo d) t) with Ok x => Some x | _ => None end).
Example C92_case : exists tr d, play desk0 script = Some (tr, d) /\ session cev false tr d
  /\ map snd tr = [true; true; true; true; true]
  /\ map (shape d) (d_trees d) =
     let all := map (fun i => Some (N.of_nat i)) (seq 0 24) in
     [(Some all, Some false); (Some all, Some true);
      (Some (repeat None 10 ++ skipn 10 all), Some true);
      (Some (all ++ firstn 5 all), Some true);
      (Some (repeat None 10 ++ skipn 10 all), Some true)].
Proof.
  apply (played script (fun tr d => map snd tr = [true; true; true; true; true] /\ map (shape d) (d_trees d) = _)).
  vm_compute. split; reflexivity.
Qed.

(** [build --base] of a tree that was built unbalanced may panic: 11 entries,
    then 45 on top of them unbalanced, then one more. *)
Definition script2 : list command := [Build None 1 11 false; Build (Some 0) 1 45 true].
Theorem C92_base_refuted : exists tr d p, session cev false tr d /\ repaired tr = false
  /\ loadable d (Build (Some 1) 1 1 false) /\ program cev d (Build (Some 1) 1 1 false) = Some p
  /\ asserts (snd (fst (p (fresh d cache0)))) = true.
Proof.
  destruct (played script2 (fun tr d => repaired tr = false
      /\ loadableb d (Build (Some 1) 1 1 false) = true
      /\ match program cev d (Build (Some 1) 1 1 false) with Some p => asserts (snd (fst (p (fresh d cache0)))) = true | None => False end))
    as (tr & d & _ & S & P1 & P2 & P3).
  { vm_compute. auto. }
  exists tr, d. destruct (program cev d _) as [p|] eqn:Ep; [|easy]. exists p.
  split; [exact S|]. split; [exact P1|]. split; [now apply loadable_b|auto].
Qed.

(** The hypotheses of the other theorems are met by the next command of the first
    session, up to the repair. *)
Example C92_case_next : exists tr d p ls r fo', play desk0 (firstn 4 script) = Some (tr, d)
  /\ session cev false tr d /\ loadable d (Build (Some 1) 3 7 false)
  /\ program cev d (Build (Some 1) 3 7 false) = Some p /\ p (fresh d cache0) = (ls, r, fo')
  /\ repaired tr = false /\ base_packed d cache0 (Build (Some 1) 3 7 false)
  /\ (forall i, PropsProgress.good_value config_debug (snd (cev i))) /\ small_branches fo' /\ (exists b, r = Ok b).
Proof.
  destruct (played (firstn 4 script) (fun tr d =>
      repaired tr = false /\ loadableb d (Build (Some 1) 3 7 false) = true
      /\ match nth_error (d_trees d) 1 with Some t => fst (is_packed (fresh d cache0) t) = Ok true | None => False end
      /\ match program cev d (Build (Some 1) 3 7 false) with
         | Some p => match p (fresh d cache0) with (ls, r, fo) => smallb fo = true /\ match r with Ok _ => True | _ => False end end
         | None => False end)) as (tr & d & E & S & P1 & P2 & P3 & P4).
  { vm_compute. auto. }
  exists tr, d. destruct (program cev d _) as [p|] eqn:Ep; [|easy]. exists p.
  destruct (p (fresh d cache0)) as [[ls r] fo'] eqn:Er. exists ls, r, fo'. destruct P4 as (P4 & P5).
  split; [exact E|]. split; [exact S|]. split; [now apply loadable_b|].
  split; [reflexivity|]. split; [reflexivity|]. split; [exact P1|]. split; [|split; [|split]].
  - intros n m k t [= <- <- <-] Ht. rewrite Ht in P3. apply packed_c. exact P3.
  - intros i. split; [|intros b Hb; now apply PropsProgress.part_atom in Hb]. cbn. unfold enc_head.
    repeat match goal with |- context [if ?b then _ else _] => destruct b end; vm_compute; discriminate.
  - now apply smallb_ok.
  - destruct r as [b| | |]; [exists b; reflexivity|destruct P5..].
Qed.

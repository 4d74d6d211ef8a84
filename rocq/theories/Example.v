(** Concrete histories, on the instance of Instance.v. The theorems' examples
    use them to show that the hypotheses can be met. *)
From Coq Require Import List NArith ZArith Lia Bool String.
From Coq Require Import Strings.Byte.
From Verif Require Import Base BaseProofs Cbor Types Seq SeqProofs Query QuerySpec World Read Write Api Iter History Spec Instance.
Import ListNotations.

(** At most two keys per leaf, two leaves per branch, two branches per branch. *)
Definition ecfg : Config :=
  {| target_leaf_size := 1000; max_leaf_count := 2; max_key_branches := 2; max_summary_branches := 2;
     zstd_level := 10; max_uncompressed_leaf_size := 1000 |}%N.
Definition esec : Secrets := {| index_key := [x01]; value_key := [x02; x03] |}.

(** A store that takes [n] bytes. *)
Definition efresh (n : N) : sys :=
  {| sy_fo := {| fo_store := ((n, []) : @Store ITypes IBackend); fo_cache := ([] : @Cache ITypes IBackend); fo_log := [] |};
     sy_se := {| se_b := builder_new ecfg esec; se_saved := [] |};
     sy_snaps := [] |}.
Definition estart : sys := efresh 1000000.

Definition op_inb (k : kind) (o : @op ITypes IBackend) : bool :=
  match o with
  | OLose _ => k_lose k
  | ORepair => k_repair k
  | OReload _ => k_reload k
  | _ => true
  end.
Definition op_okb (o : @op ITypes IBackend) (s : @sys ITypes IBackend) : bool :=
  match o with
  | OLose st => forallb (fun b => existsb (bytes_eqb b) (snd (fo_store (sy_fo s)))) (snd st)
  | OEvict c => match c with [] => true | _ => false end
  | OOthers st c =>
      forallb (fun b => existsb (bytes_eqb b) (snd st)) (snd (fo_store (sy_fo s)))
      && match c with [] => true | _ => false end
  | OReload n | OLoad n =>
      match nth_error (sy_snaps s) n with
      | Some (Some (ILeaf _, _, _)) => false
      | _ => true
      end
  | _ => true
  end.

Fixpoint run_ops (k : kind) (ops : list op) (s : sys) : option sys :=
  match ops with
  | [] => Some s
  | o :: ops' => if op_inb k o && op_okb o s then run_ops k ops' (snd (exec o s)) else None
  end.

Lemma op_inb_in k o : op_inb k o = true -> op_in k o.
Proof. destruct o; cbn; auto. Qed.
Lemma op_okb_ok o s : op_okb o s = true -> op_ok o s.
Proof.
  destruct o; cbn [op_okb op_ok]; auto.
  - intros H t E. rewrite E in H. now destruct t as [[[[] ?] ?]|].
  - intros H t E. rewrite E in H. now destruct t as [[[[] ?] ?]|].
  - intros H l d. cbn. destruct (existsb (bytes_eqb l) (snd s0)) eqn:E; [|discriminate]. intros [= <-].
    apply existsb_exists in E as (b & E1 & E2). apply bytes_eqb_eq in E2 as <-.
    rewrite forallb_forall in H. now rewrite H.
  - destruct c; [|discriminate]. intros _ l b [].
  - rewrite andb_true_iff. intros [H Hc]. destruct c; [|discriminate]. splits; [| |intros l b []].
    + intros l d. cbn. destruct (existsb (bytes_eqb l) (snd (fo_store (sy_fo s)))) eqn:E; [|discriminate]. intros [= <-].
      apply existsb_exists in E as (b & E1 & E2). apply bytes_eqb_eq in E2 as <-.
      rewrite forallb_forall in H. now rewrite H.
    + intros l d. cbn. destruct (existsb (bytes_eqb l) (snd s0)) eqn:E; [|discriminate]. now intros [= <-].
Qed.

Lemma efresh_start n : start ecfg esec (efresh n).
Proof. splits; try easy. Qed.

Lemma run_ops_hist k s0 ops : forall s s', hist k s0 s -> run_ops k ops s = Some s' -> hist k s0 s'.
Proof.
  induction ops as [|o ops IH]; cbn [run_ops]; intros s s' H E; [congruence|].
  destruct (op_inb k o && op_okb o s) eqn:Eb; [|discriminate]. apply andb_prop in Eb as [E1 E2].
  destruct (exec o s) as [r s1] eqn:Ex. eapply IH; [|exact E].
  eapply hist_step; [exact H|exact (op_okb_ok _ _ E2)|exact (op_inb_in _ _ E1)|exact Ex].
Qed.

Lemma run_ops_reach k n ops s : run_ops k ops (efresh n) = Some s -> reach k ecfg esec s.
Proof. intros E. exists (efresh n). split; [apply efresh_start|]. eapply run_ops_hist; [constructor|exact E]. Qed.

Definition state (k : kind) (n : N) (ops : list op) : sys :=
  match run_ops k ops (efresh n) with Some s => s | None => efresh n end.

Definition runs (k : kind) (n : N) (ops : list op) : bool :=
  match run_ops k ops (efresh n) with Some _ => true | None => false end.

Lemma state_reach k n ops : runs k n ops = true -> reach k ecfg esec (state k n ops).
Proof.
  unfold runs, state. destruct (run_ops k ops (efresh n)) as [s|] eqn:E; [|discriminate]. intros _.
  eapply run_ops_reach; eauto.
Qed.

Ltac reached := apply state_reach; vm_compute; reflexivity.

Definition pairs (a n : nat) : list (N * N) := map (fun i => (N.of_nat i, N.of_nat (100 + i))) (seq a n).

(** Eleven entries, appended in both ways, in several sittings. *)
Definition ops1 : list (@op ITypes IBackend) :=
  [OExtend (pairs 0 5); OSnapshot; OExtend (pairs 5 1); OExtendUnpacked (pairs 6 3); OSnapshot; OExtendUnpacked (pairs 9 2)].
Definition st1 : sys := state anything 1000000 ops1.

Lemma st1_ok : reach anything ecfg esec st1.
Proof. reached. Qed.

(** A packed tree of twelve entries, built by two calls of [extend] around
    [extend_unpacked] and [pack]. *)
Definition ops2 : list (@op ITypes IBackend) :=
  [OExtend (pairs 0 5); OSnapshot; OExtendUnpacked (pairs 5 4); OPack; OSnapshot; OExtend (pairs 9 3)].
Definition st2 : sys := state no_loss 1000000 ops2.
(** The unpacked tree of [st1], in a history without losses. *)
Definition st3 : sys := state no_loss 1000000 ops1.
(** Packed as [st2], in a store that has room for very little more. *)
Definition st4 : sys := state no_loss 9000 ops2.

Lemma st2_ok : reach no_loss ecfg esec st2. Proof. reached. Qed.
Lemma st3_ok : reach no_loss ecfg esec st3. Proof. reached. Qed.
Lemma st4_ok : reach no_loss ecfg esec st4. Proof. reached. Qed.
Lemma ecfg_ok : config_ok ecfg.
Proof. repeat split; cbv; congruence || lia. Qed.

(** Histories without losses are histories. *)
Lemma hist_kind k k' s0 s : (forall o : @op ITypes IBackend, op_in k o -> op_in k' o) -> hist k s0 s -> hist k' s0 s.
Proof. intros H. induction 1; [constructor|eapply hist_step; eauto]. Qed.
Lemma reach_kind k k' s : (forall o : @op ITypes IBackend, op_in k o -> op_in k' o) ->
  reach k ecfg esec s -> reach k' ecfg esec s.
Proof. intros H (s0 & S & R). exists s0. split; [exact S|]. eapply hist_kind; eauto. Qed.
Lemma no_loss_any s : reach no_loss ecfg esec s -> reach anything ecfg esec s.
Proof. apply reach_kind. intros []; cbn; easy. Qed.
Lemma no_loss_no_repair s : reach no_loss ecfg esec s -> reach no_repair ecfg esec s.
Proof. apply reach_kind. intros []; cbn; easy. Qed.

Definition smallb (fo : @Forest ITypes IBackend) : bool :=
  forallb (fun e => ev_leaf e || (Nlen (ev_raw e) <=? max_capacity)%N) (fo_log fo).
Lemma smallb_ok fo : smallb fo = true -> small_branches fo.
Proof.
  unfold smallb, small_branches. rewrite forallb_forall, Forall_forall. intros H e He.
  apply H, orb_prop in He as [He|He]; [now left|right]. now apply N.leb_le.
Qed.

(** Reading results by computation. *)
Lemma reads_c (fo : @Forest ITypes IBackend) t c : fst (collect fo t) = Ok c -> reads fo t c.
Proof. unfold reads. destruct (collect fo t) as [r fo']. cbn. intros ->. eauto. Qed.
Lemma gets_c (fo : @Forest ITypes IBackend) t i v : fst (get fo t i) = Ok v -> gets fo t i v.
Proof. unfold gets. destruct (get fo t i) as [r fo']. cbn. intros ->. eauto. Qed.
Lemma packed_c (fo : @Forest ITypes IBackend) t x : fst (is_packed fo t) = Ok x -> says_packed fo t x.
Proof. unfold says_packed. destruct (is_packed fo t) as [r fo']. cbn. intros ->. eauto. Qed.

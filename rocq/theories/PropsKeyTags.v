(** C50 - C52: keys with time range and tags, and queries for them. *)
From Coq Require Import List NArith Arith Lia Bool String Sorted.
From Coq Require Import Strings.Byte.
From Verif Require Import Base BaseProofs Types Tags TagProofs PropsTags.
Import ListNotations.
Open Scope list_scope.

(** * Specification *)

(** Every key has a sorted set of tags ([VecSet]), and there are at most 2^32
    different tags. *)
Definition keys_ok (ks : list key) : Prop :=
  Forall (fun k => vs_ok (k_tags k)) ks /\ few_tags (map k_tags ks).

(** [m] stands for [k]: its time range and tags include those of [k]. *)
Definition covers (m k : key) : Prop :=
  (t_lamport (k_time m) <= t_lamport (k_time k))%N
  /\ (t_min (k_time m) <= t_min (k_time k))%N /\ (t_max (k_time k) <= t_max (k_time m))%N
  /\ incl (k_tags k) (k_tags m).

(** [m] is the least such key for all of [ks]. *)
Definition least (m : key) (ks : list key) : Prop :=
  (exists k, In k ks /\ t_lamport (k_time k) = t_lamport (k_time m))
  /\ (exists k, In k ks /\ t_min (k_time k) = t_min (k_time m))
  /\ (exists k, In k ks /\ t_max (k_time k) = t_max (k_time m))
  /\ (forall t, In t (k_tags m) -> exists k, In k ks /\ In t (k_tags k)).

(** A query accepts a key if one of its own keys contains it. *)
Definition accepts (q : list key) (k : key) : Prop :=
  exists x, In x q /\ (t_min (k_time x) <= t_min (k_time k))%N
    /\ (t_max (k_time k) <= t_max (k_time x))%N /\ incl (k_tags k) (k_tags x).

(** [m] is a summary of the keys [ks], obtained by summarizing a sequence of keys
    or a sequence of summaries. *)
Inductive summary_of : key -> list key -> Prop :=
| so_leaf ks s m : ks <> [] -> kseq_from ks = Ok s -> kseq_summarize s = Ok m -> summary_of m ks
| so_branch ms kss s m : ms <> [] -> summaries_of ms kss ->
    kseq_from ms = Ok s -> kseq_summarize s = Ok m -> summary_of m (List.concat kss)
with summaries_of : list key -> list (list key) -> Prop :=
| so_nil : summaries_of [] []
| so_cons m ks ms kss : summary_of m ks -> summaries_of ms kss -> summaries_of (m :: ms) (ks :: kss).

Scheme summary_min := Minimality for summary_of Sort Prop
  with summaries_min := Minimality for summaries_of Sort Prop.

(** * C52 *)

Lemma kseq_from_eq ks : exists s, kseq_from ks = Ok s
  /\ s = {| ks_lamport := map (fun k => t_lamport (k_time k)) ks;
            ks_min := map (fun k => t_min (k_time k)) ks;
            ks_max := map (fun k => t_max (k_time k)) ks;
            ks_tags := {| ti_tags := all_tags (map k_tags ks);
                          ti_elements := map (iset (all_tags (map k_tags ks))) (map k_tags ks) |} |}.
Proof. unfold kseq_from. rewrite from_eq. cbn. eauto. Qed.

(** A key sequence is built without panic and returns the keys it was built from. *)
Theorem C52_get ks :
  keys_ok ks -> exists s, kseq_from ks = Ok s /\ kseq_len s = List.length ks
  /\ forall i, kseq_get s i = Ok (nth_error ks i).
Proof.
  intros (K & F). destruct (C46_get (map k_tags ks)) as (ti & E & _ & G).
  { apply Forall_forall. intros x I. apply in_map_iff in I. destruct I as (k & <- & I).
    now apply (proj1 (Forall_forall _ _) K). }
  { exact F. }
  unfold kseq_from. rewrite E. cbn [rbind]. eexists. split; [reflexivity|]. split.
  - unfold kseq_len. cbn. rewrite from_eq in E. injection E as <-. cbn. now rewrite !map_length.
  - intros i. unfold kseq_get. cbn [ks_tags ks_lamport ks_min ks_max]. rewrite G. cbn [rbind].
    rewrite !nth_error_map. destruct (nth_error ks i) as [[[l a b] ts]|]; reflexivity.
Qed.

Lemma fold_max l : forall a, (a <= fold_left N.max l a)%N /\ (forall x, In x l -> (x <= fold_left N.max l a)%N)
  /\ (fold_left N.max l a = a \/ In (fold_left N.max l a) l).
Proof.
  induction l as [|y l IH]; cbn; intros a; [splits; [lia|easy|auto]|].
  destruct (IH (N.max a y)) as (A & B & C). splits.
  - lia.
  - intros x [<-|I]; [lia|auto].
  - destruct C as [C|C]; [|auto]. rewrite C. destruct (N.max_spec a y) as [(_ & ->)|(_ & ->)]; auto.
Qed.
Lemma fold_min l : forall a, (fold_left N.min l a <= a)%N /\ (forall x, In x l -> (fold_left N.min l a <= x)%N)
  /\ (fold_left N.min l a = a \/ In (fold_left N.min l a) l).
Proof.
  induction l as [|y l IH]; cbn; intros a; [splits; [lia|easy|auto]|].
  destruct (IH (N.min a y)) as (A & B & C). splits.
  - lia.
  - intros x [<-|I]; [lia|auto].
  - destruct C as [C|C]; [|auto]. rewrite C. destruct (N.min_spec a y) as [(_ & ->)|(_ & ->)]; auto.
Qed.
Lemma list_max_spec l m : list_max l = Ok m -> In m l /\ forall x, In x l -> (x <= m)%N.
Proof.
  unfold list_max. destruct l as [|a l]; [discriminate|]. cbn. intros E. injection E as <-.
  destruct (fold_max l a) as (A & B & C). split; [intuition|]. intros x [<-|I]; auto.
Qed.
Lemma list_min_spec l m : list_min l = Ok m -> In m l /\ forall x, In x l -> (m <= x)%N.
Proof.
  unfold list_min. destruct l as [|a l]; [discriminate|]. cbn. intros E. injection E as <-.
  destruct (fold_min l a) as (A & B & C). split; [intuition|]. intros x [<-|I]; auto.
Qed.

Lemma summarize_spec ks s m : kseq_from ks = Ok s -> kseq_summarize s = Ok m ->
  (forall k, In k ks -> covers m k) /\ least m ks.
Proof.
  destruct (kseq_from_eq ks) as (s' & E & ->). rewrite E. intros X. injection X as <-.
  unfold kseq_summarize. cbn [ks_lamport ks_min ks_max ks_tags ti_tags].
  destruct (list_max _) as [mx| | |] eqn:Ex; cbn [rbind]; try discriminate.
  destruct (list_min (map (fun k => t_min (k_time k)) ks)) as [mn| | |] eqn:En; cbn [rbind]; try discriminate.
  destruct (list_min (map (fun k => t_lamport (k_time k)) ks)) as [lm| | |] eqn:El; cbn [rbind]; try discriminate.
  intros X. injection X as <-.
  apply list_max_spec in Ex. apply list_min_spec in En. apply list_min_spec in El.
  destruct Ex as (Ix & Ex), En as (In_ & En), El as (Il & El).
  apply in_map_iff in Ix, In_, Il. split.
  - intros k I. unfold covers; cbn. splits.
    + apply El. now apply (in_map (fun k => t_lamport (k_time k))).
    + apply En. now apply (in_map (fun k => t_min (k_time k))).
    + apply Ex. now apply (in_map (fun k => t_max (k_time k))).
    + intros t T. apply all_tags_in. exists (k_tags k). split; [now apply in_map|assumption].
  - unfold least; cbn. splits.
    + destruct Il as (k & A & B). eauto.
    + destruct In_ as (k & A & B). eauto.
    + destruct Ix as (k & A & B). eauto.
    + intros t T. apply all_tags_in in T. destruct T as (x & X & T). apply in_map_iff in X.
      destruct X as (k & <- & X). eauto.
Qed.

(** Every non-empty sequence has a summary. *)
Theorem C52_summarize ks s :
  kseq_from ks = Ok s -> (ks <> [] <-> exists m, kseq_summarize s = Ok m).
Proof.
  destruct (kseq_from_eq ks) as (s' & E & ->). rewrite E. intros X. injection X as <-.
  unfold kseq_summarize. cbn. destruct ks as [|k ks]; cbn.
  - split; [contradiction|]. intros (m & X). discriminate.
  - split; [eauto|discriminate].
Qed.

Lemma covers_trans a b c : covers a b -> covers b c -> covers a c.
Proof.
  intros (A1 & A2 & A3 & A4) (B1 & B2 & B3 & B4). unfold covers. splits; try lia.
  eapply incl_tran; eassumption.
Qed.

(** Through any number of levels, the summary of keys covers all of them, and
    nothing more than needed. *)
Theorem C52_covers m ks : summary_of m ks -> (forall k, In k ks -> covers m k) /\ least m ks.
Proof.
  revert m ks. apply (summary_min (fun m ks => (forall k, In k ks -> covers m k) /\ least m ks)
    (fun ms kss => Forall2 (fun m ks => (forall k, In k ks -> covers m k) /\ least m ks) ms kss)).
  - intros ks s m _. apply summarize_spec.
  - intros ms kss s m _ _ IH E S. destruct (summarize_spec _ _ _ E S) as (C & L).
    assert (UP : forall x, In x ms -> exists ks, In ks kss /\ (forall k, In k ks -> covers x k) /\ least x ks).
    { clear -IH. induction IH as [|m ks ms kss H _ IH]; [easy|]. intros x [<-|I]; [exists ks; cbn; auto|].
      destruct (IH x I) as (l & A & B). exists l. cbn. auto. }
    assert (DOWN : forall ks, In ks kss -> exists x, In x ms /\ (forall k, In k ks -> covers x k) /\ least x ks).
    { clear -IH. induction IH as [|m ks ms kss H _ IH]; [easy|]. intros x [<-|I]; [exists m; cbn; auto|].
      destruct (IH x I) as (l & A & B). exists l. cbn. auto. }
    split.
    + intros k I. apply in_concat in I. destruct I as (ks & I & J). destruct (DOWN _ I) as (x & X & Y & _).
      apply covers_trans with x; auto.
    + destruct L as ((k1 & I1 & L1) & (k2 & I2 & L2) & (k3 & I3 & L3) & L4). unfold least. splits.
      * destruct (UP _ I1) as (ks & A & _ & ((k & I & E1) & _)). exists k.
        split; [apply in_concat; eauto|congruence].
      * destruct (UP _ I2) as (ks & A & _ & (_ & (k & I & E1) & _)). exists k.
        split; [apply in_concat; eauto|congruence].
      * destruct (UP _ I3) as (ks & A & _ & (_ & _ & (k & I & E1) & _)). exists k.
        split; [apply in_concat; eauto|congruence].
      * intros t T. destruct (L4 t T) as (x & I & T'). destruct (UP _ I) as (ks & A & _ & (_ & _ & _ & G)).
        destruct (G t T') as (k & K & T2). exists k. split; [apply in_concat; eauto|assumption].
  - constructor.
  - intros m ks ms kss _ H _ F. constructor; assumption.
Qed.

Definition k1 := k_single 5 100 [ta; tb].
Definition k2 := k_single 7 90 [].
Definition k3 := k_single 9 200 [tc].

Lemma few_small xs : (Nlen (List.concat xs) <= two32)%N -> few_tags xs.
Proof.
  intros Z ts N H. assert (I : incl ts (List.concat xs)).
  { intros t T. destruct (H t T) as (x & A & B). apply in_concat. eauto. }
  apply NoDup_incl_length in I; [|assumption]. unfold Nlen in *. lia.
Qed.


Example C52_case :
  keys_ok [k1; k2; k3]
  /\ exists m, summary_of m [k1; k2; k3] /\ t_min (k_time m) = 90%N /\ t_max (k_time m) = 200%N
       /\ t_lamport (k_time m) = 5%N /\ k_tags m = [ta; tb; tc].
Proof.
  split.
  - split; [repeat constructor|]. apply few_small. vm_compute. discriminate.
  - exists {| k_time := {| t_lamport := 5; t_min := 90; t_max := 200 |}; k_tags := [ta; tb; tc] |}.
    split; [|splits; reflexivity].
    change [k1; k2; k3] with (List.concat [[k1; k2]; [k3]]).
    eapply so_branch with
      (ms := [{| k_time := {| t_lamport := 5; t_min := 90; t_max := 100 |}; k_tags := [ta; tb] |}; k3]).
    + discriminate.
    + constructor; [|constructor; [|constructor]];
        (eapply so_leaf; [discriminate|vm_compute; reflexivity|vm_compute; reflexivity]).
    + vm_compute. reflexivity.
    + vm_compute. reflexivity.
Qed.

(** * C50 *)

Lemma nth_error_Some_lt {A} (l : list A) i x : nth_error l i = Some x -> i < List.length l.
Proof. intros E. apply nth_error_Some. congruence. Qed.

Lemma t_contains_iff a b : t_contains a b = true <-> (t_min a <= t_min b)%N /\ (t_max b <= t_max a)%N.
Proof.
  unfold t_contains. destruct (N.ltb_spec (t_min b) (t_min a)), (N.ltb_spec (t_max a) (t_max b));
    split; try discriminate; lia.
Qed.
Lemma t_intersects_iff a b : t_intersects a b = true <-> (t_min b <= t_max a)%N /\ (t_min a <= t_max b)%N.
Proof.
  unfold t_intersects. destruct (N.ltb_spec (t_max a) (t_min b)), (N.ltb_spec (t_max b) (t_min a));
    split; try discriminate; lia.
Qed.

(** [Key::contains] and [Key::intersects] mean what they say. *)
Theorem C50_key x k : k_contains x k = true <-> accepts [x] k.
Proof.
  unfold k_contains, accepts. rewrite andb_true_iff, t_contains_iff, superset_incl. split.
  - intros ((A & B) & C). exists x. cbn. auto.
  - intros (y & [<-|[]] & A & B & C). auto.
Qed.
Theorem C50_key_intersects x k :
  (t_min (k_time x) <= t_max (k_time x))%N -> (t_min (k_time k) <= t_max (k_time k))%N ->
  k_intersects x k = true
  <-> (exists t, t_min (k_time x) <= t <= t_max (k_time x) /\ t_min (k_time k) <= t <= t_max (k_time k))%N
      /\ (exists t, In t (k_tags x) /\ In t (k_tags k)).
Proof.
  intros X K. unfold k_intersects. rewrite andb_true_iff, t_intersects_iff, negb_true_iff, disjoint_false.
  split.
  - intros ((A & B) & C). split; [|assumption].
    exists (N.max (t_min (k_time x)) (t_min (k_time k))). lia.
  - intros ((t & A & B) & C). split; [lia|assumption].
Qed.

(** All the tags of the query occur in the keys. *)
Definition known_tags (q ks : list key) : Prop :=
  forall x t, In x q -> In t (k_tags x) -> exists k, In k ks /\ In t (k_tags k).

Lemma known_dec q ks : {known_tags q ks} + {~ known_tags q ks}.
Proof.
  destruct (Forall_dec (fun x => incl (k_tags x) (all_tags (map k_tags ks)))
              (fun x => incl_dec_tags _ _) q) as [F|F]; [left|right].
  - intros x t I T. apply (proj1 (Forall_forall _ _) F x I) in T. apply all_tags_in in T.
    destruct T as (y & Y & T). apply in_map_iff in Y. destruct Y as (k & <- & Y). eauto.
  - intros K. apply F. apply Forall_forall. intros x I t T. destruct (K x t I T) as (k & A & B).
    apply all_tags_in. exists (k_tags k). split; [now apply in_map|assumption].
Qed.

Lemma map_into_eq q ks s : kseq_from ks = Ok s ->
  map_into q s = if known_dec q ks
                 then map (fun x => (iset (all_tags (map k_tags ks)) (k_tags x), k_time x)) q
                 else [].
Proof.
  intros E. destruct (kseq_from_eq ks) as (s' & E' & ->). rewrite E in E'. injection E' as ->.
  unfold map_into. cbn [ks_tags ti_tags].
  assert (X : forall x, incl (k_tags x) (all_tags (map k_tags ks))
            <-> forall t, In t (k_tags x) -> exists k, In k ks /\ In t (k_tags k)).
  { intros x. split.
    - intros I t T. apply I, all_tags_in in T. destruct T as (y & Y & T). apply in_map_iff in Y.
      destruct Y as (k & <- & Y). eauto.
    - intros I t T. destruct (I t T) as (k & A & B). apply all_tags_in.
      exists (k_tags k). split; [now apply in_map|assumption]. }
  destruct (known_dec q ks) as [K|K].
  - rewrite (omapM_map _ (fun x => (iset (all_tags (map k_tags ks)) (k_tags x), k_time x))); [reflexivity|].
    intros x I. rewrite map_to_index_some; [reflexivity|]. apply X. intros t. now apply K.
  - destruct (omapM _ q) as [r|] eqn:O; [|reflexivity]. exfalso. apply K.
    apply omapM_some in O. intros x t I T. revert t T. apply X.
    clear K E. induction O as [|y z q r O _ IH]; [easy|]. destruct I as [<-|I]; [|auto].
    destruct (incl_dec_tags (k_tags y) (all_tags (map k_tags ks))) as [Y|Y]; [assumption|].
    rewrite map_to_index_none in O by assumption. discriminate.
Qed.

Lemma anyM_ok {A} (f : A -> res bool) (g : A -> bool) l :
  (forall x, In x l -> f x = Ok (g x)) -> anyM f l = Ok (existsb g l).
Proof.
  induction l as [|x l IH]; cbn; [reflexivity|]. intros H. rewrite (H x) by auto. cbn.
  destruct (g x); [reflexivity|]. apply IH. auto.
Qed.

Lemma existsb_map {A B} (f : A -> B) g l : existsb g (map f l) = existsb (fun x => g (f x)) l.
Proof. induction l; cbn; congruence. Qed.

Lemma false_eq (a b : bool) : (a = false <-> b = false) -> a = b.
Proof. destruct a, b; intuition congruence. Qed.

Lemma known_incl q ks x : known_tags q ks -> In x q -> incl (k_tags x) (all_tags (map k_tags ks)).
Proof.
  intros K I t T. destruct (K x t I T) as (k & A & B). apply all_tags_in.
  exists (k_tags k). split; [now apply in_map|assumption].
Qed.

Section Bits.
  Variables (q ks : list key) (s : keyseq).
  Hypothesis F : few_tags (map k_tags ks).
  Hypothesis E : kseq_from ks = Ok s.

  Lemma time_at i k : nth_error ks i = Some k -> kseq_time_unwrap s i = Ok (k_time k).
  Proof.
    destruct (kseq_from_eq ks) as (s' & E' & ->). rewrite E in E'. injection E' as ->. intros G.
    unfold kseq_time_unwrap, kseq_time. cbn [ks_lamport ks_min ks_max]. rewrite !nth_error_map, G. cbn.
    now destruct (k_time k).
  Qed.
  Lemma element_at i k : nth_error ks i = Some k ->
    kseq_element s i = Ok (iset (all_tags (map k_tags ks)) (k_tags k)).
  Proof.
    destruct (kseq_from_eq ks) as (s' & E' & ->). rewrite E in E'. injection E' as ->. intros G.
    unfold kseq_element. cbn [ks_tags ti_elements]. now rewrite !nth_error_map, G.
  Qed.
  Lemma len_at : kseq_len s = List.length ks.
  Proof.
    destruct (kseq_from_eq ks) as (s' & E' & ->). rewrite E in E'. injection E' as ->.
    unfold kseq_len. cbn. now rewrite !map_length.
  Qed.
  Lemma key_incl i k : nth_error ks i = Some k -> incl (k_tags k) (all_tags (map k_tags ks)).
  Proof.
    intros G t T. apply all_tags_in. exists (k_tags k). split; [|assumption]. apply in_map.
    now apply nth_error_In in G.
  Qed.

  Lemma tq_contains_eq i k : nth_error ks i = Some k ->
    tq_contains (map_into q s) s i
    = Ok (if known_dec q ks then existsb (fun x => k_contains x k) q else false).
  Proof.
    intros G. rewrite (map_into_eq _ _ _ E). destruct (known_dec q ks) as [K|K]; [|reflexivity].
    unfold tq_contains. rewrite (time_at _ _ G), (element_at _ _ G). cbn [rbind rmap].
    rewrite anyM_ok with (g := fun e => t_contains (snd e) (k_time k)
      && is_superset (fst e) (iset (all_tags (map k_tags ks)) (k_tags k))).
    2:{ intros x _. destruct (t_contains _ _); reflexivity. }
    rewrite existsb_map. f_equal. cbn [fst snd].
    assert (X : forall x, In x q ->
      is_superset (iset (all_tags (map k_tags ks)) (k_tags x)) (iset (all_tags (map k_tags ks)) (k_tags k))
      = is_superset (k_tags x) (k_tags k)).
    { intros x I. apply eq_true_iff_eq. rewrite !superset_incl. apply iset_incl.
      - now apply few_all.
      - now apply key_incl with i.
      - now apply known_incl with q. }
    unfold k_contains. clear K. induction q as [|x l IH]; [reflexivity|]. cbn [existsb].
    rewrite X by now left. rewrite IH; [reflexivity|]. intros; apply X; now right.
  Qed.

  Lemma tq_intersects_eq i k : nth_error ks i = Some k ->
    tq_intersects (map_into q s) s i
    = Ok (if known_dec q ks then existsb (fun x => k_intersects x k) q else false).
  Proof.
    intros G. rewrite (map_into_eq _ _ _ E). destruct (known_dec q ks) as [K|K]; [|reflexivity].
    unfold tq_intersects. rewrite (time_at _ _ G), (element_at _ _ G). cbn [rbind rmap].
    rewrite anyM_ok with (g := fun e => t_intersects (snd e) (k_time k)
      && negb (is_disjoint (fst e) (iset (all_tags (map k_tags ks)) (k_tags k)))).
    2:{ intros x _. destruct (t_intersects _ _); reflexivity. }
    rewrite existsb_map. f_equal. cbn [fst snd].
    assert (X : forall x, In x q ->
      is_disjoint (iset (all_tags (map k_tags ks)) (k_tags x)) (iset (all_tags (map k_tags ks)) (k_tags k))
      = is_disjoint (k_tags x) (k_tags k)).
    { intros x I. apply false_eq. rewrite !disjoint_false. split.
      - intros (n & A & B). apply iset_in in A, B. destruct A as (t & A & ->), B as (u & B & P).
        apply pos_inj in P; [subst; eauto|now apply few_all| |].
        + now apply (known_incl _ _ _ K I).
        + now apply (key_incl _ _ G).
      - intros (t & A & B). exists (pos (all_tags (map k_tags ks)) t). split; apply iset_in; eauto. }
    unfold k_intersects. clear K. induction q as [|x l IH]; [reflexivity|]. cbn [existsb].
    rewrite X by now left. rewrite IH; [reflexivity|]. intros; apply X; now right.
  Qed.
End Bits.

Lemma tq_loop_ok f (g : key -> bool) : forall l i m,
  (forall j k, nth_error l j = Some k -> f (i + j) = Ok (g k)) ->
  exists r, tq_loop f i (List.length l) m = Ok r /\ List.length r = List.length m
  /\ forall j b, nth_error m j = Some b ->
       nth_error r j = Some (match nth_error l j with Some k => b && g k | None => b end).
Proof.
  induction l as [|k l IH]; intros i m H.
  - cbn. exists m. splits; [reflexivity..|]. intros j b B. destruct j; assumption.
  - destruct m as [|b m]; [exists []; splits; [reflexivity..|intros [|]; discriminate]|].
    cbn [List.length tq_loop]. destruct (IH (S i) m) as (r & R & L & N).
    { intros j y Y. specialize (H (S j) y Y). now rewrite Nat.add_succ_r in H. }
    specialize (H 0 k eq_refl). rewrite Nat.add_0_r in H.
    rewrite R. exists (b && g k :: r). splits.
    + destruct b; [rewrite H; reflexivity|reflexivity].
    + cbn. congruence.
    + intros [|j] c; cbn; [intros X; injection X as ->; reflexivity|apply N].
Qed.

Lemma containing_eq q ks s m : few_tags (map k_tags ks) -> kseq_from ks = Ok s ->
  exists r, dq_containing q s m = Ok r /\ List.length r = List.length m
  /\ forall j b, nth_error m j = Some b ->
       nth_error r j = Some (match nth_error ks j with
         | Some k => b && (if known_dec q ks then existsb (fun x => k_contains x k) q else false)
         | None => b end).
Proof.
  intros F E. unfold dq_containing. rewrite (len_at _ _ E).
  apply (tq_loop_ok _ (fun k => if known_dec q ks then existsb (fun x => k_contains x k) q else false)).
  intros j k G. now apply tq_contains_eq.
Qed.
Lemma intersecting_eq q ks s m : few_tags (map k_tags ks) -> kseq_from ks = Ok s ->
  exists r, dq_intersecting q s m = Ok r /\ List.length r = List.length m
  /\ forall j b, nth_error m j = Some b ->
       nth_error r j = Some (match nth_error ks j with
         | Some k => b && (if known_dec q ks then existsb (fun x => k_intersects x k) q else false)
         | None => b end).
Proof.
  intros F E. unfold dq_intersecting. rewrite (len_at _ _ E).
  apply (tq_loop_ok _ (fun k => if known_dec q ks then existsb (fun x => k_intersects x k) q else false)).
  intros j k G. now apply tq_intersects_eq.
Qed.

Lemma accepts_existsb q k : existsb (fun x => k_contains x k) q = true <-> accepts q k.
Proof.
  rewrite existsb_exists. split.
  - intros (x & I & C). apply C50_key in C. destruct C as (y & [<-|[]] & C). exists x. auto.
  - intros (x & I & C). exists x. split; [assumption|]. apply C50_key. exists x. cbn. auto.
Qed.

(** What is missing: the answer is right only if every tag of the query occurs in
    the same sequence of keys (see [C50_refuted]). What the query accepts is
    always right. The query never panics and never adds an element. *)
Theorem C50_accepted_partial q ks s m :
  few_tags (map k_tags ks) -> kseq_from ks = Ok s ->
  exists r, dq_containing q s m = Ok r /\ List.length r = List.length m
  /\ (forall i, nth_error r i = Some true -> nth_error m i = Some true)
  /\ (forall i k, nth_error ks i = Some k -> nth_error r i = Some true -> accepts q k).
Proof.
  intros F E. destruct (containing_eq q ks s m F E) as (r & R & L & N). exists r. splits; try assumption.
  - intros i T. destruct (nth_error m i) as [b|] eqn:M.
    + rewrite (N _ _ M) in T. destruct (nth_error ks i); [|assumption]. destruct b; [reflexivity|discriminate].
    + apply nth_error_None in M. apply nth_error_Some_lt in T. lia.
  - intros i k K T. destruct (nth_error m i) as [b|] eqn:M.
    + rewrite (N _ _ M), K in T. injection T as T. apply andb_true_iff in T. destruct T as (_ & T).
      destruct (known_dec q ks); [|discriminate]. now apply accepts_existsb.
    + apply nth_error_None in M. apply nth_error_Some_lt in T. lia.
Qed.

Theorem C50_exact_partial q ks s m :
  few_tags (map k_tags ks) -> kseq_from ks = Ok s ->
  (forall x t, In x q -> In t (k_tags x) -> exists k, In k ks /\ In t (k_tags k)) ->
  exists r, dq_containing q s m = Ok r
  /\ forall i k, nth_error ks i = Some k ->
       (nth_error r i = Some true <-> nth_error m i = Some true /\ accepts q k).
Proof.
  intros F E K. destruct (containing_eq q ks s m F E) as (r & R & L & N). exists r. split; [assumption|].
  intros i k G. destruct (nth_error m i) as [b|] eqn:M.
  - rewrite (N _ _ M), G. destruct (known_dec q ks) as [_|X]; [|contradiction].
    rewrite <- accepts_existsb. destruct b, (existsb _ q); cbn; intuition congruence.
  - apply nth_error_None in M. split.
    + intros T. apply nth_error_Some_lt in T. lia.
    + intros (T & _). discriminate.
Qed.

(** What it accepts exactly: what it should, in sequences that know all its tags,
    and nothing in others. *)
Theorem C50_leaf q ks s m :
  few_tags (map k_tags ks) -> kseq_from ks = Ok s ->
  exists r, dq_containing q s m = Ok r
  /\ forall i k, nth_error ks i = Some k ->
       (nth_error r i = Some true <->
        nth_error m i = Some true /\ accepts q k
        /\ forall x t, In x q -> In t (k_tags x) -> exists k', In k' ks /\ In t (k_tags k')).
Proof.
  intros F E. destruct (containing_eq q ks s m F E) as (r & R & L & N). exists r. split; [assumption|].
  intros i k G. destruct (nth_error m i) as [b|] eqn:M.
  - rewrite (N _ _ M), G. destruct (known_dec q ks) as [X|X].
    + rewrite <- accepts_existsb. destruct b, (existsb _ q); cbn; intuition congruence.
    + split; [destruct b; discriminate|]. intros (_ & _ & X'). contradiction.
  - apply nth_error_None in M. split.
    + intros T. apply nth_error_Some_lt in T. lia.
    + intros (T & _). discriminate.
Qed.

(** A query for events with tag [a] or with tag [b] does not find the event with
    tag [a] if no event in the same leaf has tag [b]. *)
Theorem C50_refuted : exists q ks s k,
  keys_ok ks /\ kseq_from ks = Ok s /\ nth_error ks 0 = Some k /\ accepts q k
  /\ dq_containing q s [true] = Ok [false].
Proof.
  exists [k_filter [ta]; k_filter [tb]], [k_single 0 5 [ta]].
  eexists. eexists. splits.
  - split; [repeat constructor|]. apply few_small. vm_compute. discriminate.
  - vm_compute. reflexivity.
  - reflexivity.
  - exists (k_filter [ta]). splits; [now left|vm_compute; discriminate..|apply incl_refl].
  - vm_compute. reflexivity.
Qed.

Example C50_case :
  let q := [k_filter [ta; tb]; k_range 150 250 [tc]] in
  keys_ok [k1; k2; k3]
  /\ exists s, kseq_from [k1; k2; k3] = Ok s
     /\ (forall x t, In x q -> In t (k_tags x) -> exists k, In k [k1; k2; k3] /\ In t (k_tags k))
     /\ dq_containing q s [true; true; true] = Ok [true; true; true]
     /\ dq_containing [k_range 95 250 [ta; tb]; k_filter [tc]] s [true; true; true; true]
        = Ok [true; true; true; true]
     /\ dq_containing [k_range 95 250 [ta; tb]] s [true; true; true] = Ok [true; false; false].
Proof.
  cbv zeta. splits.
  - split; [repeat constructor|]. apply few_small. vm_compute. discriminate.
  - eexists. splits; try (vm_compute; reflexivity).
    intros x t [<-|[<-|[]]]; cbn.
    + intros [<-|[<-|[]]]; exists k1; cbn; auto.
    + intros [<-|[]]; exists k3; cbn; auto.
Qed.

(** * C51 *)

(** What is missing: the key, or every key of the query, must have a tag, and the
    time range of the key must not be inverted (see [C51_refuted]). [m] is the summary of keys [ks'] that include the
    sequence [ks] of the key [k], and is one of the summaries [ms] of a branch. *)
Theorem C51_partial q ks s i k mask r m ks' ms sm j mask' :
  few_tags (map k_tags ks) -> kseq_from ks = Ok s -> nth_error ks i = Some k ->
  dq_containing q s mask = Ok r -> nth_error r i = Some true ->
  k_tags k <> [] \/ Forall (fun x => k_tags x <> []) q ->
  (t_min (k_time k) <= t_max (k_time k))%N ->
  summary_of m ks' -> incl ks ks' ->
  few_tags (map k_tags ms) -> kseq_from ms = Ok sm -> nth_error ms j = Some m ->
  nth_error mask' j = Some true ->
  exists r', dq_intersecting q sm mask' = Ok r' /\ nth_error r' j = Some true.
Proof.
  intros F E G R T NE V S I F' E' J M.
  destruct (containing_eq q ks s mask F E) as (r0 & R0 & L & N). rewrite R in R0. injection R0 as <-.
  destruct (intersecting_eq q ms sm mask' F' E') as (r' & R' & _ & N'). exists r'. split; [assumption|].
  rewrite (N' _ _ M), J.
  assert (B : exists b, nth_error mask i = Some b).
  { destruct (nth_error mask i) eqn:X; [eauto|]. apply nth_error_None in X. apply nth_error_Some_lt in T. lia. }
  destruct B as (b & B). rewrite (N _ _ B), G in T. injection T as T. apply andb_true_iff in T.
  destruct T as (_ & T). destruct (known_dec q ks) as [K|]; [|discriminate].
  destruct (C52_covers _ _ S) as (CV & _).
  destruct (known_dec q ms) as [K'|K'].
  - cbn. f_equal. apply existsb_exists in T. destruct T as (x & X & C). apply existsb_exists. exists x.
    split; [assumption|]. apply C50_key in C. destruct C as (y & [<-|[]] & A1 & A2 & A3).
    destruct (CV k) as (_ & B1 & B2 & B3). { apply I. now apply nth_error_In in G. }
    unfold k_intersects. apply andb_true_iff. split; [apply t_intersects_iff; lia|].
    apply negb_true_iff, disjoint_false.
    assert (NX : k_tags x <> []).
    { destruct NE as [NE|NE]; [|now apply (proj1 (Forall_forall _ _) NE)].
      intros Z. apply NE. destruct (k_tags k) as [|t ts]; [reflexivity|].
      rewrite Z in A3. destruct (A3 t). now left. }
    destruct (k_tags x) as [|t ts] eqn:XT; [contradiction|]. exists t. split; [now left|].
    destruct (K x t X) as (z & Z & ZT); [rewrite XT; now left|].
    destruct (CV z (I _ Z)) as (_ & _ & _ & W). now apply W.
  - exfalso. apply K'. intros x t X XT. destruct (K x t X XT) as (y & Y & YT). exists m.
    split; [now apply nth_error_In in J|]. destruct (CV y (I _ Y)) as (_ & _ & _ & Z). now apply Z.
Qed.

(** An event without tags is accepted in its leaf, but the branch above is pruned. *)
Theorem C51_refuted : exists q k ks s m sm,
  keys_ok ks /\ kseq_from ks = Ok s /\ nth_error ks 0 = Some k
  /\ (t_min (k_time k) <= t_max (k_time k))%N
  /\ dq_containing q s [true] = Ok [true]
  /\ summary_of m ks /\ kseq_from [m] = Ok sm
  /\ dq_intersecting q sm [true] = Ok [false].
Proof.
  exists [k_filter []], (k_single 0 5 []), [k_single 0 5 []].
  eexists. eexists. eexists. splits.
  - split; [repeat constructor|]. apply few_small. vm_compute. discriminate.
  - vm_compute. reflexivity.
  - reflexivity.
  - vm_compute. discriminate.
  - vm_compute. reflexivity.
  - eapply so_leaf; [discriminate|vm_compute; reflexivity|vm_compute; reflexivity].
  - vm_compute. reflexivity.
  - vm_compute. reflexivity.
Qed.

(** A key whose time range ends before it starts is lost as well. *)
Theorem C51_inverted_refuted : exists q k s m sm,
  keys_ok [k] /\ k_tags k <> [] /\ kseq_from [k] = Ok s
  /\ dq_containing q s [true] = Ok [true]
  /\ summary_of m [k] /\ kseq_from [m] = Ok sm
  /\ dq_intersecting q sm [true] = Ok [false].
Proof.
  exists [k_range 7 8 [ta]], (k_range 10 5 [ta]).
  eexists. eexists. eexists. splits.
  - split; [repeat constructor|]. apply few_small. vm_compute. discriminate.
  - discriminate.
  - vm_compute. reflexivity.
  - vm_compute. reflexivity.
  - eapply so_leaf; [discriminate|vm_compute; reflexivity|vm_compute; reflexivity].
  - vm_compute. reflexivity.
  - vm_compute. reflexivity.
Qed.

Example C51_case : exists s m sm,
  keys_ok [k1; k2; k3] /\ kseq_from [k1; k2; k3] = Ok s
  /\ dq_containing [k_range 95 250 [ta; tb]] s [true; true; true] = Ok [true; false; false]
  /\ summary_of m [k1; k2; k3] /\ kseq_from [k3; m] = Ok sm
  /\ dq_intersecting [k_range 95 250 [ta; tb]] sm [true; true] = Ok [false; true].
Proof.
  eexists. eexists. eexists. splits.
  - split; [repeat constructor|]. apply few_small. vm_compute. discriminate.
  - vm_compute. reflexivity.
  - vm_compute. reflexivity.
  - eapply so_leaf; [discriminate|vm_compute; reflexivity|vm_compute; reflexivity].
  - vm_compute. reflexivity.
  - vm_compute. reflexivity.
Qed.

(** Lemmas about [Base]. *)
From Coq Require Import List NArith ZArith Lia Bool.
From Coq Require Import Strings.Byte.
From Verif Require Import Base.
Import ListNotations.

Lemma byte_to_N_lt b : (byte_to_N b < 256)%N.
Proof. unfold byte_to_N. pose proof (Byte.to_N_bounded b). lia. Qed.

Lemma byte_of_to_N b : byte_of_N (byte_to_N b) = b.
Proof.
  unfold byte_of_N. rewrite N.mod_small by apply byte_to_N_lt.
  unfold byte_to_N. now rewrite Byte.of_to_N.
Qed.

Lemma byte_to_of_N n : (n < 256)%N -> byte_to_N (byte_of_N n) = n.
Proof.
  intros H. unfold byte_of_N. rewrite N.mod_small by assumption.
  destruct (Byte.of_N n) eqn:E.
  - apply Byte.to_of_N in E. exact E.
  - apply Byte.of_N_None_iff in E. lia.
Qed.

Lemma byte_to_of_N_mod n : byte_to_N (byte_of_N n) = (n mod 256)%N.
Proof.
  unfold byte_of_N.
  rewrite <- (N.mod_mod n 256) at 1 by lia.
  fold (byte_of_N (n mod 256)). apply byte_to_of_N. apply N.mod_lt; lia.
Qed.

Lemma lxor_lt_256 a b : (a < 256 -> b < 256 -> N.lxor a b < 256)%N.
Proof.
  intros Ha Hb.
  destruct (N.eq_dec (N.lxor a b) 0) as [->|Hn]; [lia|].
  assert (Hl : (N.log2 (N.lxor a b) < 8)%N).
  { eapply N.le_lt_trans; [apply N.log2_lxor|].
    assert (N.log2 a < 8)%N.
    { destruct (N.eq_dec a 0) as [->|]; [cbn; lia|]. apply N.log2_lt_pow2; cbn; lia. }
    assert (N.log2 b < 8)%N.
    { destruct (N.eq_dec b 0) as [->|]; [cbn; lia|]. apply N.log2_lt_pow2; cbn; lia. }
    lia. }
  change 256%N with (2 ^ 8)%N. apply N.log2_lt_pow2; lia.
Qed.

Lemma bxor_involutive a b : bxor (bxor a b) b = a.
Proof.
  unfold bxor. rewrite byte_to_of_N.
  - rewrite N.lxor_assoc, N.lxor_nilpotent, N.lxor_0_r. apply byte_of_to_N.
  - apply lxor_lt_256; apply byte_to_N_lt.
Qed.

Lemma byte_eqb_eq a b : byte_eqb a b = true <-> a = b.
Proof.
  unfold byte_eqb. rewrite N.eqb_eq. split; [|now intros ->].
  intros H. rewrite <- (byte_of_to_N a), <- (byte_of_to_N b). now f_equal.
Qed.

Lemma bytes_eqb_eq a b : bytes_eqb a b = true <-> a = b.
Proof.
  revert b; induction a as [|x a IH]; intros [|y b]; cbn; split; try easy.
  - rewrite andb_true_iff, byte_eqb_eq, IH. now intros [-> ->].
  - intros E; injection E as -> ->. rewrite andb_true_iff, byte_eqb_eq, IH. easy.
Qed.

Lemma Nlen_app {A} (a b : list A) : Nlen (a ++ b) = (Nlen a + Nlen b)%N.
Proof. unfold Nlen. rewrite app_length. lia. Qed.

Lemma Nlen_map {A B} (f : A -> B) l : Nlen (map f l) = Nlen l.
Proof. unfold Nlen. now rewrite map_length. Qed.

Lemma rbind_ok {A B} (m : res A) (f : A -> res B) b :
  rbind m f = Ok b -> exists a, m = Ok a /\ f a = Ok b.
Proof. destruct m; cbn; try discriminate. eauto. Qed.

Lemma omapM_ext {A B} (f g : A -> option B) l :
  (forall x, In x l -> f x = g x) -> omapM f l = omapM g l.
Proof.
  induction l as [|x l IH]; cbn; intros H; [easy|].
  rewrite H by now left. rewrite IH by (intros; apply H; now right). easy.
Qed.

Lemma omapM_map_some {A B C} (f : B -> option C) (g : A -> B) (h : A -> C) l :
  (forall x, In x l -> f (g x) = Some (h x)) -> omapM f (map g l) = Some (map h l).
Proof.
  induction l as [|x l IH]; cbn; intros H; [easy|].
  rewrite H by now left. rewrite IH by (intros; apply H; now right). easy.
Qed.

Lemma omapM_id {A B} (f : B -> option A) (g : A -> B) l :
  (forall x, f (g x) = Some x) -> omapM f (map g l) = Some l.
Proof.
  intros H. rewrite omapM_map_some with (h := fun x => x) by auto. now rewrite map_id.
Qed.

Lemma omapM_length {A B} (f : A -> option B) l r :
  omapM f l = Some r -> length r = length l.
Proof.
  revert r; induction l as [|x l IH]; cbn; intros r.
  - now intros [= <-].
  - destruct (f x); [|easy]. destruct (omapM f l) eqn:E; [|easy].
    intros [= <-]. cbn. now rewrite (IH _ eq_refl).
Qed.

Lemma omapM_app {A B} (f : A -> option B) l1 l2 :
  omapM f (l1 ++ l2) =
  match omapM f l1, omapM f l2 with
  | Some a, Some b => Some (a ++ b)
  | _, _ => None
  end.
Proof.
  induction l1 as [|x l1 IH]; cbn.
  - now destruct (omapM f l2).
  - destruct (f x); [|easy]. rewrite IH.
    destruct (omapM f l1); [|easy]. now destruct (omapM f l2).
Qed.

Lemma omapM_nth {A B} (f : A -> option B) l r i :
  omapM f l = Some r ->
  nth_error r i = match nth_error l i with Some x => f x | None => None end.
Proof.
  revert r i; induction l as [|x l IH]; cbn; intros r i.
  - intros [= <-]. now destruct i.
  - destruct (f x) eqn:Ef; [|easy]. destruct (omapM f l) eqn:E; [|easy].
    intros [= <-]. destruct i; cbn; [easy|]. now apply IH.
Qed.

Lemma mask_select_length_le {A} m (l : list A) : length (mask_select m l) <= length l.
Proof.
  revert l; induction m as [|[] m IH]; intros [|x l]; cbn; try lia;
    specialize (IH l); lia.
Qed.

Lemma mask_select_app {A} m1 m2 (l1 l2 : list A) :
  length m1 = length l1 ->
  mask_select (m1 ++ m2) (l1 ++ l2) = mask_select m1 l1 ++ mask_select m2 l2.
Proof.
  revert l1; induction m1 as [|b m1 IH]; intros [|x l1]; cbn; try easy.
  intros [= H]. rewrite IH by easy. now destruct b.
Qed.

Lemma mask_select_map {A B} (f : A -> B) m l :
  mask_select m (map f l) = map f (mask_select m l).
Proof.
  revert l; induction m as [|[] m IH]; intros [|x l]; cbn; try easy. now rewrite IH.
Qed.

Lemma mask_select_false {A} m (l : list A) :
  (forall b, In b m -> b = false) -> mask_select m l = [].
Proof.
  revert l; induction m as [|b m IH]; intros [|x l] H; cbn; try easy.
  rewrite (H b) by now left. apply IH. intros; apply H; now right.
Qed.

Lemma sum_nat_app a b : sum_nat (a ++ b) = sum_nat a + sum_nat b.
Proof. unfold sum_nat. induction a; cbn; lia. Qed.

Lemma max_nat_app a b : max_nat (a ++ b) = Nat.max (max_nat a) (max_nat b).
Proof. unfold max_nat. induction a; cbn; lia. Qed.

Lemma max_nat_le l n : (forall x, In x l -> x <= n) -> max_nat l <= n.
Proof.
  unfold max_nat. induction l as [|a l IH]; cbn; intros H; [lia|].
  assert (a <= n) by (apply H; now left).
  assert (fold_right Nat.max 0 l <= n) by (apply IH; intros; apply H; now right). lia.
Qed.

Lemma max_nat_in l x : In x l -> x <= max_nat l.
Proof. unfold max_nat. induction l as [|a l IH]; cbn; [easy|]. intros [->|H]; [lia|specialize (IH H); lia]. Qed.

Lemma length_flat_map {A B} (f : A -> list B) l :
  length (flat_map f l) = sum_nat (map (fun x => length (f x)) l).
Proof. induction l as [|x l IH]; cbn; [easy|]. rewrite app_length, IH. easy. Qed.

Lemma nth_error_app_some {A} (a b : list A) i x :
  nth_error a i = Some x -> nth_error (a ++ b) i = Some x.
Proof.
  intros H. rewrite nth_error_app1; [easy|]. apply nth_error_Some. congruence.
Qed.

Lemma skipn_app_exact {A} (a b : list A) : skipn (length a) (a ++ b) = b.
Proof. rewrite skipn_app, skipn_all, Nat.sub_diag. easy. Qed.

Lemma firstn_app_exact {A} (a b : list A) : firstn (length a) (a ++ b) = a.
Proof. rewrite firstn_app, firstn_all, Nat.sub_diag. cbn. now rewrite app_nil_r. Qed.

(** Split conjunctions without unfolding definitions. *)
Ltac splits := repeat match goal with |- _ /\ _ => split end.

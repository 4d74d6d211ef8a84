(** A concrete instance of everything the theorems are parametric in. It shows
    that the laws can be met together, and it is what the examples and the
    refutations are computed on.

    Keys and values are numbers, a summary is the pair of the smallest and the
    largest key, a link is the block itself, "compression" puts one byte in
    front, and the store is a list of blocks that can hold a given number of
    bytes. *)
From Coq Require Import List NArith ZArith Lia Bool.
From Coq Require Import Strings.Byte.
From Verif Require Import Base BaseProofs Cbor Types Seq World.
Import ListNotations.

Definition nmin (l : list N) : N := fold_right N.min (hd 0%N l) l.
Definition nmax (l : list N) : N := fold_right N.max 0%N l.

Definition cnums (l : list N) : cbor := CArr (map CUint l).
Definition dec_nums (c : cbor) : option (list N) :=
  match c with CArr l => omapM dec_uint l | _ => None end.

Definition cpair (p : N * N) : cbor := CArr [CUint (fst p); CUint (snd p)].
Definition dec_pair (c : cbor) : option (N * N) :=
  match c with CArr [CUint a; CUint b] => Some (a, b) | _ => None end.
Definition dec_pairs (c : cbor) : option (list (N * N)) :=
  match c with CArr l => omapM dec_pair l | _ => None end.

#[export] Instance ITypes : Types := {
  K := N; V := N; Sm := N * N; KS := list N; SS := list (N * N); L := bytes;
  ks_of := fun l => l;
  ks_to := fun l => l;
  ks_sum := fun l => (nmin l, nmax l);
  ss_of := fun l => l;
  ss_to := fun l => l;
  ss_sum := fun l => (nmin (map fst l), nmax (map snd l));
  s_eqb := fun a b => N.eqb (fst a) (fst b) && N.eqb (snd a) (snd b);
  l_eqb := bytes_eqb;
  ks_enc := cnums;
  ks_dec := dec_nums;
  ss_enc := fun l => CArr (map cpair l);
  ss_dec := dec_pairs;
  v_enc := CUint;
  v_dec := dec_uint;
  l_cid := fun l => l;
  l_of_cid := Some;
  nonce := []
}.

Lemma omapM_map_id : forall A C (f : A -> C) (g : C -> option A),
  (forall a, g (f a) = Some a) -> forall l, omapM g (map f l) = Some l.
Proof. intros A C f g H l. induction l as [|a l IH]; [reflexivity|]. cbn. rewrite H, IH. reflexivity. Qed.

#[export] Instance ITypesLaws : TypesLaws ITypes.
Proof.
  constructor; cbn; intros; try reflexivity.
  - now rewrite !N.eqb_refl.
  - apply bytes_eqb_eq.
  - apply (omapM_map_id N cbor CUint dec_uint). reflexivity.
  - apply (omapM_map_id _ cbor cpair dec_pair). intros []. reflexivity.
Qed.

#[export] Instance IExt : Ext := {
  z_flushed := fun _ chunks => Nlen (List.concat chunks);
  z_finish := fun _ chunks => x28 :: List.concat chunks;
  z_dec := fun d => match d with x28 :: r => Some r | _ => None end;
  keystream := fun key nce pos => byte_of_N (pos + fold_right (fun b a => Byte.to_N b + 3 * a) (7 * Nlen key) key + 3 * Nlen nce)%N;
  cid_read := Some
}.

#[export] Instance IExtLaws : ExtLaws IExt.
Proof.
  constructor; cbn; intros; try reflexivity; try discriminate.
  unfold Nlen. cbn [List.length]. lia.
Qed.

#[export] Instance ILinkLaws : LinkLaws ITypes IExt.
Proof. constructor. reflexivity. Qed.

(** Store: capacity left, and blocks. Cache: list of entries. *)
Definition IStore : Type := N * list bytes.

#[export] Instance IBackend : Backend ITypes := {
  Store := IStore;
  sblocks := fun s l => if existsb (bytes_eqb l) (snd s) then Some l else None;
  sget := fun s l => (if existsb (bytes_eqb l) (snd s) then Some l else None, s);
  sput := fun s d =>
    if (fst s <? Nlen d)%N then (None, s)
    else (Some d, ((fst s - Nlen d)%N, d :: snd s));
  digest := fun b => b;
  Cache := list (bytes * Branch);
  cin := fun c l b => In (l, b) c;
  cget := fun c l =>
    (match find (fun p => bytes_eqb (fst p) l) c with Some (_, b) => Some b | None => None end, c);
  cput := fun c l b => (l, b) :: c
}.

#[export] Instance IBackendLaws : BackendLaws ITypes IBackend.
Proof.
  constructor; cbn; intros.
  - assumption.
  - injection H as <- <-. exact H0.
  - injection H as <- <-. auto.
  - injection H as H <-. exact H.
  - destruct (fst s <? Nlen d)%N; injection H as <- <-; [exact H0|]. cbn.
    destruct (bytes_eqb x d); [|exact H0]. cbn.
    destruct (existsb (bytes_eqb x) (snd s)); [exact H0|discriminate].
  - destruct (fst s <? Nlen d)%N; injection H as <- <-; [auto|]. cbn in H0.
    destruct (bytes_eqb x d); cbn in H0; [injection H0 as <-|]; auto.
  - destruct (fst s <? Nlen d)%N; [discriminate|]. injection H as <- <-. split; [reflexivity|].
    cbn. assert (bytes_eqb d d = true) by now apply bytes_eqb_eq. now rewrite H.
  - destruct (find (fun p => bytes_eqb (fst p) l) c) as [[l' b']|] eqn:F; [|discriminate].
    injection H as <- <-. apply find_some in F. cbn in F. destruct F as [F E].
    apply bytes_eqb_eq in E. now subst.
  - injection H as _ <-. assumption.
  - destruct H as [H|H]; [|auto]. injection H as <- <-. auto.
Qed.

#[export] Instance IReliable : ReliableReads ITypes IBackend.
Proof. constructor. now intros. Qed.

#[export] Instance IAlone : Alone ITypes IBackend.
Proof.
  constructor; cbn; intros.
  - injection H as <- <-. reflexivity.
  - destruct (fst s <? Nlen d)%N; injection H as <- <-; [auto|]. cbn in H0.
    destruct (bytes_eqb x d) eqn:E; cbn in H0.
    + apply bytes_eqb_eq in E. injection H0 as <-. auto.
    + auto.
Qed.

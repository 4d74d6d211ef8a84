(** C83: the stores of banyan-utils keep blocks under their digests. *)
From Coq Require Import List NArith Arith Lia Bool String.
From Coq Require Import Strings.Byte.
From Verif Require Import Base BaseProofs Cbor Types MemStore Links Stores PropsLinks.
Import ListNotations.

(** ** Specification *)

(** Uses of a store and what they are answered. *)
Inductive use :=
| UGet (l : sha256)
| UPut (d : bytes).
Inductive reply :=
| RGet (r : res bytes)
| RPut (r : res sha256).

(** One use after the other, by whichever user or thread: the answers, in order. *)
Fixpoint uses (I : inner sha256) (s : i_st I) (us : list use) : list (use * reply) :=
  match us with
  | [] => []
  | UGet l :: us' => let '(r, s') := i_get I s l in (UGet l, RGet r) :: uses I s' us'
  | UPut d :: us' => let '(r, s') := i_put I s d in (UPut d, RPut r) :: uses I s' us'
  end.

(** What a user of a content addressed store relies on, for each sequence of
    uses. [had] tells which links the store has blocks for at the start. *)
Definition addressed (sha : bytes -> sha256) (had : sha256 -> Prop) (h : list (use * reply)) : Prop :=
  (* what is read has the digest that was asked for *)
  (forall l d, In (UGet l, RGet (Ok d)) h -> sha d = l)
  (* the link of a block is its digest *)
  /\ (forall d l, In (UPut d, RPut (Ok l)) h -> l = sha d)
  (* a block is reported missing only before it was written *)
  /\ (forall h1 l h2, h = h1 ++ (UGet l, RGet (Err EMissing)) :: h2 ->
        ~ had l /\ forall d, ~ In (UPut d, RPut (Ok l)) h1).

(** What the database of blocks promises: it has at most the blocks that were
    put, under the identifiers they were put with; it never forgets that it has a
    block for an identifier (nobody collects garbage). Everything may fail. *)
Record keeps (S : block_store) (has : bs_st S -> cid -> bytes -> Prop) : Prop := {
  k_found : forall s c d s', bs_get S s c = (Ok (Some d), s') -> has s c d;
  k_missing : forall s c s' d, bs_get S s c = (Ok None, s') -> ~ has s c d;
  k_get_err : forall s c s', bs_get S s c <> (Err EMissing, s');
  k_get_same : forall s c r s' x d, bs_get S s c = (r, s') -> has s' x d <-> has s x d;
  k_put_has : forall s c d s', bs_put S s c d = (Ok tt, s') -> exists b, has s' c b;
  k_put_only : forall s c d r s' x b,
    bs_put S s c d = (r, s') -> has s' x b -> has s x b \/ x = c /\ b = d;
  k_put_keeps : forall s c d r s' x b,
    bs_put S s c d = (r, s') -> has s x b -> exists b', has s' x b'
}.

Section Sqlite.
  Context (sha : bytes -> sha256) (S : block_store) (has : bs_st S -> cid -> bytes -> Prop).

  (** Blocks are under the identifiers of their digests. *)
  Definition filed (s : bs_st S) : Prop := forall l d, has s (cid_of_sha l) d -> sha d = l.

  Lemma cid_of_sha_inj a b : cid_of_sha a = cid_of_sha b -> a = b.
  Proof. intros E. apply sha_eq. exact (f_equal cid_digest E). Qed.

  Lemma sqlite_uses (KS : keeps S has) us s (had : sha256 -> Prop) :
    filed s -> (forall l, had l -> exists b, has s (cid_of_sha l) b) ->
    addressed sha had (uses (sq_inner sha S) s us).
  Proof.
    revert s had. induction us as [|u us IH]; intros s had F H.
    - unfold addressed. splits; try easy. intros h1 l h2 E. destruct h1; discriminate.
    - destruct u as [l|d]; cbn [uses sq_inner i_get i_put].
      + unfold sq_get. destruct (bs_get S s (cid_of_sha l)) as [r s'] eqn:E.
        assert (F' : filed s').
        { intros x b Hx. apply F. now apply (k_get_same _ _ KS _ _ _ _ _ _ E). }
        assert (H' : forall x, had x -> exists b, has s' (cid_of_sha x) b).
        { intros x Hx. destruct (H x Hx) as [b Hb]. exists b.
          now apply (k_get_same _ _ KS _ _ _ _ _ _ E). }
        destruct (IH s' had F' H') as (A & B & C).
        assert (Hr : forall r0, addressed sha had ((UGet l, RGet r0) :: uses (sq_inner sha S) s' us) <->
                  (forall d, r0 = Ok d -> sha d = l) /\ (r0 = Err EMissing -> ~ had l)).
        { intros r0. split.
          - intros (A1 & B1 & C1). split.
            + intros d ->. apply A1. now left.
            + intros ->. now apply (C1 [] l (uses (sq_inner sha S) s' us)).
          - intros [A1 C1]. unfold addressed. splits.
            + intros x d [X|X]; [injection X as -> ->; now apply A1|now apply A].
            + intros d x [X|X]; [discriminate|now apply B].
            + intros h1 x h2 X. destruct h1 as [|e h1].
              * injection X as -> X1 _. split; [now apply C1|easy].
              * injection X as <- X. destruct (C _ _ _ X) as [C2 C3]. split; [easy|].
                intros d [Y|Y]; [discriminate|now apply (C3 d)]. }
        destruct r as [[d|]|e|p|]; apply Hr; split; try easy.
        * intros d' [= <-]. apply F. now apply (k_found _ _ KS) in E.
        * intros _ Hl. destruct (H l Hl) as [b Hb]. now apply (k_missing _ _ KS _ _ _ b E).
        * intros [= ->]. now apply (k_get_err _ _ KS) in E.
      + unfold sq_put. destruct (bs_put S s (cid_of_sha (sha d)) d) as [r s'] eqn:E.
        assert (F' : filed s').
        { intros x b Hx. destruct (k_put_only _ _ KS _ _ _ _ _ _ _ E Hx) as [Y|[Y ->]]; [now apply F|].
          apply cid_of_sha_inj in Y. now subst x. }
        assert (H' : forall x, had x \/ (r = Ok tt /\ x = sha d) -> exists b, has s' (cid_of_sha x) b).
        { intros x [Hx|[-> ->]].
          - destruct (H x Hx) as [b Hb]. now apply (k_put_keeps _ _ KS _ _ _ _ _ _ _ E Hb).
          - now apply (k_put_has _ _ KS) in E. }
        destruct (IH s' _ F' H') as (A & B & C).
        assert (Hr : forall r0 : res sha256, (forall l, r0 = Ok l -> r = Ok tt /\ l = sha d) ->
                  addressed sha had ((UPut d, RPut r0) :: uses (sq_inner sha S) s' us)).
        { intros r0 H0. unfold addressed. splits.
          - intros x b [X|X]; [discriminate|now apply A].
          - intros b x [X|X]; [injection X as -> ->; now apply H0|now apply B].
          - intros h1 x h2 X. destruct h1 as [|e h1]; [discriminate|].
            injection X as <- X. destruct (C _ _ _ X) as [C2 C3]. split; [tauto|].
            intros b [Y|Y]; [|now apply (C3 b)]. injection Y as -> ->. apply C2. right.
            now apply H0. }
        destruct r as [[]|e|p|]; apply Hr; try easy. now intros l [= <-].
  Qed.
End Sqlite.

(** ** C83 *)

(** [SqliteStore] is content addressed, for every sequence of uses of a database
    in which blocks are filed under their digests to begin with. *)
Theorem C83_sqlite sha S has us s :
  keeps S has -> filed sha S has s ->
  addressed sha (fun l => exists b, has s (cid_of_sha l) b) (uses (sq_inner sha S) s us).
Proof. intros KS F. now apply sqlite_uses with (has := has). Qed.

(** A node that does what the documentation of its interface says: it answers
    [block/put] with the identifier of the block, or not with success; it answers
    [block/get] with the block, or not with success. [has] are the blocks it has. *)
Record honest (sha : bytes -> sha256) (json_key : bytes -> option bytes) (nd : node)
  (has : n_st nd -> cid -> bytes -> Prop) : Prop := {
  h_get : forall s c body s', n_get nd s c = (Some (200%N, body), s') -> has s c body;
  h_get_has : forall s c d, has s c d -> exists a s',
    n_get nd s c = (a, s') /\ (a = None \/ a = Some (200%N, d));
  h_get_same : forall s c a s' x d, n_get nd s c = (a, s') -> has s' x d <-> has s x d;
  h_put : forall s d status body s' key,
    n_put nd s d = (Some (status, body), s') -> json_key body = Some key ->
    key = cid_text (cid_of_sha (sha d));
  h_put_only : forall s d a s' x b,
    n_put nd s d = (a, s') -> has s' x b -> has s x b \/ x = cid_of_sha (sha d) /\ b = d;
  h_put_has : forall s d status body s' key,
    n_put nd s d = (Some (status, body), s') -> json_key body = Some key ->
    has s' (cid_of_sha (sha d)) d
}.

(** [IpfsStore::put] on such a node: no panic, the link is the digest of the
    block, and the node has the block. *)
Theorem C83_ipfs_put sha json_key other base58 nd has s d r s' :
  honest sha json_key nd has ->
  ip_put json_key other base58 nd s d = (r, s') ->
  (r = Err EOther \/ r = Ok (sha d)) /\ (r = Ok (sha d) -> has s' (cid_of_sha (sha d)) d).
Proof.
  intros HN. unfold ip_put, block_put.
  destruct (n_put nd s d) as [[[status body]|] s1] eqn:E.
  2:{ intros [= <- <-]. split; [now left|easy]. }
  destruct (json_key body) as [key|] eqn:J.
  2:{ intros [= <- <-]. split; [now left|easy]. }
  pose proof (h_put _ _ _ _ HN _ _ _ _ _ _ E J) as Hk.
  pose proof (C82_printed other base58 (sha d)) as P. unfold sha_of_text, sha_text in P.
  rewrite <- Hk in P. destruct (cid_of_text other base58 key) as [c|]; [|discriminate].
  apply C82_cid in P as P1. destruct P1 as (P1 & P2 & P3). rewrite P2, P3, sha_length.
  cbn [negb N.eqb Pos.eqb Nat.eqb]. rewrite P. intros [= <- <-].
  split; [now right|]. intros _. exact (h_put_has _ _ _ _ HN _ _ _ _ _ _ E J).
Qed.

(** [IpfsStore::get] of a block the node has is the block, or an error if the
    node cannot be reached. Missing: the case that the node does not have the
    block, see [C83_ipfs_get_refuted]. *)
Theorem C83_ipfs_get_partial sha json_key nd has s l d :
  honest sha json_key nd has -> has s (cid_of_sha l) d ->
  fst (ip_get nd s l) = Ok d \/ fst (ip_get nd s l) = Err EOther.
Proof.
  intros HN H. destruct (h_get_has _ _ _ _ HN _ _ _ H) as (a & s' & E & Ha).
  unfold ip_get, block_get. rewrite E. destruct Ha as [->| ->]; [now right|now left].
Qed.

(** A node without blocks that answers every [block/get] with status 500 and
    [msg], and refuses every [block/put]. *)
Definition empty_node (msg : bytes) : node :=
  {| n_st := unit; n_get := fun s _ => (Some (500%N, msg), s); n_put := fun s _ => (None, s) |}.

(** The full claim would be that a read of a block that the node does not have
    fails. It succeeds: the error message is returned as if it were the block. *)
Theorem C83_ipfs_get_refuted sha json_key l msg :
  sha msg <> l ->
  exists nd has s, honest sha json_key nd has /\ (forall c d, ~ has s c d)
    /\ fst (ip_get nd s l) = Ok msg.
Proof.
  intros Hm. exists (empty_node msg), (fun _ _ _ => False), tt. splits; [|easy|reflexivity].
  split; cbn; try easy.
Qed.

(** ** A case: a database in memory, used to write, read, and read what is not
    there; with a digest that tells blocks of different length apart *)
Definition toy_sha (d : bytes) : sha256 :=
  match sha_of_bytes (repeat (byte_of_N (Nlen d)) 32) with Some l => l | None => d0 end.
Definition cid_dec (a b : cid) : {a = b} + {a <> b}.
Proof. decide equality; try apply N.eq_dec. apply list_eq_dec, byte_eq_dec. Defined.
Definition toy_find (s : list (cid * bytes)) (c : cid) : option bytes :=
  option_map snd (find (fun e => if cid_dec (fst e) c then true else false) s).
Definition toy_store : block_store :=
  {| bs_st := list (cid * bytes);
     bs_get := fun s c => (Ok (toy_find s c), s);
     bs_put := fun s c d => (Ok tt, s ++ [(c, d)]) |}.
Definition toy_has (s : list (cid * bytes)) (c : cid) (d : bytes) : Prop := toy_find s c = Some d.

Lemma toy_find_app s c d x :
  toy_find (s ++ [(c, d)]) x
  = match toy_find s x with Some b => Some b | None => if cid_dec c x then Some d else None end.
Proof.
  unfold toy_find. induction s as [|[k b] s IH]; cbn.
  - now destruct (cid_dec c x).
  - now destruct (cid_dec k x).
Qed.

Lemma toy_keeps : keeps toy_store toy_has.
Proof.
  unfold toy_has. split; cbn; try easy; try (intros; congruence).
  - intros s c r s' x d [= <- <-]. reflexivity.
  - intros s c d s' [= <-]. rewrite toy_find_app. destruct (toy_find s c); [eauto|].
    destruct (cid_dec c c); [eauto|easy].
  - intros s c d r s' x b [= <- <-]. rewrite toy_find_app.
    destruct (toy_find s x); [now left|]. destruct (cid_dec c x); [|easy].
    intros [= <-]. now right.
  - intros s c d r s' x b [= <- <-] H. rewrite toy_find_app, H. eauto.
Qed.

Example C83_case :
  let h := uses (sq_inner toy_sha toy_store) [] [UPut [x01]; UGet (toy_sha [x01]); UGet d0] in
  map (fun e => match snd e with RGet r => Some (Some r) | RPut (Ok _) => Some None | _ => None end) h
  = [Some None; Some (Some (Ok [x01])); Some (Some (Err EMissing))]
  /\ keeps toy_store toy_has /\ filed toy_sha toy_store toy_has []
  /\ toy_sha [] <> toy_sha [x01].
Proof.
  cbv zeta. splits; [vm_compute; reflexivity|exact toy_keeps|easy|].
  intros E. apply (f_equal sha_bytes) in E. vm_compute in E. discriminate.
Qed.

(** A node in memory, written to and read. *)
Definition toy_node : node :=
  {| n_st := list (cid * bytes);
     n_get := fun s c =>
       (Some (match toy_find s c with Some d => (200%N, d) | None => (500%N, text_bytes "not found") end), s);
     n_put := fun s d =>
       (Some (200%N, cid_text (cid_of_sha (toy_sha d))), (cid_of_sha (toy_sha d), d) :: s) |}.

Lemma toy_honest : honest toy_sha Some toy_node toy_has.
Proof.
  unfold toy_has. split; cbn.
  - intros s c body s'. destruct (toy_find s c); [now intros [= <- <-]|discriminate].
  - intros s c d ->. eauto.
  - intros s c a s' x d [= _ <-]. reflexivity.
  - intros s d status body s' key [= <- <- <-]. congruence.
  - intros s d a s' x b [= <- <-]. unfold toy_find. cbn [find fst].
    destruct (cid_dec _ x) as [<-|]; cbn; [intros [= <-]; now right|now left].
  - intros s d status body s' key [= <- <- <-] _. unfold toy_find. cbn [find fst].
    now destruct (cid_dec _ _).
Qed.

Example C83_case_ipfs :
  let none := fun _ : bytes => None in
  let h := uses (ip_inner Some none none toy_node) [] [UPut [x01]; UGet (toy_sha [x01]); UGet d0] in
  map (fun e => match snd e with RGet r => Some (Some r) | RPut (Ok _) => Some None | _ => None end) h
  = [Some None; Some (Some (Ok [x01])); Some (Some (Ok (text_bytes "not found")))]
  /\ honest toy_sha Some toy_node toy_has.
Proof. cbv zeta. split; [vm_compute; reflexivity|exact toy_honest]. Qed.

(** C59: what the blocks tell to those who do not have the value key. *)
From Coq Require Import List NArith ZArith Lia Bool String Arith.
From Coq Require Import Strings.Byte.
From Verif Require Import Base BaseProofs Cbor CborProofs Types Seq SeqProofs Query World Read Write Api Iter History Instance Example LogProofs SysProofs PropsShape PropsLog PropsPartial.
Import ListNotations.

(** ** Specification: a one time pad, byte [i] of the text with byte [off + i] of the pad *)
Fixpoint pad (ks : N -> byte) (off : N) (text : bytes) : bytes :=
  match text with
  | [] => []
  | b :: text' => bxor b (ks off) :: pad ks (off + 1) text'
  end.

Lemma pad_ext ks ks' text : forall off, (forall p, (off <= p < off + Nlen text)%N -> ks p = ks' p) ->
  pad ks off text = pad ks' off text.
Proof.
  induction text as [|b text IH]; intros off H; [reflexivity|]. cbn. unfold Nlen in *. cbn [List.length] in H.
  rewrite H by lia. f_equal. apply IH. intros p Hp. apply H. lia.
Qed.

Lemma bxor_comm a b : bxor a b = bxor b a.
Proof. unfold bxor. now rewrite N.lxor_comm. Qed.

(** Any text of the same length encrypts to a given cipher text under some pad. *)
Lemma pad_fits text : forall c off, Nlen text = Nlen c -> exists ks, pad ks off text = c.
Proof.
  induction text as [|b text IH]; intros [|x c] off H; try (unfold Nlen in H; cbn in H; lia).
  - now exists (fun _ => x00).
  - destruct (IH c (off + 1)%N) as [ks E]; [unfold Nlen in *; cbn in H; lia|].
    exists (fun p => if (p =? off)%N then bxor x b else ks p). cbn. rewrite N.eqb_refl.
    rewrite (bxor_comm b), bxor_involutive. f_equal. rewrite <- E. apply pad_ext. intros p Hp.
    destruct (N.eqb_spec p off); [lia|reflexivity].
Qed.

Section Props.
  Context {T : Types} {TL : TypesLaws T} {X : Ext} {XL : ExtLaws X}
          {B : Backend T} {BL : BackendLaws T B}.
  Variable cfg : Config.
  Variable sec : Secrets.
  Hypothesis Hcfg : config_ok cfg.

  (** The payload of a block, as anyone can read it. *)
  Definition cipher_text (e : event) (d : bytes) : Prop :=
    exists links, decode_block (ev_block e) = Some (ev_off e, links, d).

  Lemma fits_all es (sel : event -> bool) (alt : event -> bytes) :
    Forall (fun e => exists d, cipher_text e d /\ Nlen d = ev_len e) es ->
    ForallOrdPairs before es ->
    (forall e, In e es -> sel e = true -> Nlen (alt e) = ev_len e) ->
    exists ks, forall e, In e es -> sel e = true -> cipher_text e (pad ks (ev_off e) (alt e)).
  Proof.
    induction es as [|e es IH]; intros W O A; [now exists (fun _ => x00)|].
    inversion W as [|? ? (d & Hd & Hl) W']; subst. inversion O as [|? ? Hb O']; subst.
    destruct (IH W' O' (fun e' He' => A e' (or_intror He'))) as [ks Hks].
    destruct (sel e) eqn:Es.
    2: { exists ks. intros e' [<-|He'] Hs; [congruence|]. now apply Hks. }
    destruct (pad_fits (alt e) d (ev_off e)) as [k0 E0]. { rewrite Hl. apply A; [now left|exact Es]. }
    exists (fun p => if (p <? ev_end e)%N then k0 p else ks p). intros e' [<-|He'] Hs.
    - replace (pad _ (ev_off e) (alt e)) with d; [exact Hd|]. rewrite <- E0. apply pad_ext. intros p Hp.
      rewrite A in Hp by (now left || exact Es). unfold ev_end. destruct (N.ltb_spec p (ev_off e + ev_len e)); [reflexivity|lia].
    - rewrite (pad_ext _ ks); [now apply Hks|]. intros p Hp. rewrite Forall_forall in Hb. apply Hb in He'. unfold before in He'.
      destruct (N.ltb_spec p (ev_end e)); [lia|reflexivity].
  Qed.

  Lemma careful_texts f s : careful cfg sec f s -> Forall (fun e => exists d, cipher_text e d /\ Nlen d = ev_len e) (fo_log (sy_fo s)).
  Proof.
    intros H. apply careful_reach in H. apply (reach_written cfg sec Hcfg) in H. revert H. apply Forall_impl. intros e W.
    destruct (written_block cfg sec e W) as (ls & d & H1 & _ & _ & _ & H2). exists d. split; [now exists ls|exact H2].
  Qed.

  (** The leaves are encrypted with the value key and the branches with the index key. *)
  Theorem C59_keys f s e :
    careful cfg sec f s -> In e (fo_log (sy_fo s)) ->
    exists d, cipher_text e d
      /\ z_dec (pad (keystream (if ev_leaf e then value_key sec else index_key sec) nonce) (ev_off e) d) = Some (ev_raw e).
  Proof.
    intros H He. apply careful_reach in H. apply (reach_written cfg sec Hcfg) in H. rewrite Forall_forall in H. specialize (H _ He).
    destruct (written_block cfg sec e H) as (ls & d & H1 & H2 & _). exists d. split; [now exists ls|].
    destruct H as (? & ? & _ & _ & _ & _ & _ & _ & _ & Hk).
    assert (Ek : (if ev_leaf e then value_key sec else index_key sec) = ev_key e) by (destruct (ev_leaf e); symmetry; apply Hk).
    rewrite Ek. assert (E : forall off x, pad (keystream (ev_key e) nonce) off x = apply_keystream (ev_key e) nonce off x).
    { intros off y. revert off. induction y as [|b y IH]; intros off; cbn; [reflexivity|]. now rewrite IH. }
    now rewrite E.
  Qed.

  (** Take any other texts, of the right lengths, for the payloads of all leaves
      that were ever written: there is a keystream for which these are the
      payloads. So to someone who cannot tell the keystream of the value key from
      others, the blocks say nothing about the values but the lengths of the
      compressed sequences, whatever else they know, like the index key. *)
  Theorem C59_hidden f s (alt : event -> bytes) :
    careful cfg sec f s ->
    (forall e, In e (fo_log (sy_fo s)) -> ev_leaf e = true -> Nlen (alt e) = ev_len e) ->
    exists ks, forall e, In e (fo_log (sy_fo s)) -> ev_leaf e = true -> cipher_text e (pad ks (ev_off e) (alt e)).
  Proof.
    intros H A. eapply fits_all; [eapply careful_texts; eauto| |exact A]. eapply C15_restarts_partial; eauto.
  Qed.

  (** The same for all blocks, without either key. *)
  Theorem C59_hidden_all f s (alt : event -> bytes) :
    careful cfg sec f s ->
    (forall e, In e (fo_log (sy_fo s)) -> Nlen (alt e) = ev_len e) ->
    exists ks, forall e, In e (fo_log (sy_fo s)) -> cipher_text e (pad ks (ev_off e) (alt e)).
  Proof.
    intros H A. destruct (fits_all (fo_log (sy_fo s)) (fun _ => true) alt) as [ks K]; [eapply careful_texts; eauto| |auto|eauto].
    eapply C15_restarts_partial; eauto.
  Qed.
End Props.

(** The two restarts of the case of C15, with alternative texts of zeros. *)
Example C59_case :
  careful ecfg esec true st15d
  /\ List.length (filter ev_leaf (fo_log (sy_fo st15d))) = 9
  /\ forall e, In e (fo_log (sy_fo st15d)) -> Nlen (repeat x00 (N.to_nat (ev_len e))) = ev_len e.
Proof.
  split; [exact (proj1 C15_careful_case)|]. split; [vm_compute; reflexivity|].
  intros e _. unfold Nlen. rewrite repeat_length. lia.
Qed.

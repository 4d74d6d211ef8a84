(** Transactions with a writer of their own (forest/mod.rs 68-117). Api.v takes
    reader and writer of a transaction to be the one store of the forest. Here the
    reader is the forest's store, or the forest's store seen through the writer,
    and blocks go to a writer that somebody stores, or drops, later. *)
From Coq Require Import List NArith ZArith Lia Bool String.
From Verif Require Import Base Cbor Types Seq Query World Read Write Api Iter History.
Import ListNotations.

(** A [BlockWriter] (store/mod.rs 22-31) that can be asked what it was given:
    what [Transaction::into_writer] (forest/mod.rs 106-108) is for. *)
Class Writer (T : Types) (B : Backend T) := {
  W : Type;
  wput : W -> bytes -> option L * W;     (* BlockWriter::put *)
  wheld : W -> list bytes                (* the blocks it has *)
}.

(** It loses nothing, makes up nothing, and returns the links the store would. *)
Class WriterLaws (T : Types) (B : Backend T) (WR : Writer T B) : Prop := {
  wput_link : forall w d l w', wput w d = (Some l, w') -> l = digest d /\ In d (wheld w');
  wput_keeps : forall w d r w' b, wput w d = (r, w') -> In b (wheld w) -> In b (wheld w');
  wput_adds : forall w d r w' b, wput w d = (r, w') -> In b (wheld w') -> In b (wheld w) \/ b = d
}.

(** A content addressed store: the block it has for a link has that link as
    digest. *)
Class Honest (T : Types) (B : Backend T) : Prop := {
  honest : forall s l d, sblocks s l = Some d -> l = digest d
}.

Section Transaction.
  Context {T : Types} (B : Backend T) {WR : Writer T B}.

  (** The block with the link [l] among [ds]. *)
  Definition find_block (ds : list bytes) (l : L) : option bytes := find (fun d => l_eqb l (digest d)) ds.

  (** The two stores of a transaction made with [Forest::transaction(f)]
      (forest/mod.rs 76-85). [f] decides what the reader is: with [through] it looks
      at the blocks of the writer first ("the reader reads the writes of the
      writer"), else it is the store of the forest. Puts go to the writer. The
      branch cache is the one of the forest. *)
  Definition tx_backend (through : bool) : Backend T := {|
    Store := @Store T B * W;
    sblocks := fun s l =>
      match sblocks (fst s) l with
      | Some d => Some d
      | None => find_block (wheld (snd s)) l
      end;
    sget := fun s l =>
      match (if through then find_block (wheld (snd s)) l else None) with
      | Some d => (Some d, s)
      | None => let '(r, b) := sget (fst s) l in (r, (b, snd s))
      end;
    sput := fun s d => let '(r, w) := wput (snd s) d in (r, (fst s, w));
    digest := @digest T B;
    Cache := @Cache T B;
    cin := @cin T B;
    cget := @cget T B;
    cput := @cput T B
  |}.

  (** [Forest::transaction] (forest/mod.rs 76-85) with the writer [w], around the
      stream of [s]: what is taken into the transaction is the store and the cache
      of the forest; builders and trees are values. *)
  Definition tx_open (through : bool) (s : @sys T B) (w : W) : @sys T (tx_backend through) :=
    @Build_sys T (tx_backend through)
      (@Build_Forest T (tx_backend through) (fo_store (sy_fo s), w) (fo_cache (sy_fo s)) (fo_log (sy_fo s)))
      (sy_se s) (sy_snaps s).

  (** [into_writer] (forest/mod.rs 106-108): the blocks the writer has. *)
  Definition tx_blocks {through : bool} (s : @sys T (tx_backend through)) : list bytes :=
    wheld (snd (fo_store (sy_fo s))).

  (** Back to the forest, whose store now is [st]. *)
  Definition tx_close {through : bool} (s : @sys T (tx_backend through)) (st : @Store T B) : @sys T B :=
    @Build_sys T B
      (@Build_Forest T B st (fo_cache (sy_fo s)) (fo_log (sy_fo s)))
      (sy_se s) (sy_snaps s).

  (** The store of the forest during the transaction. *)
  Definition tx_base {through : bool} (s : @sys T (tx_backend through)) : @Store T B := fst (fo_store (sy_fo s)).

  (** "manually store the content" (forest/mod.rs 103-108): put the blocks one
      after the other, stopping at the first that is refused. *)
  Fixpoint store_all (st : @Store T B) (ds : list bytes) : bool * @Store T B :=
    match ds with
    | [] => (true, st)
    | d :: ds' =>
        match sput st d with
        | (Some _, st') => store_all st' ds'
        | (None, st') => (false, st')
        end
    end.
End Transaction.

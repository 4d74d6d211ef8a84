(** C76: dumping blocks. *)
From Coq Require Import List NArith ZArith Lia Bool String Arith.
From Verif Require Import Base BaseProofs Cbor CborProofs Types Seq SeqProofs Query World Read Write Api Iter History Spec Ghost Frame ReadProofs Packable WriteProofs ApiProofs SysProofs HistProofs Instance Example Dump PropsWrite PropsRead PropsMaintain PropsLocal PropsReuse.
Import ListNotations.

(** ** Specification *)

Section Spec.
  Context {T : Types} {X : Ext} {B : Backend T}.
  Variable sec : Secrets.
  Variable s : Store.

  (** The leaves of the tree below a node, from left to right. *)
  Inductive leaves : Index -> list LeafIndex -> Prop :=
  | leaves_leaf x : leaves (ILeaf x) [x]
  | leaves_branch x cs xss : opens sec s x cs -> leaves_all cs xss -> leaves (IBranch x) (List.concat xss)
  with leaves_all : list Index -> list (list LeafIndex) -> Prop :=
  | leaves_nil : leaves_all [] []
  | leaves_cons c cs xs xss : leaves c xs -> leaves_all cs xss -> leaves_all (c :: cs) (xs :: xss).

  (** [dump] of the leaf [x] prints a headline and the lines [ls]; nothing is
      known of the lines of a purged leaf. *)
  Definition prints (dump : Store -> L -> bytes -> bytes -> res (list bytes)) (x : LeafIndex) (ls : list (option bytes)) : Prop :=
    match li_link x with
    | Some l => exists lines, dump s l (value_key sec) nonce = Ok (headline :: lines) /\ ls = map Some lines
    | None => ls = repeat None (List.length (leaf_keys x))
    end.
End Spec.

Section Dump.
  Context {T : Types} {TL : TypesLaws T} {X : Ext} {XL : ExtLaws X}
          {B : Backend T} {BL : BackendLaws T B} {RR : ReliableReads T B}.
  Variable cfg : Config.
  Variable sec : Secrets.
  Hypothesis Hcfg : config_ok cfg.
  Variable json : cbor -> option bytes.
  Variable show : cbor -> bytes.

  Lemma raw_items_vals z vs : z_dec (zs_data z) = Some (vals_raw vs) -> fits (vals_raw vs) = true -> vals_ok vs = true ->
    raw_items z = Ok (map v_enc vs).
  Proof.
    intros Hz Hf Hok. unfold raw_items. rewrite (decompress_spec _ _ Hz), Hf. cbn [rbind].
    unfold vals_raw. now rewrite parse_seq_enc.
  Qed.
  Lemma raw_items_idxs z cs : z_dec (zs_data z) = Some (idxs_raw cs) -> fits (idxs_raw cs) = true -> idxs_ok cs = true ->
    raw_items z = Ok (map enc_index cs).
  Proof.
    intros Hz Hf Hok. unfold raw_items. rewrite (decompress_spec _ _ Hz), Hf. cbn [rbind].
    unfold idxs_raw. rewrite parse_seq_enc; [easy|]. unfold idxs_ok in Hok. rewrite forallb_forall in *.
    intros c I. apply in_map_iff in I as (i & <- & I). specialize (Hok _ I). unfold index_ok in Hok.
    now apply andb_true_iff in Hok.
  Qed.

  (** What is printed for the entry [e]. *)
  Definition line (f : cbor -> bytes) (e : option (K * V)) : option bytes :=
    option_map (fun kv => f (v_enc (snd kv))) e.

  Lemma lines_combine (f : cbor -> bytes) (ks : list K) vs : List.length vs = List.length ks ->
    map (line f) (map Some (combine ks vs)) = map Some (map f (map v_enc vs)).
  Proof.
    revert ks. induction vs as [|v vs IH]; intros [|k ks] H; try discriminate; [easy|]. cbn. f_equal.
    apply IH. now injection H.
  Qed.

  (** The values below a node. *)
  Definition values (t : tree) : list V :=
    flat_map (fun e => match e with Some kv => [snd kv] | None => [] end) (content t).

  Lemma leaf_dump s x vs lim : store_ok s -> repr sec lim (TLeaf x vs) -> avail s (TLeaf x vs) ->
    exists l, li_link x = Some l
    /\ dump_cbor show s l (value_key sec) nonce = Ok (headline :: map show (map v_enc vs))
    /\ (forall f, (forall v, In v vs -> json (v_enc v) = Some (f (v_enc v))) ->
        dump_json json s l (value_key sec) nonce = Ok (headline :: map f (map v_enc vs))).
  Proof.
    intros So (Hl & blk & r & El & (Hp & Hok & _) & _) ((l & d & El' & Hd) & Hf).
    rewrite El in El'. injection El' as <-. pose proof (So _ _ Hd) as Hdd. apply digest_inj in Hdd as <-.
    exists (digest blk). split; [easy|].
    apply block_payload_decrypt in Hp as (z & Hdec & Hz & _).
    unfold dump_cbor, dump_json. rewrite (sget_reliable _ _ _ Hd). cbn [ok_or rbind]. rewrite Hdec.
    rewrite (raw_items_vals z vs Hz Hf Hok). cbn [rbind]. split; [easy|].
    intros f Hj. assert (Hr : rmapM (fun c => ok_or (json c) EOther) (map v_enc vs) = Ok (map f (map v_enc vs))).
    { clear - Hj. induction vs as [|v vs IH]; [easy|]. cbn [map rmapM]. rewrite Hj by now left. cbn [ok_or rbind].
      fold (rmapM (fun c => ok_or (json c) EOther)). rewrite IH; [easy|]. intros v' I. apply Hj. now right. }
    now rewrite Hr.
  Qed.

  Lemma tree_dump s : store_ok s -> forall t lim xs, repr sec lim t -> avail s t -> leaves sec s (root_ix t) xs ->
    (exists lss, Forall2 (prints sec s (dump_cbor show)) xs lss /\ List.concat lss = map (line show) (content t))
    /\ (forall f, (forall v, In v (values t) -> json (v_enc v) = Some (f (v_enc v))) ->
        exists lss, Forall2 (prints sec s (dump_json json)) xs lss /\ List.concat lss = map (line f) (content t)).
  Proof.
    intros So t. induction t as [x vs|x|x cs IH|x] using tree_ind'; intros lim xs R A Lv; cbn [root_ix] in Lv.
    - inversion Lv; subst. destruct (leaf_dump s x vs lim So R A) as (l & El & H1 & H2). destruct R as (Hlen & _). split.
      + exists [map Some (map show (map v_enc vs))]. split; [|cbn [List.concat content]; now rewrite app_nil_r, lines_combine].
        constructor; [|constructor]. unfold prints. rewrite El. eauto.
      + intros f Hf. exists [map Some (map f (map v_enc vs))]. split; [|cbn [List.concat content]; now rewrite app_nil_r, lines_combine].
        constructor; [|constructor]. unfold prints. rewrite El. eexists. split; [|reflexivity]. apply H2.
        intros v I. apply Hf. unfold values. cbn [content]. clear - I Hlen. revert I Hlen. generalize (leaf_keys x).
        induction vs as [|v' vs IH]; intros [|k ks] I Hlen; try discriminate; [easy|]. cbn. destruct I as [->|I]; [now left|].
        right. apply IH; [easy|]. now injection Hlen.
    - inversion Lv; subst. cbn in R. assert (P : forall d, Forall2 (prints sec s d) [x] [repeat None (List.length (leaf_keys x))]).
      { intros d. constructor; [|constructor]. unfold prints. now rewrite R. }
      assert (E : forall f, List.concat [repeat None (List.length (leaf_keys x))] = map (line f) (content (TLeafP x))).
      { intros f. cbn [List.concat content]. rewrite app_nil_r. generalize (List.length (leaf_keys x)).
        intros n. induction n as [|n IHn]; [easy|]. cbn [repeat map line option_map]. now f_equal. }
      split; [|intros f _]; eexists; split; [apply P|apply E|apply P|apply E].
    - inversion Lv as [|x' cs' xss Ho La]; subst. destruct Ho as (l & d & r' & El & Hd & Hdes).
      apply repr_branch in R as (_ & _ & _ & _ & blk & r & El' & Hb & _ & Hr). apply avail_branch in A as (_ & Hf & Ha).
      rewrite El' in El. injection El as <-. pose proof (So _ _ Hd) as Hdd. apply digest_inj in Hdd as <-.
      rewrite (deserialize_spec _ _ _ _ Hb), Hf in Hdes. injection Hdes as <- _.
      clear Lv Hd Hb El'. cbn [content]. unfold values. cbn [content].
      revert xss La. induction cs as [|c cs IHc]; intros xss La; cbn [map] in La; inversion La as [|c' cs' xs xss' Lc La']; subst.
      { split; [|intros f _]; exists []; split; constructor. }
      inversion IH as [|? ? IH1 IH2]; subst. inversion Hr as [|? ? Hr1 Hr2]; subst. inversion Ha as [|? ? Ha1 Ha2]; subst.
      assert (Hf' : fits (idxs_raw (map root_ix cs)) = true).
      { clear - Hf. unfold fits in *. apply negb_true_iff in Hf. apply negb_true_iff. apply N.ltb_ge in Hf. apply N.ltb_ge.
        unfold idxs_raw in *. cbn [map flat_map] in Hf. unfold Nlen in *. rewrite app_length in Hf. lia. }
      destruct (IH1 _ _ Hr1 Ha1 Lc) as (P1 & P2). destruct (IHc IH2 Hr2 Hf' Ha2 _ La') as (Q1 & Q2).
      cbn [List.concat flat_map]. split.
      + destruct P1 as (l1 & F1 & E1), Q1 as (l2 & F2 & E2). exists (l1 ++ l2).
        split; [now apply Forall2_app|]. now rewrite concat_app, map_app, E1, E2.
      + intros f Hj. destruct (P2 f) as (l1 & F1 & E1).
        { intros v I. apply Hj. rewrite flat_map_app. apply in_or_app. now left. }
        destruct (Q2 f) as (l2 & F2 & E2).
        { intros v I. apply Hj. rewrite flat_map_app. apply in_or_app. now right. }
        exists (l1 ++ l2). split; [now apply Forall2_app|]. now rewrite concat_app, map_app, E1, E2.
    - inversion Lv as [|x' cs' xss Ho La]; subst. destruct Ho as (l & d & r' & El & _). cbn in R. congruence.
  Qed.

  Lemma branch_dump s : store_ok s -> forall t lim x, repr sec lim t -> avail s t -> node_in sec s (root_ix t) (IBranch x) ->
    bi_link x = None \/ exists l cs, bi_link x = Some l /\ opens sec s x cs
      /\ dump_cbor show s l (index_key sec) nonce = Ok (headline :: map show (map enc_index cs)).
  Proof.
    intros So t. induction t as [y vs|y|y cs IH|y] using tree_ind'; intros lim x R A N; cbn [root_ix] in N.
    - inversion N.
    - inversion N.
    - apply repr_branch in R as (_ & _ & _ & _ & blk & r & El & Hb & _ & Hr). apply avail_branch in A as ((l & d & El' & Hd) & Hf & Ha).
      rewrite El in El'. injection El' as <-. pose proof (So _ _ Hd) as Hdd. apply digest_inj in Hdd as <-.
      pose proof (deserialize_spec _ _ _ _ Hb) as Hdes. rewrite Hf in Hdes.
      inversion N as [|y' cs' c j Ho Ic Nc]; subst.
      + right. exists (digest blk), (map root_ix cs). split; [easy|]. split; [exists (digest blk), blk, r; auto|].
        destruct Hb as (Hp & Hok & _). apply block_payload_decrypt in Hp as (z & Hdec & Hz & _).
        unfold dump_cbor. rewrite (sget_reliable _ _ _ Hd). cbn [ok_or rbind]. rewrite Hdec.
        now rewrite (raw_items_idxs z _ Hz Hf Hok).
      + destruct Ho as (l' & d' & r' & El' & Hd' & Hdes'). rewrite El in El'. injection El' as <-.
        rewrite Hd in Hd'. injection Hd' as <-. rewrite Hdes in Hdes'. injection Hdes' as <- _.
        apply in_map_iff in Ic as (c0 & <- & Ic). rewrite Forall_forall in *. eapply IH; eauto.
    - inversion N as [|y' cs' c j Ho Ic Nc]; subst; [now left|]. destruct Ho as (l & d & r' & El & _). cbn in R. congruence.
  Qed.

  (** ** C76 *)

  (** Dumping the leaves of a stream one after the other with the value key
      prints its values in order, whatever the history of the stream. *)
  Theorem C76_cbor s i sec' o c xs :
    reach no_loss cfg sec s -> small_branches (sy_fo s) ->
    snapshot (sy_b s) = Some (i, sec', o) -> reads (sy_fo s) (snapshot (sy_b s)) c ->
    leaves sec (fo_store (sy_fo s)) i xs ->
    exists lss, Forall2 (prints sec (fo_store (sy_fo s)) (dump_cbor show)) xs lss
      /\ List.concat lss = map (option_map (fun kv => show (v_enc (snd kv)))) c.
  Proof.
    intros R Hs Es Er Lv. destruct (reach_b cfg sec Hcfg _ _ R) as (n & I). rewrite (reads_b _ _ _ _ _ _ _ _ I Er).
    destruct n as [t|]; [|apply binv_none in I as (_ & I); congruence].
    pose proof (binv_avail _ _ _ _ _ _ _ I eq_refl Hs) as A. apply binv_snap in I as (F & Es' & G).
    rewrite Es' in Es. injection Es as <- <- <-.
    exact (proj1 (tree_dump _ (proj1 F) t _ _ (snap_repr _ _ _ _ _ _ _ _ G) A Lv)).
  Qed.

  (** The same for json, if the values can be written as json. *)
  Theorem C76_json s i sec' o c xs f :
    reach no_loss cfg sec s -> small_branches (sy_fo s) ->
    snapshot (sy_b s) = Some (i, sec', o) -> reads (sy_fo s) (snapshot (sy_b s)) c ->
    leaves sec (fo_store (sy_fo s)) i xs ->
    (forall k v, In (Some (k, v)) c -> json (v_enc v) = Some (f (v_enc v))) ->
    exists lss, Forall2 (prints sec (fo_store (sy_fo s)) (dump_json json)) xs lss
      /\ List.concat lss = map (option_map (fun kv => f (v_enc (snd kv)))) c.
  Proof.
    intros R Hs Es Er Lv Hj. destruct (reach_b cfg sec Hcfg _ _ R) as (n & I). rewrite (reads_b _ _ _ _ _ _ _ _ I Er) in *.
    destruct n as [t|]; [|apply binv_none in I as (_ & I); congruence].
    pose proof (binv_avail _ _ _ _ _ _ _ I eq_refl Hs) as A. apply binv_snap in I as (F & Es' & G).
    rewrite Es' in Es. injection Es as <- <- <-.
    apply (proj2 (tree_dump _ (proj1 F) t _ _ (snap_repr _ _ _ _ _ _ _ _ G) A Lv)).
    intros v Iv. unfold values in Iv. apply in_flat_map in Iv as ([[k v']|] & I1 & I2); [|easy].
    destruct I2 as [<-|[]]. eapply Hj. exact I1.
  Qed.

  (** Dumping a branch with the index key prints the records of its children. *)
  Theorem C76_branch s i sec' o x l :
    reach no_loss cfg sec s -> small_branches (sy_fo s) ->
    snapshot (sy_b s) = Some (i, sec', o) -> node_in sec (fo_store (sy_fo s)) i (IBranch x) -> bi_link x = Some l ->
    exists cs, opens sec (fo_store (sy_fo s)) x cs
      /\ dump_cbor show (fo_store (sy_fo s)) l (index_key sec) nonce = Ok (headline :: map show (map enc_index cs)).
  Proof.
    intros R Hs Es N El. destruct (reach_b cfg sec Hcfg _ _ R) as (n & I).
    destruct n as [t|]; [|apply binv_none in I as (_ & I); congruence].
    pose proof (binv_avail _ _ _ _ _ _ _ I eq_refl Hs) as A. apply binv_snap in I as (F & Es' & G).
    rewrite Es' in Es. injection Es as <- <- <-.
    destruct (branch_dump _ (proj1 F) t _ x (snap_repr _ _ _ _ _ _ _ _ G) A N) as [H|(l' & cs & H1 & H2 & H3)]; [congruence|].
    rewrite El in H1. injection H1 as <-. eauto.
  Qed.

  (** Any other block that is one cbor item is printed as that item, whatever
      the key. *)
  Theorem C76_other s l c key nce :
    sblocks s l = Some (enc c) -> cbor_ok c = true ->
    (forall off ls d, c <> CArr [CUint off; CArr ls; CBytes d]) ->
    dump_cbor show s l key nce = Ok [show c]
    /\ (forall j, json c = Some j -> dump_json json s l key nce = Ok [j]).
  Proof.
    intros Hd Hok Hc. pose proof (checked_prefix_enc c [] Hok) as Hp. rewrite app_nil_r in Hp.
    assert (Hdec : decrypt (enc c) key nce = Err ECbor).
    { unfold decrypt, decode_block. rewrite Hp. clear - Hc.
      destruct c as [| | | |cs| | | |]; try easy. destruct cs as [|[]]; try easy. destruct cs as [|[]]; try easy.
      destruct cs as [|[]]; try easy. destruct cs as [|]; try easy. exfalso. eapply Hc. reflexivity. }
    unfold dump_cbor, dump_json. rewrite (sget_reliable _ _ _ Hd). cbn [ok_or rbind]. rewrite Hdec, Hp. cbn [ok_or rbind].
    split; [easy|]. intros j ->. reflexivity.
  Qed.

  (** If bytes follow the item, dump_cbor reports an error, and dump_json prints the
      item and ignores them. *)
  Theorem C76_rest s l c x rest key nce :
    sblocks s l = Some (enc c ++ x :: rest) -> cbor_ok c = true ->
    (forall off ls d, c <> CArr [CUint off; CArr ls; CBytes d]) ->
    dump_cbor show s l key nce = Err ECbor
    /\ (forall j, json c = Some j -> dump_json json s l key nce = Ok [j]).
  Proof.
    intros Hd Hok Hc. pose proof (checked_prefix_enc c (x :: rest) Hok) as Hp.
    assert (Hdec : decrypt (enc c ++ x :: rest) key nce = Err ECbor).
    { unfold decrypt, decode_block. rewrite Hp. clear - Hc.
      destruct c as [| | | |cs| | | |]; try easy. destruct cs as [|[]]; try easy. destruct cs as [|[]]; try easy.
      destruct cs as [|[]]; try easy. destruct cs as [|]; try easy. exfalso. eapply Hc. reflexivity. }
    unfold dump_cbor, dump_json. rewrite (sget_reliable _ _ _ Hd). cbn [ok_or rbind]. rewrite Hdec, Hp. cbn [ok_or rbind].
    split; [easy|]. intros j ->. reflexivity.
  Qed.
End Dump.

(** ** A case *)

Fixpoint leaves_of {T : Types} {X : Ext} {B : Backend T} (sec : Secrets) (s : Store) (d : nat) (i : Index) : option (list LeafIndex) :=
  match i, d with
  | ILeaf x, _ => Some [x]
  | IBranch x, S d' =>
      match bi_link x with
      | Some l =>
          match sblocks s l with
          | Some blk =>
              match deserialize_compressed (index_key sec) blk with
              | Ok (cs, _) => option_map (@List.concat LeafIndex) (omapM (leaves_of sec s d') cs)
              | _ => None
              end
          | None => None
          end
      | None => None
      end
  | _, _ => None
  end.

Lemma leaves_of_ok {T : Types} {X : Ext} {B : Backend T} (sec : Secrets) (s : Store) d : forall i xs,
  leaves_of sec s d i = Some xs -> leaves sec s i xs.
Proof.
  induction d as [|d IH]; intros [x|x] xs H; try (injection H as <-; constructor); try discriminate.
  cbn in H. destruct (bi_link x) as [l|] eqn:El; [|discriminate].
  destruct (sblocks s l) as [blk|] eqn:Hb; [|discriminate].
  destruct (deserialize_compressed (index_key sec) blk) as [[cs r]| | |] eqn:Hd; try discriminate.
  destruct (omapM (leaves_of sec s d) cs) as [xss|] eqn:Ho; [|discriminate]. injection H as <-.
  apply leaves_branch with cs; [exists l, blk, r; auto|].
  clear - IH Ho. revert xss Ho. induction cs as [|c cs IHc]; intros xss Ho; cbn in Ho; [injection Ho as <-; constructor|].
  destruct (leaves_of sec s d c) as [xs|] eqn:E; [|discriminate].
  destruct (omapM (leaves_of sec s d) cs) as [xss'|]; [|discriminate]. injection Ho as <-.
  constructor; auto.
Qed.

Definition case76 (s : @sys ITypes IBackend) : bool :=
  match snapshot (sy_b s) with
  | Some (i, _, _) =>
      match leaves_of esec (fo_store (sy_fo s)) 9 i, fst (collect (sy_fo s) (snapshot (sy_b s))) with
      | Some (x :: y :: _), Ok _ =>
          match li_link y with
          | Some l => match dump_cbor enc (fo_store (sy_fo s)) l (value_key esec) nonce with Ok (_ :: _ :: _ :: _) => true | _ => false end
          | None => false
          end
      | _, _ => false
      end
  | None => false
  end.

Lemma case76_ok (s : @sys ITypes IBackend) : case76 s = true ->
  exists i sec' o c x y xs l lines,
    snapshot (sy_b s) = Some (i, sec', o) /\ reads (sy_fo s) (snapshot (sy_b s)) c
    /\ leaves esec (fo_store (sy_fo s)) i (x :: y :: xs) /\ li_link y = Some l
    /\ dump_cbor enc (fo_store (sy_fo s)) l (value_key esec) nonce = Ok (headline :: lines) /\ 2 <= List.length lines.
Proof.
  unfold case76, reads. destruct (snapshot (sy_b s)) as [[[i sec'] o]|]; [|discriminate].
  destruct (leaves_of esec (fo_store (sy_fo s)) 9 i) as [[|x [|y xs]]|] eqn:Hl; try discriminate. apply leaves_of_ok in Hl.
  destruct (collect (sy_fo s) (Some (i, sec', o))) as [[c| | |] fo'] eqn:Hc; try discriminate. cbn [fst].
  destruct (li_link y) as [l|] eqn:Ey; [|discriminate].
  destruct (dump_cbor enc (fo_store (sy_fo s)) l (value_key esec) nonce) as [[|h [|a [|b ls]]]| | |] eqn:Hd; try discriminate.
  intros _. exists i, sec', o, c, x, y, xs, l, (a :: b :: ls).
  assert (h = headline) as ->.
  { unfold dump_cbor in Hd. destruct (ok_or (fst (sget (fo_store (sy_fo s)) l)) EMissing) as [d| | |]; try discriminate. cbn [rbind] in Hd.
    destruct (decrypt d (value_key esec) nonce) as [[z r]| | |]; cbn [rbind] in Hd.
    - destruct (raw_items z); try discriminate. cbn [rbind] in Hd. congruence.
    - destruct (ok_or (checked_prefix d) ECbor) as [[c0 [|]]| | |]; cbn in Hd; discriminate.
    - destruct (ok_or (checked_prefix d) ECbor) as [[c0 [|]]| | |]; cbn in Hd; discriminate.
    - destruct (ok_or (checked_prefix d) ECbor) as [[c0 [|]]| | |]; cbn in Hd; discriminate. }
  splits; auto; [eauto|cbn; lia].
Qed.

Example C76_case : exists i sec' o c x y xs l lines,
  reach no_loss ecfg esec st2 /\ small_branches (sy_fo st2)
  /\ snapshot (sy_b st2) = Some (i, sec', o) /\ reads (sy_fo st2) (snapshot (sy_b st2)) c
  /\ leaves esec (fo_store (sy_fo st2)) i (x :: y :: xs) /\ li_link y = Some l
  /\ dump_cbor enc (fo_store (sy_fo st2)) l (value_key esec) nonce = Ok (headline :: lines) /\ 2 <= List.length lines.
Proof.
  destruct (case76_ok st2) as (i & sec' & o & c & x & y & xs & l & lines & H); [vm_compute; reflexivity|].
  exists i, sec', o, c, x, y, xs, l, lines. split; [exact st2_ok|]. split; [apply smallb_ok; vm_compute; reflexivity|exact H].
Qed.

(** A block with one number and one byte more. *)
Example C76_rest_case : exists (s : @Store ITypes IBackend) l, sblocks s l = Some (enc (CUint 5) ++ [Byte.x01]) /\ cbor_ok (CUint 5) = true.
Proof. exists ((0%N, [enc (CUint 5) ++ [Byte.x01]]) : @Store ITypes IBackend), (enc (CUint 5) ++ [Byte.x01]). split; vm_compute; reflexivity. Qed.

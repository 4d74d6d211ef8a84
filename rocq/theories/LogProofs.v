(** What is known about every block handed to the store, from the writing
    functions alone. *)
From Coq Require Import List NArith ZArith Lia Bool String Arith.
From Coq Require Import Strings.Byte.
From Verif Require Import Base BaseProofs Cbor CborProofs Types Seq SeqProofs Query World Read Write Api Iter History Ghost Frame IterFrame ReadProofs Packable WriteProofs PackProofs ApiProofs SysProofs.
Import ListNotations.

(** ** Parsing is not changed by what follows *)

Lemma take_n_more n bs a b x : take_n n bs = Some (a, b) -> take_n n (bs ++ x) = Some (a, b ++ x).
Proof.
  intros H. apply take_n_spec in H as [-> H]. rewrite <- app_assoc. now apply take_n_app'.
Qed.

Lemma parse_head_more bs ma ai n rest x :
  parse_head bs = Some (ma, ai, n, rest) -> parse_head (bs ++ x) = Some (ma, ai, n, rest ++ x).
Proof.
  destruct bs as [|b bs]; [discriminate|]. cbn [app]. unfold parse_head.
  destruct (byte_to_N b mod 32 <? 24)%N; [now intros [= <- <- <- <-]|].
  assert (A : forall k r, match take_n k bs with
     | Some (x0, rest') => Some (byte_to_N b / 32, byte_to_N b mod 32, of_be x0, rest')%N | None => None end = Some r ->
     match take_n k (bs ++ x) with
     | Some (x0, rest') => Some (byte_to_N b / 32, byte_to_N b mod 32, of_be x0, rest')%N | None => None end
     = Some (fst r, snd r ++ x)).
  { intros k r. destruct (take_n k bs) as [[a' b']|] eqn:E; [|discriminate]. rewrite (take_n_more _ _ _ _ x E).
    now intros [= <-]. }
  intros H.
  destruct (byte_to_N b mod 32)%N as [|p]; [discriminate|].
  do 5 (destruct p as [p|p|]; try discriminate; try (apply A in H; exact H)).
Qed.

Lemma parse_n_more {A} (p p' : bytes -> option (A * bytes)) n x :
  (forall bs c r, p bs = Some (c, r) -> p' (bs ++ x) = Some (c, r ++ x)) ->
  forall bs l r, parse_n p n bs = Some (l, r) -> parse_n p' n (bs ++ x) = Some (l, r ++ x).
Proof.
  intros H. induction n as [|n IH]; cbn; intros bs l r E; [now injection E as <- <-|].
  destruct (p bs) as [[c r1]|] eqn:E1; [|discriminate]. rewrite (H _ _ _ E1).
  destruct (parse_n p n r1) as [[cs r2]|] eqn:E2; [|discriminate]. rewrite (IH _ _ _ E2). now injection E as <- <-.
Qed.

Lemma parse_more f : forall f' bs c r x, f <= f' -> parse f bs = Some (c, r) -> parse f' (bs ++ x) = Some (c, r ++ x).
Proof.
  induction f as [|f IH]; intros f' bs c r x Hf E; [discriminate|]. destruct f' as [|f']; [lia|].
  cbn [parse] in *. destruct (parse_head bs) as [[[[ma ai] n] rest]|] eqn:Eh; [|discriminate].
  rewrite (parse_head_more _ _ _ _ _ x Eh).
  assert (Hx : (Nlen rest <? n)%N = false -> (Nlen (rest ++ x) <? n)%N = false).
  { rewrite !N.ltb_ge, Nlen_app. lia. }
  assert (IH' : forall bs c r, parse f bs = Some (c, r) -> parse f' (bs ++ x) = Some (c, r ++ x)).
  { intros. apply IH; auto. lia. }
  assert (IHp : forall bs c r, parse_pair (parse f) bs = Some (c, r) -> parse_pair (parse f') (bs ++ x) = Some (c, r ++ x)).
  { intros bs0 c0 r0. unfold parse_pair. destruct (parse f bs0) as [[k r1]|] eqn:E1; [|discriminate].
    rewrite (IH' _ _ _ E1). destruct (parse f r1) as [[v r2]|] eqn:E2; [|discriminate]. rewrite (IH' _ _ _ E2). now intros [= <- <-]. }
  destruct ma as [|p]; [now injection E as <- <-|].
  assert (T : forall (k : bytes -> cbor) r0, match take_n n rest with Some (b, r) => Some (k b, r) | None => None end = Some (c, r0) ->
     match take_n n (rest ++ x) with Some (b, r) => Some (k b, r) | None => None end = Some (c, r0 ++ x)).
  { intros k r0. destruct (take_n n rest) as [[a b]|] eqn:Et; [|discriminate]. rewrite (take_n_more _ _ _ _ x Et). now intros [= <- <-]. }
  destruct p as [[[p|p|]|[p|p|]|]|[[p|p|]|[p|p|]|]|]; try discriminate.
  - (* 7 *) destruct (ai <? 24)%N; [now injection E as <- <-|].
    destruct ai as [|p]; [discriminate|].
    do 5 (destruct p as [p|p|]; try discriminate; try (injection E as <- <-; reflexivity)).
  - (* 5 *) destruct (Nlen rest <? n)%N eqn:El; [discriminate|]. rewrite (Hx eq_refl).
    destruct (parse_n (parse_pair (parse f)) (N.to_nat n) rest) as [[l r1]|] eqn:E1; [|discriminate].
    rewrite (parse_n_more _ (parse_pair (parse f')) _ x IHp _ _ _ E1). now injection E as <- <-.
  - (* 3 *) apply (T CText), E.
  - (* 6 *) destruct (parse f rest) as [[c0 r1]|] eqn:E1; [|discriminate]. rewrite (IH' _ _ _ E1). now injection E as <- <-.
  - (* 4 *) destruct (Nlen rest <? n)%N eqn:El; [discriminate|]. rewrite (Hx eq_refl).
    destruct (parse_n (parse f) (N.to_nat n) rest) as [[l r1]|] eqn:E1; [|discriminate].
    rewrite (parse_n_more _ (parse f') _ x IH' _ _ _ E1). now injection E as <- <-.
  - (* 2 *) apply (T CBytes), E.
  - (* 1 *) now injection E as <- <-.
Qed.

Lemma checked_prefix_more bs c r x : checked_prefix bs = Some (c, r) -> checked_prefix (bs ++ x) = Some (c, r ++ x).
Proof. unfold checked_prefix. apply parse_more. rewrite app_length. lia. Qed.

Lemma parse_seq_fuel_more f : forall f' a b ca cb, parse_seq_fuel f a = Some ca -> parse_seq_fuel f' b = Some cb ->
  parse_seq_fuel (f + f') (a ++ b) = Some (ca ++ cb).
Proof.
  induction f as [|f IH]; intros f' a b ca cb Ea Eb.
  - destruct a; [|discriminate]. injection Ea as <-. exact Eb.
  - destruct a as [|x a].
    + injection Ea as <-. cbn [app]. clear -Eb. revert b cb Eb.
      assert (M : forall f b cb, parse_seq_fuel f b = Some cb -> parse_seq_fuel (S f) b = Some cb).
      { clear. induction f as [|f IH]; intros b cb E; [now destruct b|].
        change (match b with [] => Some [] | _ => match checked_prefix b with None => None
          | Some (c, rest) => match parse_seq_fuel (S f) rest with None => None | Some cs => Some (c :: cs) end end end = Some cb).
        cbn [parse_seq_fuel] in E. destruct b as [|y b]; [exact E|]. destruct (checked_prefix (y :: b)) as [[c rest]|]; [|discriminate].
        destruct (parse_seq_fuel f rest) as [cs|] eqn:E1; [|discriminate]. now rewrite (IH _ _ E1). }
      intros b cb E. induction (S f) as [|k IHk]; [exact E|]. cbn [Nat.add]. now apply M.
    + cbn [Nat.add parse_seq_fuel app] in *. destruct (checked_prefix (x :: a)) as [[c rest]|] eqn:E1; [|discriminate].
      change (x :: a ++ b) with ((x :: a) ++ b). rewrite (checked_prefix_more _ _ _ b E1).
      destruct (parse_seq_fuel f rest) as [cs|] eqn:E2; [|discriminate]. injection Ea as <-.
      now rewrite (IH _ _ _ _ _ E2 Eb).
Qed.

Lemma parse_seq_app a b ca cb : parse_seq a = Some ca -> parse_seq b = Some cb -> parse_seq (a ++ b) = Some (ca ++ cb).
Proof. unfold parse_seq. rewrite app_length. apply parse_seq_fuel_more. Qed.

Lemma parse_seq_one c : cbor_ok c = true -> parse_seq (enc c) = Some [c].
Proof. intros H. rewrite <- (app_nil_r (enc c)). apply (parse_seq_enc [c]). cbn. now rewrite H. Qed.

Section Log.
  Context {T : Types} {TL : TypesLaws T} {X : Ext} {XL : ExtLaws X}
          {B : Backend T} {BL : BackendLaws T B}.

  (** [raw] is a sequence of cbor items, and [ls] the links that occur in it. *)
  Definition links_of (raw : bytes) (ls : list bytes) : Prop :=
    exists items found, parse_seq raw = Some items /\ payload_links items = Ok found /\ ls = add_links [] found.

  Lemma links_of_add raw ls c lc : links_of raw ls -> cbor_ok c = true -> item_links [] c = Ok lc ->
    links_of (raw ++ enc c) (add_links ls lc).
  Proof.
    intros (items & found & H1 & H2 & ->) Hc Hl. exists (items ++ [c]), (found ++ lc). splits.
    - apply parse_seq_app; [exact H1|]. now apply parse_seq_one.
    - rewrite payload_links_app, H2, payload_links_cons, Hl. cbn. now rewrite app_nil_r.
    - now rewrite add_links_app.
  Qed.

  Lemma fill_loop_log lvl csize usize maxk from : forall keys size chunks ls st cap,
    fill_loop lvl csize usize maxk from keys size chunks ls = Ok st ->
    size = Nlen (List.concat chunks) -> links_of (List.concat chunks) ls -> (usize <= cap)%N -> (size <= cap)%N ->
    links_of (List.concat (f_chunks st)) (f_links st) /\ (Nlen (List.concat (f_chunks st)) <= cap)%N.
  Proof.
    induction from as [|[k v] from IH]; intros keys size chunks ls st cap E Hs Hl Hu Hc; cbn in E.
    - injection E as <-. cbn. subst. auto.
    - destruct (Nat.leb maxk (List.length keys)); [injection E as <-; cbn; subst; auto|].
      rinv E. apply cbor_bytes_ok in E0 as [Hv ->].
      destruct (usize <? Nlen (enc (v_enc v)))%N; [discriminate|].
      destruct (N.ltb_spec usize (size + Nlen (enc (v_enc v)))); [injection E as <-; cbn; subst; auto|].
      rinv E. rewrite scrape_links_enc in E0 by easy. rinv E0. injection E0 as <-.
      assert (Hl' : links_of (List.concat (chunks ++ [enc (v_enc v)])) (add_links ls a0)).
      { rewrite concat_app. cbn. rewrite app_nil_r. now apply links_of_add. }
      assert (Hs' : (size + Nlen (enc (v_enc v)))%N = Nlen (List.concat (chunks ++ [enc (v_enc v)]))).
      { rewrite concat_app, Nlen_app, Hs. cbn. now rewrite app_nil_r. }
      destruct (csize <=? _)%N.
      + injection E as <-. cbn. split; [exact Hl'|]. rewrite <- Hs'. lia.
      + eapply IH in E; eauto. lia.
  Qed.

  Lemma fill_log c from keys lvl csize usize maxk z full keys' from' :
    fill c from keys lvl csize usize maxk = Ok (z, full, keys', from') ->
    exists raw, z_dec (zs_data z) = Some raw /\ links_of raw (zs_links z) /\ zs_data z <> []
      /\ (Nlen raw <= N.max max_capacity usize)%N.
  Proof.
    unfold fill. intros E. rinv E. destruct a as [[size chunks] ls]. rinv E. injection E as <- <- <- <-. cbn [zs_data zs_links].
    exists (List.concat (f_chunks a)). rewrite z_roundtrip. split; [easy|].
    assert (H : size = Nlen (List.concat chunks) /\ links_of (List.concat chunks) ls /\ (size <= N.max max_capacity usize)%N).
    { destruct c as [|b c].
      - injection E0 as <- <- <-. splits; [reflexivity| |lia]. exists [], []. auto.
      - unfold decompress in E0. destruct (z_dec (b :: c)) as [raw|]; [|discriminate].
        destruct (N.ltb_spec max_capacity (Nlen raw)); [discriminate|]. cbn [rbind] in E0. unfold scrape_links in E0.
        destruct (parse_seq raw) as [items|] eqn:Ep; [|discriminate]. cbn [ok_or rbind] in E0.
        destruct (rmapM (item_links []) items) as [found| | |] eqn:Ef; try discriminate. cbn [rbind] in E0. injection E0 as <- <- <-.
        cbn [List.concat]. rewrite app_nil_r. splits; auto; [|clear - H; lia]. exists items, (List.concat found). splits; auto. unfold payload_links. now rewrite Ef. }
    destruct H as (H1 & H2 & H3). destruct (fill_loop_log _ _ _ _ _ _ _ _ _ _ _ E1 H1 H2 (N.le_max_r max_capacity usize) H3) as [H4 H5].
    splits; auto. apply z_nonempty.
  Qed.

  Section Sec.
  Variable cfg : Config.
  Variable sec : Secrets.

  (** A block that was written: its clear text header, its payload, the key, and
      for branches the records. *)
  Definition written (e : event) : Prop :=
    exists ls p,
      ev_block e = enc (block_cbor (ev_off e) ls (apply_keystream (ev_key e) nonce (ev_off e) p))
      /\ cbor_ok (block_cbor (ev_off e) ls (apply_keystream (ev_key e) nonce (ev_off e) p)) = true
      /\ (ev_off e + Nlen p < two64)%N /\ p <> [] /\ Nlen p = ev_len e
      /\ z_dec p = Some (ev_raw e) /\ links_of (ev_raw e) ls
      /\ (if ev_leaf e then
            ev_key e = value_key sec /\ (Nlen (ev_raw e) <= N.max max_capacity (max_uncompressed_leaf_size cfg))%N
          else ev_key e = index_key sec /\ exists cs, idxs_ok cs = true /\ ev_raw e = idxs_raw cs).

  Definition lext (w w' : world) : Prop :=
    exists new, w_log w' = w_log w ++ new /\ Forall written new.

  Lemma lext_refl w : lext w w.
  Proof. exists []. now rewrite app_nil_r. Qed.
  Lemma lext_trans a b c : lext a b -> lext b c -> lext a c.
  Proof.
    intros (n1 & H1 & H2) (n2 & H3 & H4). exists (n1 ++ n2). rewrite H3, H1, app_assoc. split; [easy|]. now apply Forall_app.
  Qed.
  Lemma lext_read w w' : rext (index_key sec) w w' -> lext w w'.
  Proof. intros (_ & _ & _ & H). exists []. rewrite H, app_nil_r. auto. Qed.

  Lemma lf_put {A} leaf k z (f : event -> L -> M A) :
    (forall e, ev_leaf e = leaf -> ev_key e = k -> ev_raw e = raw_of z -> ev_len e = Nlen (zs_data z) ->
       ev_block e = enc (block_cbor (ev_off e) (zs_links z) (apply_keystream k nonce (ev_off e) (zs_data z))) ->
       cbor_ok (block_cbor (ev_off e) (zs_links z) (apply_keystream k nonce (ev_off e) (zs_data z))) = true ->
       (ev_off e + Nlen (zs_data z) < two64)%N -> written e) ->
    (forall e l w, exists r, f e l w = (r, w)) ->
    frame lext (mbind (encrypt_block leaf k z (raw_of z)) (fun e => mbind (put_block e) (f e))).
  Proof.
    intros Hw Hf w r w' E. unfold mbind, encrypt_block in E.
    unfold reserve in E. destruct (N.ltb_spec (w_off w + Nlen (zs_data z)) two64); [|injection E as <- <-; apply lext_refl].
    unfold cbor_bytes in E. destruct (cbor_ok _) eqn:Eok; cbn [rmap rbind] in E.
    2: { injection E as <- <-. exists []. now rewrite app_nil_r. }
    match type of E with context [put_block ?e0] => set (e := e0) in E end.
    assert (We : written e) by (apply Hw; auto).
    unfold put_block in E. destruct (sput _ _) as [[l|] s].
    - destruct (Hf e l (set_store (add_event (set_off w (w_off w + Nlen (zs_data z))) e) s)) as (r' & Hr).
      rewrite Hr in E. injection E as <- <-. exists [e]. split; [reflexivity|]. auto.
    - injection E as <- <-. exists [e]. split; [reflexivity|]. auto.
  Qed.

  Lemma lf_extend_leaf c keys from : frame lext (extend_leaf cfg sec c keys from).
  Proof.
    apply frame_bind; [apply lext_trans|apply frame_massert, lext_refl|]. intros _.
    apply frame_lift_ok; [apply lext_refl|]. intros [[[z full] keys'] from'] E.
    apply fill_log in E as (raw & H1 & H2 & H3 & H4).
    assert (Hr : raw_of z = raw) by (unfold raw_of; now rewrite H1).
    apply lf_put; [|intros; eexists; reflexivity].
    intros e E1 E2 E3 E4 E5 E6 E7. exists (zs_links z), (zs_data z). rewrite E1, E2, E3, Hr. splits; auto.
  Qed.

  Lemma lf_persist_branch items : frame lext (persist_branch cfg sec items).
  Proof.
    apply frame_lift_ok; [apply lext_refl|]. intros z E.
    apply from_iter_ipld_spec in E as (H1 & H2 & H3 & new & H4 & H5).
    assert (Hr : raw_of z = idxs_raw items) by (unfold raw_of; now rewrite H2).
    apply lf_put; [|intros; eexists; reflexivity].
    intros e E1 E2 E3 E4 E5 E6 E7. exists (zs_links z), (zs_data z). rewrite E1, E2, E3, Hr. splits; eauto.
    exists (map enc_index items), new. splits; auto. apply parse_seq_enc. now apply idxs_ok_cbor.
  Qed.

  Lemma lf_write {A} (m : M A) :
    (forall R : world -> world -> Prop, (forall w, R w w) -> (forall a b c, R a b -> R b c -> R a c) ->
       (forall w w', rext (index_key sec) w w' -> R w w') ->
       (forall c keys from, frame R (extend_leaf cfg sec c keys from)) ->
       (forall items, frame R (persist_branch cfg sec items)) -> frame R m) -> frame lext m.
  Proof. intros H. apply H; auto using lext_refl, lext_read, lf_extend_leaf, lf_persist_branch. exact lext_trans. Qed.

  Definition flog (fo fo' : Forest) : Prop := exists new, fo_log fo' = fo_log fo ++ new /\ Forall written new.

  Lemma flog_refl fo : flog fo fo.
  Proof. exists []. now rewrite app_nil_r. Qed.
  Lemma flog_trans a b c : flog a b -> flog b c -> flog a c.
  Proof.
    intros (n1 & H1 & H2) (n2 & H3 & H4). exists (n1 ++ n2). rewrite H3, H1, app_assoc. split; [easy|]. now apply Forall_app.
  Qed.
  Lemma flog_eq fo fo' : fo_log fo' = fo_log fo -> flog fo fo'.
  Proof. intros H. exists []. now rewrite H, app_nil_r. Qed.

  Lemma run_flog {A} fo b (m : M A) r fo' b' : frame lext m -> run fo b m = (r, fo', b') -> flog fo fo'.
  Proof.
    unfold run. intros F E. destruct (m _) as [r0 w] eqn:Em. injection E as <- <- <-.
    destruct (F _ _ _ Em) as (new & H1 & H2). exists new. auto.
  Qed.

  Lemma read_log {A} fo (m : M A) r fo' : frame (rext (index_key sec)) m -> read fo m = (r, fo') -> fo_log fo' = fo_log fo.
  Proof.
    unfold read. intros F E. destruct (m _) as [r0 w] eqn:Em. injection E as <- <-.
    destruct (F _ _ _ Em) as (_ & _ & _ & H). exact H.
  Qed.

  Lemma extend_flog fo b items r fo' b' : b_sec b = sec -> b_cfg b = cfg ->
    extend fo b items = (r, fo', b') -> flog fo fo'.
  Proof.
    intros Es Ec E. unfold extend in E. destruct items as [|x items]; [injection E as <- <- <-; apply flog_refl|].
    rewrite Es, Ec in E. destruct (run fo b _) as [[r0 fo0] b0] eqn:Er.
    assert (F : flog fo fo0) by (eapply run_flog; [|exact Er]; apply lf_write; intros; now apply (gf_extend_above sec cfg R)).
    destruct r0 as [[]| | |]; injection E as <- <- <-; exact F.
  Qed.

  Lemma extend_unpacked_flog fo b items r fo' b' : b_sec b = sec -> b_cfg b = cfg ->
    extend_unpacked fo b items = (r, fo', b') -> flog fo fo'.
  Proof.
    intros Es Ec E. unfold extend_unpacked in E.
    rewrite Es, Ec in E. destruct (run fo b _) as [[r0 fo0] b0] eqn:Er.
    assert (F : flog fo fo0) by (eapply run_flog; [|exact Er]; apply lf_write; intros; now apply (gf_extend_unpacked0 sec cfg R)).
    destruct r0 as [[]| | |]; injection E as <- <- <-; exact F.
  Qed.

  Lemma retain_flog fo b q r fo' b' : b_sec b = sec -> b_cfg b = cfg ->
    retain fo b q = (r, fo', b') -> flog fo fo'.
  Proof.
    intros Es Ec E. unfold retain in E. destruct (b_root b) as [i|]; [|injection E as <- <- <-; apply flog_refl].
    rewrite Es, Ec in E. destruct (run fo b _) as [[r0 fo0] b0] eqn:Er.
    assert (F : flog fo fo0) by (eapply run_flog; [|exact Er]; apply lf_write; intros; now apply (gf_retain0 sec cfg R)).
    destruct r0 as [[]| | |]; injection E as <- <- <-; exact F.
  Qed.

  Lemma repair_flog fo b r fo' b' : b_sec b = sec -> b_cfg b = cfg ->
    repair fo b = (r, fo', b') -> flog fo fo'.
  Proof.
    intros Es Ec E. unfold repair in E. destruct (b_root b) as [i|]; [|injection E as <- <- <-; apply flog_refl].
    rewrite Es, Ec in E. destruct (run fo b _) as [[r0 fo0] b0] eqn:Er.
    assert (F : flog fo fo0) by (eapply run_flog; [|exact Er]; apply lf_write; intros; now apply (gf_repair0 sec cfg R)).
    destruct r0 as [[[]]| | |]; injection E as <- <- <-; exact F.
  Qed.

  Lemma roots_log fo b r fo' : b_sec b = sec -> roots fo b = (r, fo') -> fo_log fo' = fo_log fo.
  Proof.
    intros Es E. unfold roots in E. destruct (b_root b) as [i|]; [|now injection E as <- <-].
    rewrite Es in E. destruct (read fo _) as [r0 fo0] eqn:Er. injection E as <- <-. eapply read_log; [|exact Er]. apply rf_roots0.
  Qed.

  Lemma pack_flog fo b r fo' b' : b_sec b = sec -> b_cfg b = cfg ->
    pack fo b = (r, fo', b') -> flog fo fo'.
  Proof.
    intros Es Ec E. unfold pack in E. destruct (roots fo b) as [r1 fo1] eqn:E1.
    pose proof (flog_eq _ _ (roots_log _ _ _ _ Es E1)) as F1.
    destruct r1 as [rs|e|p|]; try (injection E as <- <- <-; exact F1).
    rewrite Es, Ec in E. destruct (run fo1 b _) as [[r2 fo2] b2] eqn:E2.
    assert (F2 : flog fo1 fo2) by (eapply run_flog; [|exact E2]; apply lf_write; intros; now apply (gf_tree_from_roots sec cfg R)).
    pose proof (flog_trans _ _ _ F1 F2) as F12.
    destruct r2 as [i|e|p|]; try (injection E as <- <- <-; exact F12).
    destruct (collect_from fo2 (snapshot b) (builder_count (set_root b2 i))) as [r3 fo3] eqn:E3.
    assert (F3 : flog fo2 fo3).
    { apply flog_eq. unfold collect_from, snapshot in E3. destruct (b_root b) as [j|]; [|now injection E3 as <- <-].
      rewrite Es in E3. eapply read_log; [|exact E3]. apply rf_collect0. }
    pose proof (flog_trans _ _ _ F12 F3) as F.
    destruct r3 as [l|e|p|]; try (injection E as <- <- <-; exact F).
    destruct (omapM (fun x => x) l) as [rem|]; [|injection E as <- <- <-; exact F].
    unfold run in E2. destruct (tree_from_roots _ _ _ _) as [rr ww]. injection E2 as -> <- <-. cbn in *.
    eapply flog_trans; [exact F|]. eapply extend_flog; [| |exact E]; auto.
  Qed.
  End Sec.
End Log.

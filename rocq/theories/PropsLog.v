(** Every block handed to the store: C35 (references are visible without keys)
    and C44 (blocks can be read back). *)
From Coq Require Import List NArith ZArith Lia Bool String Arith.
From Coq Require Import Strings.Byte.
From Verif Require Import Base BaseProofs Cbor CborProofs Types Seq SeqProofs Query World Read Write Api Iter History Ghost Frame ReadProofs ApiProofs RetainProofs RepairProofs SysProofs HistProofs LogProofs Instance Example.
Import ListNotations.

Section Props.
  Context {T : Types} {TL : TypesLaws T} {X : Ext} {XL : ExtLaws X} {LL : LinkLaws T X}
          {B : Backend T} {BL : BackendLaws T B}.
  Variable cfg : Config.
  Variable sec : Secrets.
  Hypothesis Hcfg : config_ok cfg.

  (** ** The log of a history *)

  Lemma step_written k o s r s' :
    sys_good cfg sec (k_lose k = false) (k_repair k = false) s -> op_ok o s -> exec o s = (r, s') ->
    flog cfg sec (sy_fo s) (sy_fo s').
  Proof.
    intros S Hok E. pose proof S as ((n & I) & Hsaved & Hsnaps).
    pose proof (sys_b_eqs cfg sec k _ S) as [Es Ec]. pose proof (sys_fok cfg sec k _ S) as F.
    assert (Hs : forall fo, fsame sec (sy_fo s) fo -> flog cfg sec (sy_fo s) fo) by (intros fo (_ & _ & _ & H); now apply flog_eq).
    destruct o; cbn [exec] in E.
    - destruct (extend _ _ _) as [[r0 fo] b] eqn:E0. injection E as <- <-. eapply extend_flog; [| |exact E0]; auto.
    - destruct (push _ _ _ _) as [[r0 fo] b] eqn:E0. injection E as <- <-. eapply extend_flog; [| |exact E0]; auto.
    - destruct (extend_unpacked _ _ _) as [[r0 fo] b] eqn:E0. injection E as <- <-. eapply extend_unpacked_flog; [| |exact E0]; auto.
    - destruct (pack _ _) as [[r0 fo] b] eqn:E0. injection E as <- <-. eapply pack_flog; [| |exact E0]; auto.
    - destruct (retain _ _ _) as [[r0 fo] b] eqn:E0. injection E as <- <-. eapply retain_flog; [| |exact E0]; auto.
    - destruct (repair _ _) as [[r0 fo] b] eqn:E0. injection E as <- <-. eapply repair_flog; [| |exact E0]; auto.
    - injection E as <- <-. apply flog_refl.
    - injection E as <- <-. apply flog_refl.
    - injection E as <- <-. apply flog_refl.
    - injection E as <- <-. apply flog_refl.
    - destruct (obind _ _) as [l|]; [|injection E as <- <-; apply flog_refl]. rewrite Es in E.
      destruct (load_stream_builder _ _ _ _) as [r0 fo] eqn:E0.
      assert (W : fsame sec (sy_fo s) fo).
      { unfold load_stream_builder in E0. destruct (read _ _) as [r1 fo1] eqn:E1. injection E0 as <- <-.
        eapply (read_fsame sec); [|exact E1]. apply rf_create_index. }
      destruct r0; injection E as <- <-; apply Hs, W.
    - destruct (obind _ _) as [l|]; [|injection E as <- <-; apply flog_refl]. rewrite Es in E.
      destruct (load_tree _ _ _) as [r0 fo] eqn:E0.
      assert (W : fsame sec (sy_fo s) fo).
      { unfold load_tree in E0. destruct (read _ _) as [r1 fo1] eqn:E1. injection E0 as <- <-.
        eapply (read_fsame sec); [|exact E1]. apply rf_create_index. }
      destruct r0; injection E as <- <-; apply Hs, W.
    - destruct (nth_error (sy_snaps s) n0) as [t|] eqn:En; [|injection E as <- <-; apply flog_refl].
      destruct (do_read _ _ _) as [r1 fo] eqn:E0. injection E as <- <-.
      pose proof (nth_error_Forall _ _ _ _ Hsnaps En) as Hg. apply (do_read_same _ _ _ _ _ _ _ _ _ Hg) in E0 as W. apply Hs, W.
    - destruct (check_invariants _ _) as [r1 fo] eqn:E0. injection E as <- <-.
      assert (W : fsame sec (sy_fo s) fo).
      { unfold check_invariants in E0. rewrite Es in E0. destruct (b_root (sy_b s)).
        - eapply (read_fsame sec); [|exact E0]. apply rf_check_invariants0.
        - injection E0 as <- <-. apply fsame_refl. }
      apply Hs, W.
    - injection E as <- <-. apply flog_eq. reflexivity.
    - injection E as <- <-. apply flog_eq. reflexivity.
    - injection E as <- <-. apply flog_eq. reflexivity.
  Qed.

  Lemma reach_written k s : reach k cfg sec s -> Forall (written cfg sec) (fo_log (sy_fo s)).
  Proof.
    intros (s0 & H0 & H). induction H as [|s o r s' H IH Hok Hin E].
    - destruct H0 as (_ & _ & _ & ->). constructor.
    - assert (R : reach k cfg sec s) by (exists s0; auto). apply (reach_ok cfg sec Hcfg) in R.
      destruct (step_written k _ _ _ _ R Hok E) as (new & -> & Hn). now apply Forall_app.
  Qed.

  (** ** C35 *)

  (** [linked c cid]: [cid] occurs in the item [c] as an IPLD link, i.e. as a byte
      string tagged with 42 (and no other tag) that starts with a zero byte. *)
  Inductive linked : cbor -> bytes -> Prop :=
  | linked_here b cid : cid_read b = Some cid -> linked (CTag 42 (CBytes (x00 :: b))) cid
  | linked_tag t c cid : (forall b, c <> CTag 42 (CBytes b)) -> linked c cid -> linked (CTag t c) cid
  | linked_arr l c cid : In c l -> linked c cid -> linked (CArr l) cid
  | linked_key l k v cid : In (k, v) l -> linked k cid -> linked (CMap l) cid
  | linked_val l k v cid : In (k, v) l -> linked v cid -> linked (CMap l) cid.

  Lemma rmapM_in {A C} (f : A -> res C) l : forall ls, rmapM f l = Ok ls ->
    (forall x, In x l -> exists y, In y ls /\ f x = Ok y) /\ (forall y, In y ls -> exists x, In x l /\ f x = Ok y).
  Proof.
    induction l as [|x l IH]; intros ls E; cbn in E.
    - injection E as <-. split; [easy|]. intros y [].
    - destruct (f x) as [y| | |] eqn:Ex; try discriminate. cbn in E.
      change ((fix go (l0 : list A) : res (list C) := match l0 with [] => Ok [] | x0 :: l' => rbind (f x0) (fun y0 => rbind (go l') (fun ys => Ok (y0 :: ys))) end) l) with (rmapM f l) in E.
      destruct (rmapM f l) as [ys| | |]; try discriminate. injection E as <-. destruct (IH _ eq_refl) as [I1 I2]. split.
      + intros x' [<-|H]; [exists y; split; [now left|auto]|]. destruct (I1 _ H) as (y' & H1 & H2). exists y'. split; [now right|auto].
      + intros y' [<-|H]; [exists x; split; [now left|auto]|]. destruct (I2 _ H) as (x' & H1 & H2). exists x'. split; [now right|auto].
  Qed.

  (** Scraping finds exactly the links. *)
  Lemma item_links_linked c : forall tags ls, item_links tags c = Ok ls ->
    (forall cid, linked c cid -> tags = [] \/ (forall b, c <> CTag 42 (CBytes b)) -> In cid ls)
    /\ (forall cid, In cid ls -> linked c cid \/ (exists b, c = CBytes (x00 :: b) /\ tags = [42%N] /\ cid_read b = Some cid)
          \/ tags <> [] /\ False).
  Proof.
    induction c using cbor_ind'; intros tags ls0 E; cbn in E; try (injection E as <-; split; [intros cid L; inversion L|easy]).
    - (* bytes *)
      assert (Hn : forall cid, linked (CBytes b) cid -> tags = [] \/ (forall b0, CBytes b <> CTag 42 (CBytes b0)) -> In cid ls0)
        by (intros cid L; inversion L).
      split; [exact Hn|]. intros cid Hin.
      destruct tags as [|t [|t' tags]]; try (injection E as <-; easy).
      destruct (N.eqb_spec t 42) as [->|]; [|injection E as <-; easy].
      destruct b as [|b0 b]; [discriminate|]. destruct b0; try discriminate.
      destruct (cid_read b) as [cd|] eqn:Ec; [|discriminate]. injection E as <-. destruct Hin as [<-|[]]. right; left. eauto.
    - (* array *)
      apply rmap_ok in E as (ll & E & ->). pose proof (rmapM_in _ _ _ E) as [M1 M2].
      rewrite Forall_forall in H. split.
      + intros cid L _. inversion L as [| |? c ? Hc Lc| |]; subst. destruct (M1 _ Hc) as (y & Hy & Ey).
        apply in_concat. exists y. split; [exact Hy|]. eapply H; eauto.
      + intros cid Hin. apply in_concat in Hin as (y & Hy & Hin). destruct (M2 _ Hy) as (c & Hc & Ec).
        left. apply linked_arr with c; [exact Hc|]. destruct (H _ Hc _ _ Ec) as [_ H2].
        destruct (H2 _ Hin) as [G|[(b & _ & G & _)|(G & G')]]; [exact G|discriminate|easy].
    - (* map *)
      apply rmap_ok in E as (ll & E & ->). pose proof (rmapM_in _ _ _ E) as [M1 M2].
      rewrite Forall_forall in H. split.
      + intros cid L _. inversion L as [| | |? k v ? Hc Lc|? k v ? Hc Lc]; subst; destruct (M1 _ Hc) as (y & Hy & Ey); cbn in Ey;
          destruct (H _ Hc) as [Hk Hv]; cbn in Hk, Hv;
          destruct (item_links [] k) as [a| | |] eqn:Ek; try discriminate; cbn in Ey;
          destruct (item_links [] v) as [b| | |] eqn:Ev; try discriminate; cbn in Ey; injection Ey as <-;
          apply in_concat; exists (a ++ b); (split; [exact Hy|]); apply in_app_iff; [left; eapply Hk|right; eapply Hv]; eauto.
      + intros cid Hin. apply in_concat in Hin as (y & Hy & Hin). destruct (M2 _ Hy) as ([k v] & Hc & Ec). cbn in Ec.
        destruct (H _ Hc) as [Hk Hv]; cbn in Hk, Hv.
        destruct (item_links [] k) as [a| | |] eqn:Ek; try discriminate; cbn in Ec.
        destruct (item_links [] v) as [b| | |] eqn:Ev; try discriminate; cbn in Ec. injection Ec as <-.
        left. apply in_app_iff in Hin as [Hin|Hin].
        * apply linked_key with k v; [exact Hc|]. destruct (Hk _ _ Ek) as [_ H2].
          destruct (H2 _ Hin) as [G|[(b' & _ & G & _)|(G & G')]]; [exact G|discriminate|easy].
        * apply linked_val with k v; [exact Hc|]. destruct (Hv _ _ Ev) as [_ H2].
          destruct (H2 _ Hin) as [G|[(b' & _ & G & _)|(G & G')]]; [exact G|discriminate|easy].
    - (* tag *)
      destruct (IHc _ _ E) as [I1 I2]. split.
      + intros cid L Ht. inversion L as [b ? Hb|? ? ? Hn Lc| | |]; subst.
        * destruct Ht as [->|Ht]; [|now destruct (Ht (x00 :: b))]. cbn in E. rewrite Hb in E. injection E as <-. now left.
        * apply I1; [exact Lc|]. right. exact Hn.
      + intros cid Hin. destruct (I2 _ Hin) as [G|[(b & -> & G & Hb)|(G & G')]]; [|left|easy].
        * left. apply linked_tag; [|exact G]. intros b ->. 
          inversion G as [b' ? Hb'|? ? ? Hn Lc| | |]; subst; [|inversion Lc]. cbn in E. now destruct tags as [|? [|]]; injection E as <-.
        * destruct tags as [|t' tags]; [|now destruct tags]. cbn in G. injection G as ->. now constructor.
  Qed.

  Lemma payload_linked items found : payload_links items = Ok found ->
    forall cid, In cid found <-> exists c, In c items /\ linked c cid.
  Proof.
    unfold payload_links. intros E. apply rmap_ok in E as (ll & E & ->). pose proof (rmapM_in _ _ _ E) as [M1 M2].
    intros cid. rewrite in_concat. split.
    - intros (y & Hy & Hin). destruct (M2 _ Hy) as (c & Hc & Ec). exists c. split; [exact Hc|].
      destruct (item_links_linked _ _ _ Ec) as [_ H]. destruct (H _ Hin) as [G|[(b & _ & G & _)|(G & G')]]; [exact G|discriminate|easy].
    - intros (c & Hc & Lc). destruct (M1 _ Hc) as (y & Hy & Ey). exists y. split; [exact Hy|].
      destruct (item_links_linked _ _ _ Ey) as [H _]. apply H; auto.
  Qed.

  Lemma written_block e : written cfg sec e ->
    exists ls d, decode_block (ev_block e) = Some (ev_off e, ls, d)
      /\ z_dec (apply_keystream (ev_key e) nonce (ev_off e) d) = Some (ev_raw e)
      /\ links_of (ev_raw e) ls /\ (ev_off e + Nlen d < two64)%N /\ Nlen d = ev_len e.
  Proof.
    intros (ls & p & H1 & H2 & H3 & H4 & H5 & H6 & H7 & _).
    exists ls, (apply_keystream (ev_key e) nonce (ev_off e) p). rewrite apply_keystream_Nlen, apply_keystream_involutive. splits; auto.
    rewrite H1, <- (app_nil_r (enc _)). apply decode_block_enc; [exact H2|].
    destruct H7 as (items & found & _ & Hf & ->). apply add_links_valid; [constructor|]. eapply payload_links_valid; eauto.
  Qed.

  (** For every block ever handed to the store: the links in its clear text
      header are exactly the links that occur in its (encrypted, compressed)
      items. *)
  Theorem C35_visible s e :
    reach anything cfg sec s -> In e (fo_log (sy_fo s)) ->
    exists off links d raw items,
      decode_block (ev_block e) = Some (off, links, d)
      /\ z_dec (apply_keystream (if ev_leaf e then value_key sec else index_key sec) nonce off d) = Some raw
      /\ parse_seq raw = Some items
      /\ forall cid, In cid links <-> exists c, In c items /\ linked c cid.
  Proof.
    intros R He. pose proof (reach_written _ _ R) as W. rewrite Forall_forall in W. specialize (W _ He).
    destruct (written_block _ W) as (ls & d & H1 & H2 & (items & found & H3 & H4 & ->) & _).
    exists (ev_off e), (add_links [] found), d, (ev_raw e), items. splits; auto.
    - destruct W as (? & ? & _ & _ & _ & _ & _ & _ & _ & Hk). destruct (ev_leaf e); destruct Hk as [<- _]; exact H2.
    - intros cid. rewrite add_links_in, (payload_linked _ _ H4). cbn. tauto.
  Qed.

  (** The items of a branch are its children, so every link of a child, and every
      link inside a child's keys or summaries, is visible. *)
  Definition index_cbor (i : Index) : cbor :=
    match i with ILeaf x => ks_enc (li_keys x) | IBranch x => ss_enc (bi_sums x) end.

  Theorem C35_branch s e cs rg :
    reach anything cfg sec s -> In e (fo_log (sy_fo s)) -> ev_leaf e = false ->
    deserialize_compressed (index_key sec) (ev_block e) = Ok (cs, rg) ->
    exists off links d, decode_block (ev_block e) = Some (off, links, d)
      /\ forall c, In c cs -> (forall l, ilink c = Some l -> In (l_cid l) links)
                         /\ (forall cid, linked (index_cbor c) cid -> In cid links).
  Proof.
    intros R He Hl E. pose proof (reach_written _ _ R) as W. rewrite Forall_forall in W. specialize (W _ He).
    destruct (written_block _ W) as (ls & d & H1 & H2 & (items & found & H3 & H4 & ->) & H5 & _).
    destruct W as (? & ? & _ & _ & _ & _ & _ & _ & _ & Hk). rewrite Hl in Hk. destruct Hk as (Hk & cs' & Hok & Hraw).
    assert (cs' = cs) as <-.
    { unfold deserialize_compressed, decrypt in E. rewrite H1 in E. cbn [ok_or rbind] in E.
      destruct (N.ltb_spec (ev_off e + Nlen d) two64); [|lia]. cbn [rbind] in E. unfold zs_items_ipld in E. cbn [zs_data] in E.
      rewrite <- Hk in E. rewrite (decompress_spec _ _ H2), Hraw in E. destruct (fits _); [|discriminate]. cbn [rbind] in E.
      rewrite items_ipld_loop_enc in E by auto. now injection E as -> _. }
    rewrite Hraw in H3. unfold idxs_raw in H3. rewrite parse_seq_enc in H3 by now apply idxs_ok_cbor. injection H3 as <-.
    assert (V : forall c cid, In c cs' -> linked (enc_index c) cid -> In cid (add_links [] found)).
    { intros c cid Hc L. rewrite add_links_in, (payload_linked _ _ H4). right. exists (enc_index c). split; [now apply in_map|exact L]. }
    exists (ev_off e), (add_links [] found), d. split; [exact H1|]. intros c Hc.
    assert (F : forall n v cid, In (n, v) (match c with ILeaf x => leaf_fields x | IBranch x => branch_fields x end) -> linked v cid ->
      In cid (add_links [] found)).
    { intros n v cid Hin L. apply V with c; [exact Hc|].
      assert (Hin' : In (ctext n, v) (map (fun f => (ctext (fst f), snd f)) (match c with ILeaf x => leaf_fields x | IBranch x => branch_fields x end)))
        by (apply in_map_iff; exists (n, v); auto).
      destruct c; eapply linked_val; eauto. }
    split.
    - intros l El. apply (F "link"%string (clink (Some l))).
      + destruct c; cbn in El |- *; rewrite El; auto.
      + cbn. constructor. apply l_cid_read.
    - intros cid L. destruct c; cbn in L.
      + apply (F "keys"%string (ks_enc (li_keys li))); [cbn; auto|exact L].
      + apply (F "summaries"%string (ss_enc (bi_sums bi))); [cbn; auto 8|exact L].
  Qed.

  (** ** C44 *)

  (** Every leaf block can be decrypted, decompressed and parsed. *)
  Theorem C44_leaf_partial s e :
    reach anything cfg sec s -> In e (fo_log (sy_fo s)) -> ev_leaf e = true ->
    exists z r n, decrypt (ev_block e) (value_key sec) nonce = Ok (z, r) /\ zs_count z = Ok n.
  Proof.
    intros R He Hl. pose proof (reach_written _ _ R) as W. rewrite Forall_forall in W. specialize (W _ He).
    destruct (written_block _ W) as (ls & d & H1 & H2 & (items & found & H3 & H4 & ->) & H5 & _).
    destruct W as (? & ? & _ & _ & _ & _ & _ & _ & _ & Hk). rewrite Hl in Hk. destruct Hk as (Hk & Hsz).
    unfold decrypt. rewrite H1. cbn [ok_or rbind]. destruct (N.ltb_spec (ev_off e + Nlen d) two64); [|lia].
    do 3 eexists. split; [reflexivity|]. unfold zs_count. cbn [zs_data]. rewrite <- Hk, (decompress_spec _ _ H2).
    destruct Hcfg as (_ & _ & _ & Hc). unfold fits. destruct (N.ltb_spec max_capacity (Nlen (ev_raw e))) as [G|G].
    - exfalso. assert (Hm : (max_uncompressed_leaf_size cfg <= max_capacity)%N) by exact Hc. lia.
    - cbn. rewrite H3. reflexivity.
  Qed.

  (** A branch block can be read exactly if its records have at most 16 MiB. *)
  Theorem C44_branch_partial s e :
    reach anything cfg sec s -> In e (fo_log (sy_fo s)) -> ev_leaf e = false ->
    exists cs, ev_raw e = flat_map (fun i => enc (enc_index i)) cs
      /\ deserialize_compressed (index_key sec) (ev_block e) =
         if (Nlen (ev_raw e) <=? max_capacity)%N then Ok (cs, (ev_off e, ev_end e)) else Err EZstd.
  Proof.
    intros R He Hl. pose proof (reach_written _ _ R) as W. rewrite Forall_forall in W. specialize (W _ He).
    destruct (written_block _ W) as (ls & d & H1 & H2 & _ & H5 & H6).
    destruct W as (? & ? & _ & _ & _ & _ & _ & _ & _ & Hk). rewrite Hl in Hk. destruct Hk as (Hk & cs & Hok & Hraw).
    exists cs. split.
    { rewrite Hraw. unfold idxs_raw. clear. induction cs as [|c cs IH]; [reflexivity|]. cbn. now rewrite IH. }
    unfold deserialize_compressed, decrypt. rewrite H1. cbn [ok_or rbind]. destruct (N.ltb_spec (ev_off e + Nlen d) two64); [|lia].
    cbn [rbind]. unfold zs_items_ipld. cbn [zs_data]. rewrite <- Hk, (decompress_spec _ _ H2), Hraw. unfold fits.
    destruct (N.leb_spec (Nlen (idxs_raw cs)) max_capacity), (N.ltb_spec max_capacity (Nlen (idxs_raw cs))); try lia; cbn [negb rbind]; auto.
    rewrite items_ipld_loop_enc by auto. cbn. unfold ev_end. now rewrite H6.
  Qed.
End Props.

(** * Concrete case: leaves and branches of the tree of Example.v *)
Example C35_case :
  reach anything ecfg esec st3
  /\ existsb (fun e => ev_leaf e) (fo_log (sy_fo st3)) = true
  /\ existsb (fun e => negb (ev_leaf e) && match deserialize_compressed (index_key esec) (ev_block e) with
                                          | Ok (cs, _) => Nat.ltb 1 (List.length cs) | _ => false end) (fo_log (sy_fo st3)) = true.
Proof. split; [apply no_loss_any, st3_ok|]. split; vm_compute; reflexivity. Qed.

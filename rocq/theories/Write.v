(** forest/write.rs and the write half of tree.rs. *)
From Coq Require Import List NArith ZArith Lia Bool String.
From Coq Require Import Strings.Byte.
From Verif Require Import Base Cbor Types Seq Query World Read.
Import ListNotations.
Open Scope m_scope.

Section Write.
  Context {T : Types} {X : Ext} {B : Backend T}.
  Variable cfg : Config.
  Variable sec : Secrets.

  (** [Peekable<impl Iterator<Item = (Key, V)>>]: the elements not yet taken. *)
  Notation source := (list (K * V)).

  Definition is_nil {A} (l : list A) : bool := match l with [] => true | _ => false end.

  (** write.rs 45-51. The event is logged whether or not the store accepts the
      block: the writer has seen it. *)
  Definition put_block (e : event) : M L :=
    fun w =>
      let w := add_event w e in
      match sput (w_store w) (ev_block e) with
      | (Some l, s) => (Ok l, set_store w s)
      | (None, s) => (Err EStoreFull, set_store w s)
      end.

  (** [ZstdDagCborSeq::into_encrypted], zstd_dag_cbor_seq.rs 411-426, on the
      cipher offset of the stream builder; reserves before it encodes. *)
  Definition encrypt_block (leaf : bool) (key : bytes) (z : zseq) (raw : bytes) : M event :=
    fun w =>
      match reserve (w_off w) (Nlen (zs_data z)) with
      | Ok (o, o') =>
          let w := set_off w o' in
          (rmap (fun blk => {| ev_leaf := leaf; ev_key := key; ev_off := o;
                               ev_len := Nlen (zs_data z); ev_raw := raw; ev_block := blk |})
                (cbor_bytes (block_cbor o (zs_links z) (apply_keystream key nonce o (zs_data z)))), w)
      | Err e => (Err e, w)
      | Panic p => (Panic p, w)
      | NoFuel => (NoFuel, w)
      end.

  (** Payload of a compressed sequence, for the log only. *)
  Definition raw_of (z : zseq) : bytes :=
    match z_dec (zs_data z) with Some r => r | None => [] end.

  (** write.rs 56-98; [keys] is [keys.to_vec()] or empty. *)
  Definition extend_leaf (compressed : bytes) (keys : list K) (from : source)
    : M (LeafIndex * source) :=
    massert (negb (is_nil from)) "from.peek().is_some()" ;;;
    '(data, sealed, keys, from) <-
       lift (fill compressed from keys (zstd_level cfg) (target_leaf_size cfg)
                  (max_uncompressed_leaf_size cfg) (max_leaf_count cfg)) ;;
    e <- encrypt_block true (value_key sec) data (raw_of data) ;;
    link <- put_block e ;;
    ret ({| li_link := Some link; li_vbytes := Nlen (zs_data data); li_sealed := sealed;
            li_keys := ks_of keys |}, from).

  (** write.rs 36-43 *)
  Definition leaf_from_iter (from : source) : M (LeafIndex * source) :=
    massert (negb (is_nil from)) "from.peek().is_some()" ;;;
    extend_leaf [] [] from.

  (** write.rs 351-363 *)
  Definition persist_branch (items : list Index) : M (L * N) :=
    z <- lift (from_iter_ipld items (zstd_level cfg)) ;;
    e <- encrypt_block false (index_key sec) z (raw_of z) ;;
    link <- put_block e ;;
    ret (link, Nlen (ev_block e)).

  (** util.rs 32-34 on levels in reverse: the levels do not increase. *)
  Fixpoint levels_desc (l : list Index) : bool :=
    match l with
    | a :: ((b :: _) as l') => Nat.leb (ilevel b) (ilevel a) && levels_desc l'
    | _ => true
    end.

  (** forest/mod.rs 266-274 *)
  Inductive create_mode := Packed | Unpacked.

  (** write.rs 184-213 *)
  Definition new_branch (children : list Index) (mode : create_mode) : M BranchIndex :=
    massert (negb (is_nil children)) "!children.is_empty()" ;;;
    massert (match mode with Packed => levels_desc children | Unpacked => true end)
            "is_sorted(children.levels.rev())" ;;;
    let level := S (max_nat (map ilevel children)) in
    let sealed := branch_sealed cfg children level in
    '(link, len) <- persist_branch children ;;
    ret {| bi_level := level;
           bi_count := sum_nat (map icount children);
           bi_sealed := sealed;
           bi_link := Some link;
           bi_sums := ss_of (map summarize children);
           bi_kbytes := (fold_right N.add 0 (map ikbytes children) + len)%N;
           bi_vbytes := fold_right N.add 0%N (map ivbytes children) |}.

  (** The loop of write.rs 138-143; [n] is the number of children still
      allowed, so this is the loop exactly, not a bounded version of it. *)
  Fixpoint fill_children (fill1 : source -> M (Index * source)) (n : nat)
           (children : list Index) (from : source) : M (list Index * source) :=
    match n, from with
    | S n', _ :: _ =>
        '(c, from) <- fill1 from ;;
        fill_children fill1 n' (children ++ [c]) from
    | _, _ => ret (children, from)
    end.

  (** write.rs 102-161; [fill1] is [fill_node (level - 1)]. *)
  Definition extend_branch_with (fill1 : source -> M (Index * source)) (children : list Index)
             (level : nat) (from : source) (mode : create_mode) : M (BranchIndex * source) :=
    massert (Nat.ltb 0 level) "level > 0" ;;;
    massert (forallb (fun c => Nat.ltb (ilevel c) level) children)
            "All children must be below the level of the branch to be created." ;;;
    massert (match mode with
             | Packed => is_nil from
                         || forallb (fun c => Nat.eqb (ilevel c) (level - 1) && isealed c) children
             | Unpacked => is_nil children
                         || existsb (fun c => Nat.eqb (ilevel c) (level - 1)) children
             end)
            "All children must be sealed, and directly below the branch to be created." ;;;
    '(children, from) <- fill_children fill1 (max_branches cfg level - List.length children) children from ;;
    x <- new_branch children mode ;;
    massert (if is_nil from then Nat.leb (bi_level x) level
             else Nat.eqb (bi_level x) level
                  && (match mode with Packed => bi_sealed x | Unpacked => true end))
            "index.level == level && index.sealed" ;;;
    ret (x, from).

  (** write.rs 166-179 *)
  Fixpoint fill_node (level : nat) (from : source) : M (Index * source) :=
    massert (negb (is_nil from)) "from.peek().is_some()" ;;;
    match level with
    | O => '(x, from) <- leaf_from_iter from ;; ret (ILeaf x, from)
    | S l =>
        '(x, from) <- extend_branch_with (fill_node l) [] level from Packed ;;
        ret (IBranch x, from)
    end.

  Definition extend_branch (children : list Index) (level : nat) (from : source) (mode : create_mode)
    : M (BranchIndex * source) :=
    extend_branch_with (fill_node (level - 1)) children level from mode.

  (** Maximum level: [None] is [u32::MAX]. *)
  Definition below (n : nat) (bnd : option nat) : bool :=
    match bnd with None => true | Some b => Nat.ltb n b end.

  (** The loop of write.rs 235-240. *)
  Fixpoint climb (fuel : nat) (node : Index) (bnd : option nat) (from : source) : M (Index * source) :=
    if (negb (is_nil from) || Nat.eqb (ilevel node) 0) && below (ilevel node) bnd then
      match fuel with
      | O => nofuel
      | S f =>
          '(x, from) <- extend_branch [node] (S (ilevel node)) from Packed ;;
          climb f (IBranch x) bnd from
      end
    else ret (node, from).

  (** Iterations of [climb] that are enough when every second one makes progress. *)
  Definition climb_fuel (from : source) : nat := S (S (List.length from)).

  (** write.rs 286-327; [rec] is [extend_above] for the last child. *)
  Definition extend0 (rec : Index -> nat -> source -> M (Index * source)) (i : Index) (from : source)
    : M (Index * source) :=
    if isealed i || is_nil from then ret (i, from)
    else
      match node_info_of i with
      | NLeaf x l =>
          z <- load_leaf_from_link sec l ;;
          '(x', from) <- extend_leaf (zs_data z) (leaf_keys x) from ;;
          ret (ILeaf x', from)
      | NBranch x l =>
          b <- load_branch_cached sec l ;;
          let children := br_children b in
          '(children, from) <-
             match rev children with
             | last :: rest =>
                 '(last', from) <- rec last (bi_level x - 1) from ;;
                 ret (rev rest ++ [last'], from)
             | [] => ret (children, from)
             end ;;
          '(x', from) <- extend_branch children (bi_level x) from Packed ;;
          ret (IBranch x', from)
      | NPurgedBranch _ | NPurgedLeaf _ => ret (i, from)
      end.

  (** write.rs 218-248. [d] bounds the recursion depth. *)
  Fixpoint extend_above (d : nat) (node : option Index) (bnd : option nat) (from : source)
    : M (Index * source) :=
    match d with
    | O => nofuel
    | S d' =>
        if is_nil from then fail EEmpty
        else
          massert (match node, bnd with
                   | Some n, Some b => Nat.leb (ilevel n) b
                   | _, _ => true end) "level >= node.level()" ;;;
          '(node, from) <-
             match node with
             | Some n => extend0 (fun i lvl from => extend_above d' (Some i) (Some lvl) from) n from
             | None => '(x, from) <- leaf_from_iter from ;; ret (ILeaf x, from)
             end ;;
          '(node, from) <- climb (climb_fuel from) node bnd from ;;
          massert (if is_nil from
                   then match bnd with None => true | Some b => Nat.leb (ilevel node) b end
                   else match bnd with None => false | Some b => Nat.eqb (ilevel node) b end
                        && isealed node) "node.level() == level && node.sealed()" ;;;
          ret (node, from)
    end.

  Definition node_depth (node : option Index) : nat :=
    match node with Some i => depth i | None => 1 end.

  (** write.rs 250-281 *)
  Definition extend_unpacked0 (index : option Index) (from : source) : M (option Index) :=
    if is_nil from then ret index
    else
      '(b, from) <- extend_above 1 None None from ;;
      match index with
      | Some a =>
          let level := S (Nat.max (ilevel a) (ilevel b)) in
          '(x, _) <- extend_branch [a; b] level from Unpacked ;;
          ret (Some (IBranch x))
      | None => ret (Some b)
      end.

  (** forest/mod.rs 255-264 *)
  Inductive branch_result := RSealed (n : nat) | RUnsealed (n : nat) | RSkip (n : nat).

  (** [children.iter().position(|x| x.level() < first_level)], or the length *)
  Fixpoint position_below (lvl : nat) (l : list Index) : nat :=
    match l with
    | [] => 0
    | x :: l' => if Nat.ltb (ilevel x) lvl then 0 else S (position_below lvl l')
    end.

  (** write.rs 501-528 *)
  Definition find_valid_branch (children : list Index) : res branch_result :=
    if negb (Nat.ltb 1 (List.length children)) then Panic (PAssert "children.len() > 1")
    else if negb (levels_desc children) then Panic (PAssert "is_sorted(children.levels.rev())")
    else
      match children with
      | [] => Panic (PAssert "!children.is_empty()")
      | c :: _ =>
          let first_level := ilevel c in
          let max_count := if Nat.eqb first_level 0 then max_key_branches cfg else max_summary_branches cfg in
          let len := List.length children in
          let pos := position_below first_level children in
          if Nat.leb max_count pos then Ok (RSealed max_count)
          else if Nat.eqb pos len || Nat.eqb pos (len - 1) then Ok (RUnsealed (Nat.min max_count len))
          else Ok (RSkip pos)
      end.

  (** write.rs 330-349. [fuel] bounds the recursion, which skips at least one root. *)
  Fixpoint simplify_roots (fuel : nat) (roots : list Index) (from : nat) : M (list Index) :=
    massert (Nat.ltb 1 (List.length roots)) "roots.len() > 1" ;;;
    massert (levels_desc roots) "is_sorted(roots.levels.rev())" ;;;
    r <- lift (find_valid_branch (skipn from roots)) ;;
    match r with
    | RSealed count | RUnsealed count =>
        x <- new_branch (firstn count (skipn from roots)) Packed ;;
        ret (firstn from roots ++ [IBranch x] ++ skipn (from + count) roots)
    | RSkip count =>
        match fuel with
        | O => nofuel
        | S f => simplify_roots f roots (from + count)
        end
    end.

  (** The loop of tree.rs 518-520. *)
  Fixpoint simplify_all (fuel : nat) (roots : list Index) : M (list Index) :=
    if Nat.ltb 1 (List.length roots) then
      match fuel with
      | O => nofuel
      | S f =>
          roots <- simplify_roots (List.length roots) roots 0 ;;
          simplify_all f roots
      end
    else ret roots.

  (** tree.rs 511-523; returns the new root ([roots.pop()]). *)
  Definition tree_from_roots (roots : list Index) : M (option Index) :=
    massert (forallb isealed roots) "roots.iter().all(|x| x.sealed())" ;;;
    massert (levels_desc roots) "is_sorted(roots.levels.rev())" ;;;
    roots <- simplify_all (2 * List.length roots) roots ;;
    ret (last (map Some roots) None).

  (** [Option<Link>] equality of write.rs 404, 463 *)
  Definition link_eqb (a b : option L) : bool :=
    match a, b with
    | None, None => true
    | Some x, Some y => l_eqb x y
    | _, _ => false
    end.

  (** The cursor update of write.rs 373-381. *)
  Definition retain_cursor (i : Index) (cur : option Z) : option Z :=
    if isealed i && cur_le (ilevel i) cur then Some (Z.of_nat (ilevel i))
    else cur_min cur (Z.of_nat (ilevel i) - 1).

  (** write.rs 365-430; returns the new index and the cursor. *)
  Fixpoint retain0 (q : Query) (d : nat) (offset : nat) (i : Index) (cur : option Z)
    : M (Index * option Z) :=
    let cur := retain_cursor i cur in
    match i with
    | IBranch x =>
        let matching := q_intersecting q offset x (map (fun _ => true) (branch_sums x)) in
        let x :=
          if (match bi_link x with Some _ => true | None => false end)
             && bi_sealed x && negb (any matching) && cur_le (bi_level x) cur
          then branch_set_link x None else x in
        match bi_link x with
        | None => ret (IBranch x, cur)
        | Some l =>
            match d with
            | O => nofuel
            | S d' =>
                b <- load_branch_from_link sec l ;;
                '(children, changed, cur) <-
                   (fix go (cs : list Index) (offset : nat) (cur : option Z)
                      : M (list Index * bool * option Z) :=
                      match cs with
                      | [] => ret ([], false, cur)
                      | c :: cs' =>
                          '(c1, cur1) <- retain0 q d' offset c cur ;;
                          let changed1 := negb (link_eqb (ilink c1) (ilink c)) in
                          let c' := if changed1 then c1 else c in
                          '(cs1, changed2, cur2) <- go cs' (offset + icount c) cur1 ;;
                          ret (c' :: cs1, changed1 || changed2, cur2)
                      end) (br_children b) offset cur ;;
                if changed then
                  '(link, _) <- persist_branch children ;;
                  ret (IBranch (branch_set_link x (Some link)), cur)
                else ret (IBranch x, cur)
            end
        end
    | ILeaf x =>
        let x :=
          if li_sealed x && (match li_link x with Some _ => true | None => false end) && cur_le 0 cur then
            let matching := q_containing q offset x (map (fun _ => true) (leaf_keys x)) in
            if negb (any matching) then leaf_set_link x None else x
          else x in
        ret (ILeaf x, cur)
    end.

  (** Entries of the repair report (write.rs 470-475, 486-490). *)
  Inductive report :=
  | ForgetBranch (l : option L) | WarnUnsealedBranch | WarnUnpackedBranch
  | ForgetLeaf (l : option L) | WarnUnsealedLeaf | WarnUnpackedLeaf.

  (** Run and turn an error into a value ([match branch { Err(cause) => .. }]). *)
  Definition try {A} (m : M A) : M (A + error) :=
    fun w =>
      match m w with
      | (Ok a, w') => (Ok (inl a), w')
      | (Err e, w') => (Ok (inr e), w')
      | (Panic p, w') => (Panic p, w')
      | (NoFuel, w') => (NoFuel, w')
      end.

  (** write.rs 439-441 *)
  Definition repair_cursor (i : Index) (cur : option Z) : option Z :=
    if negb (isealed i) then cur_min cur (Z.of_nat (ilevel i) - 1) else cur.

  (** write.rs 432-496 *)
  Fixpoint repair0 (d : nat) (i : Index) (cur : option Z) : M (Index * list report * option Z) :=
    let cur := repair_cursor i cur in
    match i with
    | IBranch x =>
        r <- try (load_branch sec x) ;;
        match r with
        | inl (Some b) =>
            match d with
            | O => nofuel
            | S d' =>
                '(children, changed, rep, cur) <-
                   (fix go (cs : list Index) (cur : option Z)
                      : M (list Index * bool * list report * option Z) :=
                      match cs with
                      | [] => ret ([], false, [], cur)
                      | c :: cs' =>
                          '(c1, rep1, cur1) <- repair0 d' c cur ;;
                          let changed1 := negb (link_eqb (ilink c1) (ilink c)) in
                          let c' := if changed1 then c1 else c in
                          '(cs1, changed2, rep2, cur2) <- go cs' cur1 ;;
                          ret (c' :: cs1, changed1 || changed2, rep1 ++ rep2, cur2)
                      end) (br_children b) cur ;;
                if changed then
                  '(link, _) <- persist_branch children ;;
                  ret (IBranch (branch_set_link x (Some link)), rep, cur)
                else ret (IBranch x, rep, cur)
            end
        | inl None => ret (IBranch x, [], cur)
        | inr _ =>
            ret (IBranch (branch_set_link x None),
                 ForgetBranch (bi_link x) ::
                 (if negb (bi_sealed x) then [WarnUnsealedBranch]
                  else if negb (cur_le (bi_level x) cur) then [WarnUnpackedBranch] else []), cur)
        end
    | ILeaf x =>
        r <- try (load_leaf sec x) ;;
        match r with
        | inl _ => ret (ILeaf x, [], cur)
        | inr _ =>
            ret (ILeaf (leaf_set_link x None),
                 ForgetLeaf (li_link x) ::
                 (if negb (li_sealed x) then [WarnUnsealedLeaf]
                  else if negb (cur_le 0 cur) then [WarnUnpackedLeaf] else []), cur)
        end
    end.
End Write.

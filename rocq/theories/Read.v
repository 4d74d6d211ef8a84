(** forest/read.rs and the read half of tree.rs: everything but the iterators. *)
From Coq Require Import List NArith ZArith Lia Bool String.
From Coq Require Import Strings.Byte.
From Verif Require Import Base Cbor Types Seq World.
Import ListNotations.
Open Scope m_scope.

Section Read.
  Context {T : Types} {X : Ext} {B : Backend T}.
  Variable sec : Secrets.

  (** read.rs 425-434 *)
  Definition get_block (l : L) : M bytes :=
    fun w =>
      match sget (w_store w) l with
      | (Some d, s) => (Ok d, set_store w s)
      | (None, s) => (Err EMissing, set_store w s)
      end.

  (** read.rs 373-379; the byte range of the leaf is not used by any caller. *)
  Definition load_leaf_from_link (l : L) : M zseq :=
    d <- get_block l ;;
    '(z, _) <- lift (decrypt d (value_key sec) nonce) ;;
    ret z.

  (** read.rs 364-370 *)
  Definition load_leaf (x : LeafIndex) : M (option zseq) :=
    match li_link x with
    | Some l => z <- load_leaf_from_link l ;; ret (Some z)
    | None => ret None
    end.

  (** [Branch::new], index.rs 274-280: asserts that there are children. *)
  Definition new_branch_data (r : list Index * (N * N)) : M Branch :=
    match fst r with
    | [] => mpanic (PAssert "!children.is_empty()")
    | cs => ret {| br_children := cs; br_range := snd r |}
    end.

  (** read.rs 437-450 *)
  Definition load_branch_from_link (l : L) : M Branch :=
    d <- get_block l ;;
    r <- lift (deserialize_compressed (index_key sec) d) ;;
    new_branch_data r.

  (** read.rs 468-484 *)
  Definition load_branch (x : BranchIndex) : M (option Branch) :=
    match bi_link x with
    | Some l => b <- load_branch_from_link l ;; ret (Some b)
    | None => ret None
    end.

  Definition cache_get (l : L) : M (option Branch) :=
    fun w => let '(r, c) := cget (w_cache w) l in (Ok r, set_cache w c).
  Definition cache_put (l : L) (b : Branch) : M unit :=
    fun w => (Ok tt, set_cache w (cput (w_cache w) l b)).

  (** read.rs 409-423 *)
  Definition load_branch_cached (l : L) : M Branch :=
    r <- cache_get l ;;
    match r with
    | Some b => ret b
    | None =>
        b <- load_branch_from_link l ;;
        cache_put l b ;;;
        ret b
    end.

  (** [NodeInfo], index.rs 371-377, read.rs 452-465. *)
  Inductive node_info :=
  | NBranch (x : BranchIndex) (l : L)
  | NLeaf (x : LeafIndex) (l : L)
  | NPurgedBranch (x : BranchIndex)
  | NPurgedLeaf (x : LeafIndex).

  Definition node_info_of (i : Index) : node_info :=
    match i with
    | IBranch x => match bi_link x with Some l => NBranch x l | None => NPurgedBranch x end
    | ILeaf x => match li_link x with Some l => NLeaf x l | None => NPurgedLeaf x end
    end.

  (** [Leaf::child_at], index.rs 305-309 *)
  Definition child_at (z : zseq) (i : nat) : res V :=
    rbind (zs_get z i) (fun r => ok_or r EIndex).

  (** read.rs 486-515. [d] bounds the recursion depth. *)
  Fixpoint get0 (d : nat) (i : Index) (offset : nat) : M (option (K * V)) :=
    if Nat.leb (icount i) offset then ret None
    else
      match node_info_of i with
      | NBranch _ l =>
          match d with
          | O => nofuel
          | S d' =>
              b <- load_branch_cached l ;;
              (fix go (cs : list Index) (offset : nat) : M (option (K * V)) :=
                 match cs with
                 | [] => fail EIndex
                 | c :: cs' =>
                     if Nat.ltb offset (icount c) then get0 d' c offset
                     else go cs' (offset - icount c)
                 end) (br_children b) offset
          end
      | NLeaf x l =>
          match nth_error (leaf_keys x) offset with
          | None => mpanic (PAssert "index.keys.get(offset).unwrap()")
          | Some k =>
              z <- load_leaf_from_link l ;;
              v <- lift (child_at z offset) ;;
              ret (Some (k, v))
          end
      | NPurgedBranch _ | NPurgedLeaf _ => ret None
      end.

  (** read.rs 517-555; returns what is pushed to [into]. *)
  Fixpoint collect0 (d : nat) (i : Index) (offset : nat) : M (list (option (K * V))) :=
    if Nat.leb (icount i) offset then ret []
    else
      match node_info_of i with
      | NBranch _ l =>
          match d with
          | O => nofuel
          | S d' =>
              b <- load_branch_cached l ;;
              (fix go (cs : list Index) (offset : nat) : M (list (option (K * V))) :=
                 match cs with
                 | [] => ret []
                 | c :: cs' =>
                     r1 <- (if Nat.ltb offset (icount c) then collect0 d' c offset else ret []) ;;
                     r2 <- go cs' (offset - icount c) ;;
                     ret (r1 ++ r2)
                 end) (br_children b) offset
          end
      | NLeaf x l =>
          z <- load_leaf_from_link l ;;
          vs <- lift (zs_items z) ;;
          ret (map Some (skipn offset (combine (leaf_keys x) vs)))
      | NPurgedLeaf x => ret (repeat None (List.length (leaf_keys x) - offset))
      | NPurgedBranch x => ret (repeat None (bi_count x - offset))
      end.

  (** read.rs 381-406. [sealed] is the caller's predicate. *)
  Definition create_index_from_link (sealed : list Index -> nat -> bool) (l : L)
    : M (Index * (N * N)) :=
    d <- get_block l ;;
    '(cs, r) <- lift (deserialize_compressed (index_key sec) d) ;;
    match cs with
    | [] => mpanic (PAssert "children.iter().max().unwrap()")
    | _ =>
        let level := S (max_nat (map ilevel cs)) in
        ret (IBranch {| bi_count := sum_nat (map icount cs);
                        bi_level := level;
                        bi_sealed := sealed cs level;
                        bi_link := Some l;
                        bi_sums := ss_of (map summarize cs);
                        bi_vbytes := fold_right N.add 0%N (map ivbytes cs);
                        bi_kbytes := (fold_right N.add 0 (map ikbytes cs) + Nlen d)%N |}, r)
    end.

  (** read.rs 672-694. [level] is the [i32] cursor; [None] is [i32::MAX].
      [roots_impl] (665-670) starts with [None]. *)
  Definition cur_le (level : nat) (cur : option Z) : bool :=
    match cur with None => true | Some c => (Z.of_nat level <=? c)%Z end.
  Definition cur_min (cur : option Z) (c : Z) : option Z :=
    Some (match cur with None => c | Some c0 => Z.min c0 c end).

  Fixpoint roots0 (d : nat) (i : Index) (cur : option Z) : M (list Index * option Z) :=
    if isealed i && cur_le (ilevel i) cur then
      ret ([i], Some (Z.of_nat (ilevel i)))
    else
      let cur := cur_min cur (Z.of_nat (ilevel i) - 1) in
      match i with
      | ILeaf _ => ret ([], cur)
      | IBranch x =>
          match bi_link x with
          | None => ret ([], cur)
          | Some l =>
              match d with
              | O => nofuel
              | S d' =>
                  b <- load_branch_from_link l ;;
                  (fix go (cs : list Index) (cur : option Z) : M (list Index * option Z) :=
                     match cs with
                     | [] => ret ([], cur)
                     | c :: cs' =>
                         '(r1, cur1) <- roots0 d' c cur ;;
                         '(r2, cur2) <- go cs' cur1 ;;
                         ret (r1 ++ r2, cur2)
                     end) (br_children b) cur
              end
          end
      end.

  (** Failed checks of [check_invariants0]. *)
  Inductive violation :=
  | ValueCountKeyCount | BranchCountSummaryCount | ChildLevelSealed | ChildLevelUnsealed
  | ChildSummary | BranchSealed.

  Definition check (b : bool) (v : violation) : list violation := if b then [] else [v].

  (** read.rs 696-750; the [level] argument is never read. *)
  Fixpoint check_invariants0 (cfg : Config) (d : nat) (i : Index) : M (list violation) :=
    match node_info_of i with
    | NLeaf x l =>
        z <- load_leaf_from_link l ;;
        n <- lift (zs_count z) ;;
        ret (check (Nat.eqb n (List.length (leaf_keys x))) ValueCountKeyCount)
    | NBranch x l =>
        match d with
        | O => nofuel
        | S d' =>
            b <- load_branch_cached l ;;
            let cs := br_children b in
            let m1 := check (Nat.eqb (List.length cs) (List.length (branch_sums x))) BranchCountSummaryCount in
            let m2 := flat_map (fun c =>
                        if bi_sealed x then check (Nat.eqb (ilevel c) (bi_level x - 1)) ChildLevelSealed
                        else check (Nat.ltb (ilevel c) (bi_level x)) ChildLevelUnsealed) cs in
            let m3 := flat_map (fun p => check (s_eqb (summarize (fst p)) (snd p)) ChildSummary)
                        (combine cs (branch_sums x)) in
            let m4 := check (Bool.eqb (bi_sealed x) (branch_sealed cfg cs (bi_level x))) BranchSealed in
            ms <- mmapM (check_invariants0 cfg d') cs ;;
            ret (m1 ++ m2 ++ m3 ++ m4 ++ List.concat ms)
        end
    | NPurgedBranch _ | NPurgedLeaf _ => ret []
    end.

  (** read.rs 753-777 *)
  Fixpoint is_packed0 (d : nat) (i : Index) : M bool :=
    match node_info_of i with
    | NBranch x l =>
        if bi_sealed x then ret true
        else
          match d with
          | O => nofuel
          | S d' =>
              b <- load_branch_cached l ;;
              match rev (br_children b) with
              | [] => ret true
              | last :: rest =>
                  let first_ok := forallb (fun c => isealed c && Nat.eqb (ilevel c) (bi_level x - 1)) (rev rest) in
                  let last_ok := Nat.ltb (ilevel last) (bi_level x) in
                  rec_ok <- is_packed0 d' last ;;
                  ret (first_ok && last_ok && rec_ok)
              end
          end
    | _ => ret true
    end.

  (** tree.rs 260-275 *)
  Fixpoint left_roots0 (d : nat) (i : Index) : M (list Index) :=
    r <- match i with
         | IBranch x =>
             match bi_link x with
             | Some l =>
                 match d with
                 | O => nofuel
                 | S d' =>
                     b <- load_branch_cached l ;;
                     match br_children b with
                     | [] => mpanic (PAssert "branch can never have 0 children")
                     | c :: _ => left_roots0 d' c
                     end
                 end
             | None => ret []
             end
         | ILeaf _ => ret []
         end ;;
    ret (r ++ [i]).

  (** tree.rs 210-239. A [BTreeMap] is the list of its entries; [nodes.append]
      with ids that are all new appends. *)
  Fixpoint dump_graph0 {S} (f : nat -> Index -> S) (d : nat) (parent : option nat) (next_id : nat)
           (i : Index) : M (list (nat * nat) * list (nat * S)) :=
    let edges := match parent with Some p => [(p, next_id)] | None => [] end in
    let nodes := [(next_id, f next_id i)] in
    match node_info_of i with
    | NBranch _ l =>
        match d with
        | O => nofuel
        | S d' =>
            b <- load_branch_cached l ;;
            (fix go (cs : list Index) (cur : nat) edges nodes :=
               match cs with
               | [] => ret (edges, nodes)
               | c :: cs' =>
                   '(e, n) <- dump_graph0 f d' (Some next_id) (cur + 1) c ;;
                   go cs' (cur + List.length n) (edges ++ e) (nodes ++ n)
               end) (br_children b) next_id edges nodes
        end
    | _ => ret (edges, nodes)
    end.

  (** Depth sufficient for an index whose children are below it. *)
  Definition depth (i : Index) : nat := S (ilevel i).
End Read.

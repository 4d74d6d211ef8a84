(** banyan-utils: tag_index.rs (tag sets, tag index, boolean expressions over
    tags) and tags.rs (keys with time range and tags, queries for them).

    Simplifications: a tag is the UTF-8 bytes of a string ([SmolStr] is ordered by
    those); [VecSet] and [BTreeSet] are strictly sorted lists, their bulk
    operations ([is_subset], [is_disjoint], ...) are expressed through
    membership; [serde] implementations are not modelled; for
    [Display] see Display.v. *)
From Coq Require Import List NArith Lia Bool String.
From Coq Require Import Strings.Byte.
From Verif Require Import Base Cbor Types.
Import ListNotations.
Open Scope list_scope.

(** * Ordered sets *)

(** [Ord]: a total order. *)
Class Ord (A : Type) := {
  cmp : A -> A -> comparison;
  cmp_eq : forall x y, cmp x y = Eq <-> x = y;
  cmp_sym : forall x y, cmp y x = CompOpp (cmp x y);
  cmp_trans : forall x y z, cmp x y = Lt -> cmp y z = Lt -> cmp x z = Lt
}.

(** Slices are ordered lexicographically. *)
Fixpoint lex {A} `{Ord A} (a b : list A) : comparison :=
  match a, b with
  | [], [] => Eq
  | [], _ :: _ => Lt
  | _ :: _, [] => Gt
  | x :: a', y :: b' => match cmp x y with Eq => lex a' b' | c => c end
  end.

#[export] Instance N_ord : Ord N.
Proof.
  refine {| cmp := N.compare |}; intros.
  - apply N.compare_eq_iff.
  - apply N.compare_antisym.
  - rewrite N.compare_lt_iff in *. lia.
Defined.

#[export] Instance byte_ord : Ord byte.
Proof.
  refine {| cmp := fun a b => N.compare (byte_to_N a) (byte_to_N b) |}; intros.
  - rewrite N.compare_eq_iff. split; [|congruence].
    unfold byte_to_N. intros E. apply (f_equal Byte.of_N) in E.
    rewrite !Byte.of_to_N in E. now injection E.
  - apply N.compare_antisym.
  - rewrite N.compare_lt_iff in *. lia.
Defined.

#[export] Instance list_ord {A} (O : Ord A) : Ord (list A).
Proof.
  refine {| cmp := lex |}.
  - induction x as [|x a IH]; intros [|y b]; cbn; try easy.
    destruct (cmp x y) eqn:E; [|split; [discriminate|intros X; injection X as -> _]..].
    + apply cmp_eq in E. subst. rewrite IH. split; congruence.
    + rewrite (proj2 (cmp_eq y y) eq_refl) in E. discriminate.
    + rewrite (proj2 (cmp_eq y y) eq_refl) in E. discriminate.
  - induction x as [|x a IH]; intros [|y b]; cbn; try easy.
    rewrite (cmp_sym x y). destruct (cmp x y) eqn:E; cbn; auto.
  - induction x as [|x a IH]; intros [|y b] [|z c]; cbn; try easy.
    destruct (cmp x y) eqn:E; try discriminate.
    + apply cmp_eq in E. subst. destruct (cmp y z) eqn:F; try discriminate; [|reflexivity]. apply IH.
    + intros _. destruct (cmp y z) eqn:F; try discriminate.
      * apply cmp_eq in F. subst. now rewrite E.
      * now rewrite (cmp_trans _ _ _ E F).
Defined.

Section VecSet.
  Context {A : Type} {O : Ord A}.

  Definition eqb (x y : A) : bool := match cmp x y with Eq => true | _ => false end.

  (** [VecSet<[A; n]>] and [BTreeSet<A>]: strictly sorted. *)
  Definition vset := list A.

  (** [insert] *)
  Fixpoint vs_insert (x : A) (s : vset) : vset :=
    match s with
    | [] => [x]
    | y :: s' =>
        match cmp x y with
        | Lt => x :: s
        | Eq => s
        | Gt => y :: vs_insert x s'
        end
    end.
  (** [extend] and [collect] *)
  Definition vs_extend (s : vset) (l : list A) : vset := fold_left (fun s x => vs_insert x s) l s.
  Definition vs_of (l : list A) : vset := vs_extend [] l.
  (** [BTreeSet::remove] *)
  Definition vs_remove (x : A) (s : vset) : vset := filter (fun y => negb (eqb x y)) s.
  Definition mem (x : A) (s : list A) : bool := existsb (eqb x) s.
  Definition is_subset (a b : vset) : bool := forallb (fun x => mem x b) a.
  Definition is_superset (a b : vset) : bool := is_subset b a.
  Definition is_disjoint (a b : vset) : bool := forallb (fun x => negb (mem x b)) a.

  (** [slice::binary_search(..).ok()]: for a sorted slice without duplicates, the
      position of the element. *)
  Fixpoint position (x : A) (s : list A) : option nat :=
    match s with
    | [] => None
    | y :: s' => if eqb x y then Some 0 else option_map S (position x s')
    end.
End VecSet.
Arguments vset : clear implicits.

(** tag_index.rs 17-19 *)
Definition tag := bytes.
Definition tagset := vset tag.
Definition indexset := vset N.

(** [x as u32] for a [usize]. *)
Definition as_u32 (n : nat) : N := (N.of_nat n mod two32)%N.

(** * Tag index *)

(** [TagIndex], tag_index.rs 23-28 *)
Record tag_index := { ti_tags : tagset; ti_elements : list indexset }.

(** tag_index.rs 98-102; also the closure of [matching], 110-114 *)
Definition map_to_index_set (table tags : tagset) : option indexset :=
  option_map vs_of (omapM (fun t => option_map as_u32 (position t table)) tags).

(** [matching], tag_index.rs 107-133; a [Dnf] is a set of tag sets. *)
Definition ti_matching (ti : tag_index) (query : list tagset) : list nat :=
  let q := flat_map (fun s => match map_to_index_set (ti_tags ti) s with
                              | Some x => [x] | None => [] end) query in
  match q with
  | [] => []
  | _ =>
      flat_map (fun ie => if existsb (fun x => is_subset x (snd ie)) q then [fst ie] else [])
        (combine (seq 0 (List.length (ti_elements ti))) (ti_elements ti))
  end.

(** [is.iter().map(|i| self.tags.as_ref()[*i as usize].clone()).collect()],
    tag_index.rs 141-143 and 165-167: panics if an index is out of bounds. *)
Definition ti_lookup (tags : tagset) (is : indexset) : res tagset :=
  rmap vs_of
    (rmapM (fun i => match nth_error tags (N.to_nat i) with
                     | Some t => Ok t
                     | None => Panic (PAssert "index out of bounds")
                     end) is).

(** [iter_elements], [as_elements], tag_index.rs 135-145 *)
Definition ti_as_elements (ti : tag_index) : res (list tagset) :=
  rmapM (ti_lookup (ti_tags ti)) (ti_elements ti).

(** [from_elements], tag_index.rs 147-161 *)
Definition ti_from (e : list tagset) : res tag_index :=
  let tags := fold_left (fun tags a => vs_extend tags a) e [] in
  rbind
    (rmapM (fun a =>
       rmap vs_of
         (rmapM (fun t => match position t tags with
                          | Some i => Ok (as_u32 i)
                          | None => Panic (PAssert "unwrap")
                          end) a)) e)
    (fun elements => Ok {| ti_tags := tags; ti_elements := elements |}).

(** [get], tag_index.rs 163-169 *)
Definition ti_get (ti : tag_index) (index : nat) : res (option tagset) :=
  match nth_error (ti_elements ti) index with
  | None => Ok None
  | Some is => rmap Some (ti_lookup (ti_tags ti) is)
  end.

(** [Encode], tag_index.rs 30-45 *)
Definition cstrings (l : list tag) : cbor := CArr (map CText l).
Definition cu32s (l : list N) : cbor := CArr (map CUint l).
Definition ti_encode (ti : tag_index) : bytes :=
  Byte.x82 :: enc (cstrings (ti_tags ti)) ++ enc (CArr (map cu32s (ti_elements ti))).

Section Decode.
  (** Whether bytes are valid UTF-8. *)
  Context (utf8 : bytes -> bool).

  (** [Decode] of libipld for [String], [u32] and [Vec]. *)
  Definition dec_string (c : cbor) : option tag :=
    match c with CText b => if utf8 b then Some b else None | _ => None end.
  Definition dec_u32 (c : cbor) : option N :=
    match c with CUint n => if (n <? two32)%N then Some n else None | _ => None end.
  Definition dec_vec {A} (f : cbor -> option A) (c : cbor) : option (list A) :=
    match c with CArr l => omapM f l | _ => None end.

  (** [Decode], tag_index.rs 47-69; also returns what follows in the input. *)
  Definition ti_decode (bs : bytes) : res (tag_index * bytes) :=
    match bs with
    | Byte.x82 :: bs1 =>
        match checked_prefix bs1 with
        | None => Err ECbor
        | Some (c1, bs2) =>
            match dec_vec dec_string c1 with
            | None => Err ECbor
            | Some tags =>
                match checked_prefix bs2 with
                | None => Err ECbor
                | Some (c2, bs3) =>
                    match dec_vec (dec_vec dec_u32) c2 with
                    | None => Err ECbor
                    | Some elements =>
                        let tags := vs_of tags in
                        let elements := map vs_of elements in
                        if forallb (forallb (fun x => (x <? Nlen tags)%N)) elements
                        then Ok ({| ti_tags := tags; ti_elements := elements |}, bs3)
                        else Err EOther
                    end
                end
            end
        end
    | _ => Err ECbor
    end.
End Decode.

(** * Expressions *)

(** [Expression], tag_index.rs 178-182 *)
Inductive expr :=
| ELit (t : tag)
| EAnd (es : list expr)
| EOr (es : list expr).

(** [Expression::or], [Expression::and], tag_index.rs 225-245 *)
Definition e_or (es : list expr) : expr :=
  EOr (flat_map (fun c => match c with EOr es => es | x => [x] end) es).
Definition e_and (es : list expr) : expr :=
  EAnd (flat_map (fun c => match c with EAnd es => es | x => [x] end) es).
(** [BitOr], [BitAnd], tag_index.rs 306-318 *)
Definition e_bitor (a b : expr) : expr := e_or [a; b].
Definition e_bitand (a b : expr) : expr := e_and [a; b].

(** [if v.len() == 1 { v.into_iter().next().unwrap() } else { .. }] *)
Definition single_or (f : list expr -> expr) (v : list expr) : expr :=
  match v with [e] => e | _ => f v end.

(** [simplify], tag_index.rs 247-287 *)
Fixpoint simplify (e : expr) : expr :=
  match e with
  | ELit _ => e
  | EAnd v => single_or EAnd (flat_map (fun e => match simplify e with EAnd inner => inner | e => [e] end) v)
  | EOr v => single_or EOr (flat_map (fun e => match simplify e with EOr inner => inner | e => [e] end) v)
  end.

(** * Disjunctive normal form *)

(** [Dnf], tag_index.rs 325 *)
Definition dnf := vset tagset.

(** [Dnf::literal], tag_index.rs 328-330 *)
Definition dnf_literal (t : tag) : dnf := [[t]].

(** The loop of [insert_unless_redundant], tag_index.rs 343-354: [None] is the
    early return. *)
Fixpoint iur_scan (aa : list tagset) (b : tagset) (to_remove : option tagset) : option (option tagset) :=
  match aa with
  | [] => Some to_remove
  | a :: aa' =>
      if is_subset a b then None
      else if is_superset a b then iur_scan aa' b (Some a)
      else iur_scan aa' b to_remove
  end.

(** [insert_unless_redundant], tag_index.rs 342-359 *)
Definition insert_unless_redundant (aa : dnf) (b : tagset) : dnf :=
  match iur_scan aa b None with
  | None => aa
  | Some None => vs_insert b aa
  | Some (Some r) => vs_insert b (vs_remove r aa)
  end.

(** [BitAnd for Dnf], tag_index.rs 367-381 *)
Definition dnf_and (x y : dnf) : dnf :=
  fold_left (fun rs a =>
    fold_left (fun rs b => insert_unless_redundant rs (vs_extend (vs_extend [] a) b)) y rs) x [].

(** [BitOr for Dnf], tag_index.rs 383-392 *)
Definition dnf_or (x y : dnf) : dnf := fold_left insert_unless_redundant y x.

(** [Reduce::reduce(..).unwrap()] *)
Definition reduce {A} (f : A -> A -> A) (l : list A) : res A :=
  match l with
  | [] => Panic (PAssert "unwrap")
  | x :: l' => Ok (fold_left f l' x)
  end.

(** [Expression::dnf], tag_index.rs 293-303 *)
Fixpoint e_dnf (e : expr) : res dnf :=
  match e with
  | ELit t => Ok (dnf_literal t)
  | EOr es => rbind (rmapM e_dnf es) (reduce dnf_or)
  | EAnd es => rbind (rmapM e_dnf es) (reduce dnf_and)
  end.

(** [Dnf::and_expr], [Dnf::expression], tag_index.rs 333-339 *)
Definition and_expr (v : tagset) : res expr := reduce e_bitand (map ELit v).
Definition dnf_expression (d : dnf) : res expr := rbind (rmapM and_expr d) (reduce e_bitor).

(** * Keys, tags.rs *)

(** [TimeData] and [Key], tags.rs 97-107 *)
Record time := { t_lamport : N; t_min : N; t_max : N }.
Record key := { k_time : time; k_tags : tagset }.

(** [TimeData::intersects], tags.rs 110-118 *)
Definition t_intersects (a b : time) : bool :=
  if (t_max a <? t_min b)%N then false
  else if (t_max b <? t_min a)%N then false
  else true.
(** [TimeData::contains], tags.rs 120-128 *)
Definition t_contains (a b : time) : bool :=
  if (t_min b <? t_min a)%N then false
  else if (t_max a <? t_max b)%N then false
  else true.

(** [Key::single], [Key::filter_tags], [Key::range], tags.rs 139-170 *)
Definition k_single (lamport t : N) (tags : tagset) : key :=
  {| k_time := {| t_lamport := lamport; t_min := t; t_max := t |}; k_tags := tags |}.
Definition k_filter (tags : tagset) : key :=
  {| k_time := {| t_lamport := 0; t_min := 0; t_max := two64 - 1 |}; k_tags := tags |}%N.
Definition k_range (a b : N) (tags : tagset) : key :=
  {| k_time := {| t_lamport := 0; t_min := a; t_max := b |}; k_tags := tags |}%N.

(** [Key::intersects], [Key::contains], tags.rs 172-178 *)
Definition k_intersects (a b : key) : bool :=
  t_intersects (k_time a) (k_time b) && negb (is_disjoint (k_tags a) (k_tags b)).
Definition k_contains (a b : key) : bool :=
  t_contains (k_time a) (k_time b) && is_superset (k_tags a) (k_tags b).

(** [KeySeq], tags.rs 282-287 *)
Record keyseq := {
  ks_lamport : list N;
  ks_min : list N;
  ks_max : list N;
  ks_tags : tag_index
}.

(** [KeySeq::time], tags.rs 290-300: panics if the vectors differ in length. *)
Definition kseq_time (s : keyseq) (i : nat) : res (option time) :=
  match nth_error (ks_lamport s) i with
  | None => Ok None
  | Some l =>
      match nth_error (ks_min s) i, nth_error (ks_max s) i with
      | Some a, Some b => Ok (Some {| t_lamport := l; t_min := a; t_max := b |})
      | _, _ => Panic (PAssert "index out of bounds")
      end
  end.

(** [CompactSeq::get], [CompactSeq::len], tags.rs 306-328 *)
Definition kseq_get (s : keyseq) (i : nat) : res (option key) :=
  rbind (ti_get (ks_tags s) i) (fun tags =>
    match nth_error (ks_lamport s) i, nth_error (ks_min s) i, nth_error (ks_max s) i, tags with
    | Some l, Some a, Some b, Some ts =>
        Ok (Some {| k_time := {| t_lamport := l; t_min := a; t_max := b |}; k_tags := ts |})
    | _, _, _, _ => Ok None
    end).
Definition kseq_len (s : keyseq) : nat := List.length (ti_elements (ks_tags s)).

(** [iter().max().unwrap()] and [iter().min().unwrap()] *)
Definition list_max (l : list N) : res N := reduce N.max l.
Definition list_min (l : list N) : res N := reduce N.min l.

(** [summarize], tags.rs 336-354 *)
Definition kseq_summarize (s : keyseq) : res key :=
  rbind (list_max (ks_max s)) (fun mx =>
  rbind (list_min (ks_min s)) (fun mn =>
  rbind (list_min (ks_lamport s)) (fun lm =>
  Ok {| k_time := {| t_lamport := lm; t_min := mn; t_max := mx |};
        k_tags := ti_tags (ks_tags s) |}))).

(** [from_iter], tags.rs 357-376 *)
Definition kseq_from (l : list key) : res keyseq :=
  rbind (ti_from (map k_tags l)) (fun ti =>
  Ok {| ks_lamport := map (fun k => t_lamport (k_time k)) l;
        ks_min := map (fun k => t_min (k_time k)) l;
        ks_max := map (fun k => t_max (k_time k)) l;
        ks_tags := ti |}).

(** [DnfQuery::map_into], tags.rs 200-215: one tag that does not occur in the
    sequence makes the whole query empty. *)
Definition map_into (q : list key) (s : keyseq) : list (indexset * time) :=
  match omapM (fun k => option_map (fun is => (is, k_time k))
                          (map_to_index_set (ti_tags (ks_tags s)) (k_tags k))) q with
  | Some l => l
  | None => []
  end.

(** [iter().any(..)] with a test that can panic. *)
Fixpoint anyM {A} (f : A -> res bool) (l : list A) : res bool :=
  match l with
  | [] => Ok false
  | x :: l' => rbind (f x) (fun b => if b then Ok true else anyM f l')
  end.

(** [self.seq.time(i).unwrap()] and [self.seq.tags.elements[i]] *)
Definition kseq_time_unwrap (s : keyseq) (i : nat) : res time :=
  rbind (kseq_time s i) (fun o =>
    match o with Some t => Ok t | None => Panic (PAssert "unwrap") end).
Definition kseq_element (s : keyseq) (i : nat) : res indexset :=
  match nth_error (ti_elements (ks_tags s)) i with
  | Some e => Ok e
  | None => Panic (PAssert "index out of bounds")
  end.

(** [TranslatedDnfQuery::intersects] and [contains], tags.rs 231-243 *)
Definition tq_intersects (q : list (indexset * time)) (s : keyseq) (i : nat) : res bool :=
  anyM (fun e => rbind (kseq_time_unwrap s i) (fun t =>
    if t_intersects (snd e) t
    then rmap (fun x => negb (is_disjoint (fst e) x)) (kseq_element s i)
    else Ok false)) q.
Definition tq_contains (q : list (indexset * time)) (s : keyseq) (i : nat) : res bool :=
  anyM (fun e => rbind (kseq_time_unwrap s i) (fun t =>
    if t_contains (snd e) t
    then rmap (fun x => is_superset (fst e) x) (kseq_element s i)
    else Ok false)) q.

(** The loops of tags.rs 245-259: [i] counts up, [n] is the number of rounds left. *)
Fixpoint tq_loop (f : nat -> res bool) (i n : nat) (m : list bool) : res (list bool) :=
  match n, m with
  | S n', b :: m' =>
      rbind (if b then f i else Ok b) (fun b' =>
      rbind (tq_loop f (S i) n' m') (fun m'' => Ok (b' :: m'')))
  | _, _ => Ok m
  end.

(** [Query::intersecting] and [Query::containing], tags.rs 262-279 *)
Definition dq_intersecting (q : list key) (s : keyseq) (m : list bool) : res (list bool) :=
  tq_loop (tq_intersects (map_into q s) s) 0 (kseq_len s) m.
Definition dq_containing (q : list key) (s : keyseq) (m : list bool) : res (list bool) :=
  tq_loop (tq_contains (map_into q s) s) 0 (kseq_len s) m.

# Formal model of Actyx/banyan in Rocq

The model lives in `rocq/theories` (logical name `Verif`). It is a set of total
Gallina functions that follow the Rust code function by function; each
definition cites the file and lines it models. Properties are stated in files
named `Props*.v`: each starts with the small specification its statements use,
followed by lemmas, the theorems (named after the property, `C01_...`) and
examples that show that the hypotheses can be met. Specifications shared by
several of them are in `Spec.v`, `QuerySpec.v`, `IterSpec.v` and `History.v`.

## What is modelled where

| code | model |
| --- | --- |
| banyan/src/index.rs | Types (records, codec), Seq (compressed indexes), Compact (sequences) |
| banyan/src/store/zstd_dag_cbor_seq.rs, thread_local_zstd.rs | Seq; Cbor for the byte format |
| banyan/src/query.rs, util.rs | Query, Stream |
| banyan/src/forest/mod.rs | Types, World (config, secrets, the state of a forest) |
| banyan/src/forest/read.rs | Read; Iter for the iterators |
| banyan/src/forest/index_iter.rs | Iter |
| banyan/src/forest/write.rs | Write |
| banyan/src/tree.rs, stream_builder.rs | Api, Iter |
| banyan/src/forest/stream.rs | Stream |
| banyan/src/store/branch_cache.rs | the cache of `Backend` in World |
| banyan/src/store/mem_store.rs, mem_cache.rs | MemStore |
| banyan-utils/src/tag_index.rs, tags.rs | Tags, Compact, TagTypes; Json for serde; Links for the links |
| banyan-utils/src/sqlite.rs, ipfs.rs | Stores |
| banyan-utils/src/dump.rs | Dump |

## Modelling decisions

* **Outcomes.** Every fallible function returns `res A`: `Ok a`, `Err e`
  (`anyhow::Result` error), `Panic p` (assertion, unwrap, overflow) or `NoFuel`
  (the model's recursion bound was hit; excluded by the theorems).
* **World.** Functions run in a state monad over `world`: the block store, the
  branch cache, the cipher offset of the builder at work, and a log of all
  blocks handed to `BlockWriter::put` (observation only, no function reads it).
  The state survives errors, so failure atomicity can be stated.
* **User types** (`TreeTypes`, `BanyanValue`) are a record `Types`; the laws a
  user of the crate has to provide (codec round trip, `from_iter`/`to_vec` of
  `CompactSeq`) are the record `TypesLaws`, an explicit premise of theorems.
* **External components** are a record `Backend` with premises `BackendLaws`:
  content addressed store (`digest` injective: idealised hash), branch cache
  (arbitrary eviction), zstd (streaming compressor given as a function of the
  chunks written, round trip law), XChaCha20 (an arbitrary keystream function).
* **CBOR** is concrete: AST, encoder, parser, and the byte format of index
  records and blocks.
* **Integers.** Offsets, counts and levels are unbounded `nat`; values that do
  not fit their Rust type are detected where they are encoded (`Panic
  POverflow`). Cipher offsets are `N` with the `checked_add` of the code.
* **Trees in the proofs.** A ghost inductive tree and a store-independent
  relation `repr` (possible because blocks are content addressed) connect an
  index with its blocks. Theorem statements do not mention it.

## Trusted base

* Coq 8.16.1 kernel (and `vm_compute` for closed examples and witnesses).
* No axioms. `Assumptions.v` builds one term from all property theorems;
  `Print Assumptions` of it says "Closed under the global context". A scan of
  the loaded libraries lists seven fields of `Coq.ssr.ssrunder.Under_rel`
  (`Under_rel`, `Under_rel_from_rel`, `Under_relE`, `Over_rel`, `over_rel`,
  `over_rel_done`, `under_rel_done`): opaque fields of a standard library
  module that `Lia` loads. No theorem uses them.
* The reading of the Rust code by the author: the model is hand written.
* The laws below, which are premises of the theorems. `Instance.v` (and
  `PropsLarge.v`, `MemStore.v` for other instances) shows that they can be met.
  * `TypesLaws`: what a user of the crate provides. Codecs of keys, summaries,
    values and links round trip; `to_vec` inverts `from_iter`; `==` is
    equality of links and is reflexive for summaries.
  * `ExtLaws`: zstd decompression inverts compression, a frame is not empty,
    and is not shorter than what was flushed before it was finished; reading a
    CID is idempotent. The cipher is an arbitrary keystream: nothing is assumed
    about it; C59 says which bytes depend on the value key, not that the
    cipher is strong.
  * `LinkLaws` (C35 and C98 only): links of the tree are valid CIDs.
  * `BackendLaws`: different blocks have different links (ideal hash); every
    block in the store is filed under its digest, and no access removes one;
    other users may add blocks at any access, also in the middle of an
    operation; the branch cache returns only what was put under the link. Store
    and cache may otherwise fail and forget as they like.
  * `ReliableReads` (theorems that promise success): a read succeeds for each
    block the store holds.
  * `Alone` (the last parts of C13_step and C65_sealed_partial,
    C24_readable_kept, C72, C97_untouched): nobody else adds blocks during the
    operation. These statements compare the store before and after.
  * `Honest` and `WriterLaws` (C97 only): the store of the forest has for a link
    only a block with that digest, in every state; the writer of a transaction
    keeps what it accepted, adds nothing, and returns the digest.

## Premises that recur in the theorems

* `reach k cfg sec s`: `s` is reached from a new stream by any sequence of the
  operations of `History.v` with any outcomes. The kind `k` excludes some:
  `no_loss` (no lost blocks), `no_repair`, `no_reload`; `anything` excludes
  nothing.
* `config_ok`: `Config::validate` and `max_leaf_count >= 1`. The extra conjunct
  is needed (C45_refuted).
* `small_branches` (only for promises of success): no branch block was larger
  than 16 MiB before compression. Needed because of C44_refuted.
* `query_ok q m`: the query honours the contract of `Query` for the matching
  function `m`. `q_sized q`: it returns masks of the length it was given, which
  the type `&mut [bool]` enforces in the code.
* `op_ok`: a reload or load uses the link of a branch root (a leaf has no
  loadable link, C17_refuted). Other users of the same forest may add any
  blocks under their digests and leave in the cache, for a link, what this
  stream would have decoded itself (`OOthers`), or branches whose blocks this
  stream cannot read: `BranchCache` is keyed by the link only, so two streams
  with different index keys must not share it for the same blocks. The same is
  required of what is in the cache at the start (`start`).
* `leaves_by_count` (C56): leaves fill by number of entries, not by size.

## Simplifications

* `nat` offsets, counts and levels; overflow is detected at encoding.
* Errors are named by cause; messages and contexts are not modelled.
* A thread pool or executor is not modelled: for the threaded stream (C55) the
  model is a producer, a bounded channel and a consumer with any interleaving.
* `holds` and `tree_of` of `Stream.v` describe the trees a `stream_trees` run
  is fed with: snapshots of one stream whose entries agree.
* `MemStore` and `MemCache` take the digest as a parameter; which entries
  the cache evicts is arbitrary (`wc_keep`), its locking is not modelled.
* Tags are byte strings; UTF-8 validation is a parameter of the decoder.

## Not modelled

The database and the IPFS node behind `sqlite.rs` and `ipfs.rs` (parameters in
`Stores.v`), the HTTP client (a parameter in `Pubsub.v`), the parsing of the
command line and the times that `bench` prints (`cli.rs`), the text that the
crate `dot` prints, tracing and metrics (`prom.rs`), `estimated_size`/`Weight` values, memory layout
of `Arc`/`Lazy`, real XChaCha20 and zstd, Rust integer wrap-around in release
builds.

## Findings

Places where the code does not do what its documentation or a natural reading
promises; each is proved about the model by a witness (the theorem in brackets)
or follows from the cited lines.

* `extend`/`push` after `extend_unpacked` panics on an assertion (C11_refuted).
* A rollback or failed write followed by a reload reuses keystream bytes
  (C15_refuted).
* `pack` of a tree with one full leaf makes the leaf the root; its link cannot
  be loaded (C17_refuted).
* A failed `pack` leaves a truncated tree in the builder (C20_refuted).
* `pack` after `repair` of an unsealed branch moves and duplicates entries
  (C25_refuted); `extend` on a builder whose unsealed leaf `repair` forgot
  panics.
* `MemStore::put` refuses a block it holds when it is full (C28_refuted); with
  a digest collision its size accounting is wrong (C28_collision_refuted).
* `stream_trees_chunked` swallows errors; the reverse variant can deliver the
  first entry of a chunk twice after a failure (C40_refuted); the threaded
  variant does not end at the end of its range.
* `IndexIter` repeats its error for ever (C42_refuted).
* A branch block above 16 MiB is written but cannot be read (C44_refuted).
* `Config::validate` accepts `max_leaf_count = 0`, with which `extend` makes no
  progress (C45_refuted); `Config::debug` and `debug_fast` fail `validate`
  (zstd level 0).
* `Expression::dnf` panics on an empty `And`/`Or` (C48_empty); the normal form
  is not unique (C49_refuted).
* `DnfQuery`: a tag unknown to a leaf disables all disjuncts (C50_refuted);
  untagged keys and inverted time ranges are pruned (C51_refuted,
  C51_inverted_refuted).
* `iter_filtered_reverse` ascends inside descending chunks (C57_refuted).
* A loaded tree always claims to be packed, since the root of a loaded tree is
  marked sealed (C58_refuted).
* `pack` may hand the store a branch block that its own last step replaces
  (C71_refuted).
* `check_invariants` does not look at the counts of branches: a tree with wrong
  counts passes (C72_refuted).
* A `KeySeq` whose columns are shorter than its list of tag sets is accepted by
  the decoder and panics when read (C75_refuted).
* On a stream of tagged events a query misses an entry that it accepts, if no
  entry in the same leaf has one of the other tags that the query mentions
  (C78_refuted; the effect of C50 on a whole tree).
* `BranchCache` is keyed by the link only (see `op_ok`).
* `retain` does not update `key_bytes` of the branches it rewrites; the value
  differs from the one recomputed on reload (C73_refuted).
* `retain` cannot purge a branch after it visited a leaf: later branches without
  matches are rewritten with purged leaves (C62_refuted).
* `pack` of a packed tree with an unsealed root is not a no-op: it writes the
  unsealed nodes again and the root gets another link (C65_refuted).
* `pack` gives other shapes than `extend` for the same entries, so C56 is
  about `extend` only.
* `TagIndex` decoding sorts the tags but keeps the indices; decoded `KeySeq`
  vectors may differ in length, and `time().unwrap()` then panics.
* Each `extend_unpacked` on a non-empty tree adds a level, so the height and the
  recursion depth of every read grow linearly in the number of calls until
  `pack` (C68_unpacked).
* `IpfsStore::get` does not look at the HTTP status: for a block the node does
  not have it returns the text of the error message as if it were the block
  (C83_ipfs_get_refuted).
* `check_invariants` reports branches that are sealed or not sealed against the
  configuration in use. After a stream was loaded with another configuration it
  complains about a healthy stream (C84_check_refuted); it complains about
  nothing else (C84_check_partial).
* `recv-stream` takes passphrases and ignores them, as do `build`, `filter`,
  `forget` and `pack`: they use the default keys. The links of a sender with a
  passphrase are dropped without a message (C86_passphrases_refuted).
* `create_chacha_key` uses the first 32 bytes of a passphrase and fills up with
  zeros, so passphrases collide, and an empty one is the default key
  (C87_injective_refuted). It does not use a key derivation function.
* An expression built with the public constructors can hold an `Or` of one `Or`
  inside an `And`. Printing leaves its brackets out, so the text is that of
  another expression: `'x' | 'y' & 'z'` (C88_refuted). The functions of the API
  do not make such expressions (C88_flat).
* `pubsub_sub` takes each chunk of the HTTP body for one event and unwraps the
  result of the JSON reader: it panics when an event arrives in two chunks or
  two events in one (C89_reader_refuted, C89_chunks_refuted).
* A decoder of values (`ReadCbor`) that reads another sequence on the same
  thread panics, since the buffer of the thread is borrowed while values are
  decoded (C90_panic).
* `dump` prints the `value_bytes` of a purged leaf under the name `key_bytes`
  (index.rs 418-425; visible in `describes` of C91).
* `build --base` of a tree that was built with `--unbalanced` panics in the
  library when the parts are in the wrong order of size (C92_base_refuted; the
  cause is that of C11). `build`, `pack` and `forget` take no passphrases into
  account, they use the default keys.
* `stream` and `filter` end with success when a block is missing, whatever they
  printed before: the loop takes the first error for the end (cli.rs 393, 477;
  C93_stream_refuted). `filter` takes no passphrases into account.
* Reading a tag index, from JSON or from its binary form, sorts the table of tags but
  not the numbers that refer to it: if the table was not sorted, the elements silently
  get other tags (tag_index.rs 58-63 and 82; C94_refuted). What banyan itself writes is
  sorted.
* `filter --tag fizz --tag fizzbuzz` prints nothing of a tree in which no entry has the
  tag fizzbuzz, although entries have the tag fizz (C95_refuted); with a tag that build
  never uses, nothing is printed whatever the other tags are (C95_nothing). This is the
  fault of C50 and C78, seen by the user of the command.

## Plan per property

| id | modelled | proof |
|----|----------|-------|
| C01 C02 | write.rs, stream_builder.rs, tree.rs write API | representation invariant preserved by every write function, induction on fuel/levels |
| C03 C04 | roots0, simplify_roots, find_valid_branch, pack | cursor invariant: roots are a contiguous prefix; packed predicate |
| C05 | get0, collect0 | induction on tree |
| C06 C07 C08 C09 | TreeIter as explicit stack machine | stack denotation = recursive chunk specification |
| C10 C11 | all assertions as `Panic` | panic freedom from packed invariant; C11 refuted by witness |
| C12 | check_invariants0 | structural invariant |
| C13 C14 C15 | CipherOffset, log of blocks | log is sorted by range; C15 refuted by witness |
| C16 C17 | create_index_from_link, load_* | invariant; C17 refuted by witness |
| C18 C26 C27 | cache + store in the world | content addressing: representation independent of store |
| C19 C20 C21 | builder operations | direct; C20 refuted by witness |
| C22 C23 | retain0 | simulation of the retain cursor by the roots cursor |
| C24 C25 | repair0 | induction; C25 refuted by witness |
| C28 C29 | mem_store.rs, mem_cache.rs | invariant over operation sequences |
| C30 C31 C32 | zstd_dag_cbor_seq.rs | induction over items |
| C33 | fan-out bounds | structural invariant |
| C34 C35 | CBOR, index codec, scrape_links | induction over the AST |
| C36 C37 | query.rs, util.rs | direct |
| C38 C39 C40 C55 | stream.rs, util.rs | invariant over tree sequence; C40 refuted by witness |
| C41 C42 | index_iter.rs | stack denotation; C42 refuted by witness |
| C43 | signature of loaders | non-interference |
| C44 | MAX_CAPACITY | leafs proved, branches refuted |
| C45 | Config::validate | fuel bound; refuted for max_leaf_count = 0 |
| C46 C47 C48 C49 | tag_index.rs | induction; C49 refuted |
| C50 C51 C52 | tags.rs | C50 C51 refuted, partial versions proved |
| C53 C54 | dump_graph0, left_roots0 | induction on tree |
| C56 | dump_graph as the observation | canonical form invariant of extend; a canonical tree is determined by its keys |
| C57 C58 | iter_filtered_reverse, load_tree | refuted by witnesses, partial versions proved |
| C59 | the cipher texts of all leaves of a history (PropsSecret) | each block is its text xored with the keystream of its key at its offset; from the disjoint ranges of C15_restarts_partial, induction over the log gives a keystream for any alternative texts |
| C60 | the Err outcome of every write (PropsProgress) | the postcondition used for all writes also says when Err is possible: under reliable reads and no losses, only when the store refuses a block |
| C61 | retain0 with its level cursor (PropsForget) | the postcondition of retain0 also says that the cursor stays at least 0 until an unsealed leaf, and that every leaf kept before it is selected; read off the list of nodes |
| C62 | the same | refuted by a witness: after a leaf was visited the cursor is 0 and no branch is purged; proved for the root |
| C63 | get0, collect0, is_packed0, retain0, extend_above, extend_unpacked0 and TreeIter over a store that holds only some blocks (PropsLocal, PropsTail, PropsKeep) | small specification of the blocks needed (way_to, in_view, right_edge, branches_there, open_edge); induction over the height for get, collect_from, is_packed, retain and extend, invariant of the iterator stack for filtered iteration |
| C64 | the write functions (PropsReuse) | specification: nodes of a tree as what its blocks decode to (node_in); success postconditions for each function, without the ghost tree; the roots of a packed tree cover its sealed nodes, by induction over the tree |
| C65 | pack (PropsReuse) | refuted by a witness; for a sealed root by computation of roots, tree_from_roots and the empty remainder |
| C66 | the write functions with the log of blocks handed to the store (PropsCost) | weakest-precondition style rules that bound the growth of the log in terms of entries consumed and levels gained; induction over fuel, levels and children |
| C67 | get, is_packed, collect with a store that may count requests (PropsHeight) | a meter on the store that grows by at most one per request; induction over the tree a root stands for |
| C68 | all write operations (PropsHeight) | invariant over histories: a root above level 1 has two children; sealed nodes of a level have a least number of entries (part of the invariant of ReadProofs, also for purged branches); a packed root has a sealed first child |
| C69 | filtered iteration with a store that may count requests (PropsAsk) | a bill on the store that grows by at most the price of a link per request; invariant of the iterator's stack that carries what is still to be paid, and that branches in progress are in the cache |
| C70 | extend, push, extend_unpacked, retain, repair on any forest (PropsWaste) | every writing function keeps what it wrote below the nodes it returns; rewriting a branch only if a child's link changed is enough, since equal links mean equal subtrees |
| C71 | pack (PropsWaste) | the same for the joining of roots; refuted when entries follow the roots, since the branch above the roots is then written twice |
| C72 | check_invariants on arbitrary stores (PropsCheck) | induction on the recursion of the check: no message iff the agreement holds for all nodes below; the part about the count is refuted, since the check never looks at it |
| C73 | the size fields of index records, against the stored blocks (PropsBytes) | invariant over histories: every node below the root and the snapshots is sized like its block; key_bytes after retain or repair is refuted by a witness |
| C74 | `CompactSeq` as its two required methods, the default methods on top (Compact), for any implementation | induction on the list the sequence shows; the three implementations are shown to show their items |
| C75 | the columns of `KeySeq` and their codec (Compact) | round trip from C46; readable iff no column is shorter than the list of tag sets; refuted for bytes with shorter columns, since the decoder does not compare lengths |
| C76 | `dump_cbor`, `dump_json` (Dump), any display of items | induction on the tree behind the stream: the block of every leaf holds the encodings of its values |
| C77 | filtered iteration (Iter) with a query between two predicates | what the query selects lies between the exact queries for the two predicates, by induction on the tree |
| C78 | `TT` as an instance of the types (TagTypes), `DnfQuery` as a query on its trees | the laws from C46, C52, C74; the query meets the conditions of C77 because summaries cover their keys (C52); refuted in full by a concrete stream |
| C79 | all operations of History; the list machine `moves` (PropsRefine) | refinement: a simulation by induction on the run; a root record determines its entries (`repr_det`), so the machine is followed without gaps |
| C80 | `shared` (PropsShared): any store and cache with the accesses of others before each access of the stream | `shared` meets the laws of a store and cache, so C79 applies |
| C81 | `together`: a global order of the accesses of all streams; each stream runs on `shared` with the accesses of the others in between | what a stream puts in the cache it has read from the store, whatever it found in the cache before (frame rule), so each stream meets the premise of C80 for the others |
| C82 | `Sha256Digest`, CIDs, base 32 and the numbers in CIDs (Links) | the encoders inverted step by step: groups of five and eight bits by induction, numbers of seven bits a byte by induction; the converse because only minimal numbers are read |
| C83 | `SqliteStore`, `IpfsStore` over any database or node (Stores) | induction on the sequence of uses with the invariant that blocks are filed under their digests; C82 for the links the node sends; refuted for reads from a node without the block |
| C84 | histories in which every reload may bring its own configuration (PropsConfig); the invariant of ReadProofs is stated for a lower and an upper bound of the configurations used so far | the invariant is kept when the bounds widen, by induction on the tree; each step is a step of C79 in some setting; refuted for check_invariants |
| C85 | `tick`, the sender and the receiver as one transition system with any delivery of messages (Cli) | invariant: published links are branches of snapshots with the first events, the stream of the receiver satisfies the invariant of C38; `pack` of a deep tree leaves a branch as root, so each round publishes; depth by C68, failures by C60 |
| C86 | the keys that the commands use (Cli) | refuted by a run; proved without passphrases from C85 |
| C87 | `create_chacha_key` (Cli) | refuted by a pair; proved for texts of at most 32 bytes without a zero at the end, by removing the filling |
| C88 | `Display for Expression` (Display); the reader of texts is part of the specification (PropsDisplay) | the tokens of a text are those of its expression, also with quotation marks in tags, by induction; the calculator keeps a disjunction and a conjunction and gets the value of each part, by induction on the expression; refuted for nested disjunctions that the API cannot make |
| C89 | `pubsub_pub`, `pubsub_sub`, base 64, percent encoding, the links of recv-stream (Pubsub); what the node does with queries is part of the specification (PropsPubsub); the JSON reader (Json, PropsEvents) | the encoders are inverted by the readers of the specification, byte by byte and in groups of six bits; induction on the messages; refuted for chunks that are not whole events |
| C90 | `thread_local_zstd.rs` with its buffers and borrow, work of a thread as a tree of calls (ThreadZstd) | invariant: between calls the buffer has its full length and is not borrowed, by induction on the work; the buffer chosen holds the data exactly when it is within the limit; so it refines `decompress` of Seq.v |
| C91 | `dump`, `dump0` with the lines printed before an error (DumpTree) | the run prints a prefix of the lines of the ghost tree, by induction on the depth; these lines match the nodes of the graph of C53 one by one, by induction on the tree |
| C92 | the commands build, pack, forget and repair as programs over the API, each in a process of its own (Commands) | rules for sequences of operations, each from the lemma of its operation; the state is related to the machine of C79, with one configuration (or two, after repair, as in C84); induction on the session |
| C93 | the commands dump-values, stream, filter and graph (ReadCommands) | the loop over an iterator returns the remaining chunks of C06, by induction with the number of chunks bounded by the entries (C08); loading as in C16, sessions as in C92; the lines of filter as in C91; refuted for errors in stream and filter |
| C94 | the text that serde_json writes and reads, and the instances of `Serialize` and `Deserialize` (Json) | the reader inverts the writer by induction on the document, decimal numbers and escapes by cases; then field by field; refuted for tables that are not sorted |
| C95 | the keys and tags of build and the query of filter (TagCommands), on top of C92, C93 and C78 | the entries of the trees come from build, by induction on the session; for those the query for one tag accepts exactly the entries with that tag; refuted for several tags |
| C96 | the command bench (BenchCommand), on top of C95 | the tree after the one write holds all entries (C02), so every read of it succeeds; the counts are those of the queries (C78), and for one tag these are exact; the closed formulas by induction on the count |
| C97 | transactions with a writer of their own (Transaction): the pair of the forest's store and the writer as a store | the pair meets the laws of a store, so that the theorems about histories hold in the transaction; the invariant is carried in and out, because trees only speak of digests; the forest's store by a frame over gets and puts |
| C98 | no new code: headers (C35), reading and loading (C05, C16) | the blocks of a tree have exactly the links of their items in the header (part of what a block is, SeqProofs.v), so that the set of found links is closed under children; availability in the copy by induction on the tree |
| C99 | no new code: retain and repair (C22, C24), the log of handed blocks (C66) and a counter of requests (C67) | one induction over the tree for any gauge that loading and writing a branch raise by bounded amounts; instances: the length of the log, the leaves in the log, the number of requests |

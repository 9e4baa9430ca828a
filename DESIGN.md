# Formal model of glycerine/rpc25519 — design

The model lives in `rocq/theories`. Each area of the code has

* `<Area>_Model.v` – Gallina transcription of the Go functions, one definition per
  Go function, each with a comment citing file and lines in `/repo`;
* `<Area>_Proofs.v` – lemmas;
* `<Area>_Props.v` – the property theorems (each closed by `exact lemma` or a
  short proof), a small specification written without the model's helpers,
  non-vacuity `Example`s and `Print Assumptions`.

Where the Go code violates the property that its documentation or a user would
expect, the theorem carries the suffix `_refuted` and exhibits a concrete
execution of the model, and a positive theorem states the strongest claim that
does hold.

## Modelling conventions

* byte = `N` below 256 (or `Z`), `[]byte` = `list`, Go `string` = list of bytes.
* Go `int`/`int64` = `Z` or `nat`; overflow is modelled (explicit wrap) only
  where the property is about it; otherwise the comment says "no overflow".
* errors are values of an explicit sum type; a Go panic (nil dereference, slice
  out of range, explicit `panic(...)`) is an explicit result, never a default.
* goroutines/network = labelled transition steps; theorems quantify over all
  schedules by induction on the list of steps.
* cryptographic primitives, compression, hash functions and the clock are
  Section variables with the stated contract as a Section hypothesis, so that
  they are universally quantified arguments of the theorem (no axioms).

## Plan per property

| id | model | proof |
|----|-------|-------|
| C01 | `Wire_Model`: framing, readFull over an arbitrary chunk oracle, sendMessage/readMessage | round-trip by induction on message list and chunk list |
| C02 | `Wire_Model.writeFull` over a list of (n,err) results of Conn.Write | induction on results |
| C03 | `Wire_Model` magic7 tables | case analysis over all strings/bytes |
| C04 | `Wire_Model` magic7 state of workspace | induction over history |
| C05 | `Wire_Model` pressor/decomp | refutation + positive theorem for none/s2 |
| C06–C10 | `Crypt_Model`: encoder/decoder over an abstract AEAD | round-trip; nonce arithmetic; refutations |
| C11–C13 | `Omap_Model`: sorted association list for the red-black tree (trusted: tree package is an ordered map), version/cache fields, iterator protocol | refinement to finite map by induction over ops; iteration proofs |
| C14 | `Dmap_Model` | invariant over ops |
| C15 | `Conc_Model` interleaving of lock/critical section/unlock | linearizability by simulation |
| C16 | `Conc_Model` semaphore state machine | invariant |
| C17–C19 | `Rle_Model` | refinement to list of terms; LCP by induction on runs |
| C20 | `Hlc_Model` incl. CAS loop as steps | invariant over schedules |
| C21 | `Span_Model` | interval arithmetic, lia |
| C22 | `Pong_Model` | invariant + order statistics |
| C23–C24, C49 | `Art_Model` | refinement to a sorted list of leaves; iterators by the leaves left on their stack |
| C25–C26, C40 | `Cdc_Model` | strong induction on remaining length |
| C27 | `Jsync_Model` | reconstruction by induction on plan |
| C28–C30 | `Kv_Model` | case analysis / induction on log |
| C45–C48 | `Kv_Model` | case analysis, induction on history and on the scanned list |
| C31–C33 | `Raft_Model` | inductive invariants over a message-soup semantics |
| C34 | `Member_Model` | counting argument |
| C50, C51 | `Member_Model` | refinement to abstract moves; induction over terms on the tree of configurations |
| C35, C52, C53, C55 | `Wal_Model` | crash-prefix theorem; refinement of a plain list by every call; any bytes in either file |
| C54 | `Persist_Model` | invariant over histories of saves and crashes |
| C64 | `NetRpc_Model` | invariant over all schedules of one connection; liveness by running the server's remaining steps |
| C65 | `Frag_Model` | field by field for all fragments; maps as association lists with nil kept apart; `_refuted` for UserMeta, empty maps, ends with a reason |
| C66 | `Frag_Model` | induction over the sequence of settings |
| C67 | `Frag_Model` | case analysis against the lexicographic order |
| C68 | `Frag_Model` | invariant of the pool over all histories; `_refuted` for a user who sends again after a failure |
| C69 | `Ckt_Model` | invariant of each direction of each circuit (`Ckt_View`: all stages of the way as one list), kept by every step; guarded (`_partial`) by an event for each drop, with `_refuted` runs |
| C70 | `Ckt_Model` | same invariant with the notice of the end as one more item; `_refuted` for Close with a reason and for a stopping peer |
| C71 | `Ckt_Model` | invariant by counting events; `_refuted` for automatic shutdown |
| C72 | `Lease_Model` over `Raft_Model` | timed invariant: what a follower's ack promises, until when on its own clock; `_partial` with one `_refuted` run per condition |
| C73 | `Herm_Model` | ACKs to the writer only: invariant over nodes, messages and the log of answers (`Herm_Uni`, `Herm_Glob`), then linearization by timestamp (`Herm_Lin`); `_partial` and three `_refuted` runs |
| C74 | `Herm_Model` | predicate kept by every handler, panics and deadlines included (`Herm_All`, `Herm_AllG`) |
| C75 | `Herm_Model` | every write announced to all, adopted on delivery; the maximal timestamp wins (`Herm_Bc`, `Herm_Conv`); `_partial` and a `_refuted` run |
| C76 | `Herm_Model` | order lemmas (`Herm_Order`), monotonicity from the invariants of C73/C75; `_partial` and `_refuted` |
| C77 | `Herm_Model` | no handler panics from a state of the invariants of C73/C75; `_partial` and two `_refuted` runs |
| C78 | `Herm_Model` | as C74: pending tickets and answers given stay apart |
| C79 | `Cas_Model` | two invariants: what the running store knows is right (`Cas_Proofs`), the files are a list of records and of their headers (`Cas_Files`); counts in `Cas_More`; `_partial` and two `_refuted` runs |
| C80 | `Cas_Model` | as C79; opening what a kill left (`Cas_Bound.survives`, `Cas_More.verify_open`); two `_refuted` runs |
| C81 | `Cas_Model` | cache invariant (`Cas_Calm`, `Cas_More`) under the conditions in `Cas_Spec.calm`; five `_refuted` runs |
| C82 | `Cas_Model` | invariant on the cache alone, every execution (`Cas_Bound`) |
| C83 | `Czar_Model` | invariant of all steps (`Czar_Proofs`–`Czar_Ping`), read off the trace in `Czar_Main` |
| C84 | `Czar_Model` | as C83, with the invariant for bounded clocks (`Czar_One`); a `_refuted` run without the bound |
| C85 | `Czar_Model` | as C84 |
| C86 | `Czar_Model` | as C83 |
| C87 | `Czar_Model` | as C83 for one epoch; `_refuted` run with a takeover |
| C88 | `Czar_Model` | `Czar_More.pinger`; `_refuted` run |
| C89 | `Czar_Model` | `Czar_More.panic_kind`: which steps can panic; five `_refuted` runs |
| C90 | `Czar_Model` | `Czar_More.takeover`; a trap no run leaves (`Czar_Dead`) |
| C91 | `Czar_Model` | `Czar_More.next_beat`; a trap no run leaves (`Czar_Late`) |
| C92 | `Czar_Model` | invariant (`Czar_Told`); `_refuted` run |
| C93 | `Tofu_Model` | a read-only file makes every check a program without effects (`Tofu_Conc.quiet`), the loop by induction on the chain; `_refuted` runs |
| C94 | `Tofu_Model` | induction on the chain (`Tofu_Proofs.loop_tofu`), writing and reading back (`Tofu_Text.fileText_listed`); `_refuted` run |
| C95 | `Tofu_Model` | induction on the peers (`Tofu_Conc.runs_tofu`), then C93; `_refuted` run |
| C96 | `Tofu_Model` | invariant at every cut (`Tofu_Conc.cut_all`); `_refuted` run |
| C97 | `Tofu_Model` | as C93 for listed peers; four `_refuted` interleavings |
| C98 | `Tofu_Model` | induction on the connections; `_refuted` run for QUIC |
| C99 | `Tofu_Model` | from C93; `_refuted` |
| C100 | `Tofu_Model` | cases; `_refuted` run |
| C101 | `Tofu_Model` | induction on the chain |
| C102 | `Tofu_Model` | induction on the chain |
| C103 | `Tofu_Model` | as C93 |
| C104 | `Dsync_Model` | induction on the tree (`Dsync_More.visit_sound`, `visit_complete`, `Dsync_Tree.visit_once`) and on the listing (`packs_*`) |
| C105 | `Dsync_Model` | induction on the listing; `_refuted` tree |
| C106 | `Dsync_Model` | what each step can do to a path (`Dsync_Proofs.takeEntry_get`, `fstep_get`, `removeLeft_get`), induction on the listing; `_refuted` listings |
| C107 | `Dsync_Model` | the same steps; every directory is made by a leaf directory beneath it (`Dsync_Main.leaf_dirs`); `_refuted` for all trees, and a schedule |
| C108 | `Dsync_Model` | the same steps; the listing has every directory of a listed path (`Dsync_Tree.visit_closed`) |
| C109 | `Dsync_Model` | the same steps; `_refuted` run |
| C110 | `Dsync_Model` | the same steps; `_refuted` for all trees |
| C111 | `Wait_Model` | induction on the history (`Wait_Order.run_holder`) |
| C112 | `Wait_Model` | invariant of the three maps and the indexes (`Wait_Order.inv`, `run_inv`, `inv_repair`); `_refuted` history |
| C113 | `Wait_Model` | invariants of the node (`Wait_Proofs.G`, `P`: the walk yields only tickets with an index, `resubmit_none`); `_refuted` for all histories |
| C114 | `Wait_Model` | the same, with `Wait_Main.lead_drops`; `_refuted` for all histories |
| C115 | `Wait_Model` | the same; invariant of the leader's map, the log and the indexes (`Wait_Told.K`, `step_KK`); `_refuted` for all histories |
| C116 | `Wait_Model` | the same invariant (`Wait_Told.indexed`); `_refuted` history |
| C58–C63 | `Rpc_Model` | invariants over all schedules of one client and one server; per-message traces |
| C36, C56, C57 | `Sess_Model` | invariant over histories of a node; logs as let in by leaders |

## Trusted base

* Coq 8.16.1 kernel (and `vm_compute`).
* `Print Assumptions` output for every property theorem is printed by the build;
  target: "Closed under the global context" for all.
* The statistics of the gate also list seven parameters of the standard library's
  `Coq.ssr.ssrunder.Under_rel` (loaded with `ssreflect`); no theorem depends on them.
* The correspondence between Go source and Gallina definitions (by reading).

## Areas: what is modelled, what is not, what was found

### Rle (tube/rle.go, C17–C19)

Modelled: the run-length encoded term index: append, truncate, compaction base,
lookup, iteration, Extends/longest common prefix. Not modelled: printing.
Findings: iteration started at the base index reports indexes off by one;
truncating down to the compaction base loses the base term, and a later legal
append panics; Extends over-reports the common prefix when the compacted
prefixes differ or the leader's log is shorter than the follower's base.

### Wire (common.go, magic7.go, compress.go, AsGreenpack; C01–C05, C37)

Modelled: readFull, writeFull, newWorkspace, sendMessage, readMessage, the tag
tables, the choice of compression by client and server over the life of a
connection, the workspace mutex and any number of concurrent senders.
Abstracted (record `codec`, contract `codec_ok`): the greenpack serializer and
the s2 compressor round-trip. Not modelled: deadlines as clock values (an
ErrTimeout result may come at any time), TLS/QUIC, the content of HDR.
Findings:
* the sender never checks the size of the body, so an oversize frame is sent
  without error and kills the connection at the receiver;
* lz4 and zstd:* are accepted by the configuration and by encodeMagic7 but panic
  on the first send (their cases are commented out in compress.go);
* a plaintext peer crashes the process with one frame tagged 2..6 or ≥8, or with
  malformed s2 (panicOn in handleDecompress; runReadLoop has no recover);
* the server builds two blabbers per connection (srv.go:506 and srv.go:649), each
  with its own mutex: pings or circuit messages can interleave with replies
  in the middle of a frame;
* the second newBlabber resets lastReadMagic7, so a server may answer with its
  own default although it already saw the client's tag.

### Crypt (chacha.go, pact tag part of symmetric.go; C06–C10)

Modelled: newBlabber, incrementNonce, encoder.sendMessage up to the write,
decoder.readMessage, buffer reuse (stale bytes), panics on slice bounds.
Abstracted (record `aead`, contract `aead_ok`): XChaCha20-Poly1305 open∘seal =
identity and lengths, PACT tag encryption is invertible. Not modelled: the
handshake, key derivation, constant-time behaviour. No secrecy claim is made.
Findings:
* a declared length below 16 crashes the reader (slice bounds), no key needed;
* NoSystemCompression on one message, CompressionOff with an algorithm, or a
  client/server algorithm mismatch panics the encrypted sender;
* the sender's size check ignores the 40 bytes of overhead;
* a Msgsize estimate above the buffer makes MarshalMsg reallocate, and (with
  compression off) stale or zero bytes are encrypted instead of the message;
* the two server encoders of one connection draw independent random nonces
  under one key, in the same range.

### Omap, Dmap (omap.go, dmap.go and the copies in tube/; C11–C14, C38)

Modelled: all operations, the version counter, the order cache (with in-place
value updates through pointers), the three loops of all(), bodies that call back
into the map. Trusted: the rbtree library is an ordered set of node pointers;
Next/Delete on a node outside the tree is `Panic`. dmap is proved by simulation
on omap. Not modelled: nil keys, isNil, String, version overflow, allikv/allokv.
Findings:
* ranging over a warm order cache and deleting the second-to-last key ends the
  range before the last live key (`i >= n2-1`);
* omap.delkey of an absent key returns the next larger key's iterator, not the
  limit its comment promises (dmap's does return the limit);
* nested read-only ranges with early exits corrupt the order cache;
* dmap.deleteWithIter tests presence by id but deletes by iterator: a stale
  iterator whose id was re-added damages the tree and unindexes the live key.

### Raft (tube/tube.go consensus core; C31–C33)

Modelled (`Raft_Model.v`): beginPreVote, beginElection, handleRequestVote,
tallyVote, becomeLeader (with its noop entry), handleAppendEntries with its term
checks, member-config term update, deferred and ordinary commit,
logsAreMismatched and the write decision, handleAppendEntriesAck,
leaderAdvanceCommitIndex, commitWhatWeCan, replicateBatch, the leader's further
sends and heartbeats, stepping down, peers going away, and restart. A handler
returns the new volatile state and its *effects in order* (write-ahead-log
writes, the three kinds of state save, sends), so that a crash can be placed
after any number of effects. The cluster is any number of nodes over a message
soup: every message ever sent may be delivered any number of times, in any
order, or never.

Not modelled: log compaction and snapshots (the model's logs are uncompacted, so
the common-prefix computation is the one C19 proves `Extends` to be), a one-node
cluster, membership changes during the run (C34), timers (any timer may fire at
any time), torn writes inside one save (C35), client sessions (C36), int64
overflow.

Proof: `Raft_Abs.v` gives small steps; `Raft_InvL*` and `Raft_InvC*` are
inductive invariants of them (votes and term logs as ghost state; chosen
entries); `Raft_Refine*` proves that every handler, cut at any effect the crash
condition allows, is a sequence of small steps.

Conditions on schedules, each necessary (see the `_refuted` theorems):

* G1 `unclipped`: no AppendEntries is clipped by the size limit. A clipped one
  that ends inside the common prefix is accepted by a follower with a longer
  diverging log, and its ack's PeerLogLastIndex is counted as a match.
* G2 `freshAck`: no ack of an AppendEntries from an earlier leadership of the
  same process. It is stamped with the new term and its common index refers to
  the old log; SuppliedLeaderLastTerm is never checked.
* G3 `onePeerPerName`: a restarted follower has a new PeerID and the old peer
  entry still counts towards the quorum.
* G4 `crashOk`: becomeLeader writes its noop and sends it before saving the
  term; a crash in between loses the vote (C31, C33). Likewise a crash between
  the member-config save and the term save.

C31 and C32 need only G4.

### Member (tube/tube.go membership changes; C34, C50, C51)

- `MemberConfig` and its version order, `majority`, `quorumsOverlap`, `changeMembership` with `mongoLeaderCanReconfig`, pre-votes,
  elections, `becomeLeader` (which stamps its term on the configuration), the adoption of newer configurations by AppendEntries, votes
  and acks, `seen()` and the changes it resumes, `setMC`, step-downs, crashes and restarts. A message soup as in Raft.
- Simplified: of the log only the entry terms are kept; timers, sticky leaders, circuits are free choices of the schedule; each
  configuration carries its provenance as ghost data (`c_hist`, the code's `Prov`).
- Not modelled: forced changes (`-f`), which skip every check; snapshots, which overwrite term and configuration; shadow replicas.
- Guards: G4 as in Raft; G5: a change has a majority of the current members whose last report shows the leader's configuration and
  term in one report.
- Proof: configurations form a tree with edges "elected in term T" and "changed to m". `Member_Tree`: from quorum intersection along the
  edges, uniqueness of changes per configuration, and "who vouched for c only helps elect at least c", two winners of a term are equal
  (strong induction on terms). `Member_Abs`/`Member_Inv`: eleven moves keep an invariant that implies these. `Member_Refine`: every
  handler run, cut or not, is a sequence of moves.
- `Member_Gate`: what a reported success of `changeMembership` says about the reports held by the leader (`C50_change_gate`), and that the
  no-op of the new configuration is stored before it counts (`C50_noop_stored`).
- Findings: (1) Q1 (configuration) and Q2 (term) are counted over different members, and `seen()` resumes a stalled change before the
  handler looks at the higher term of the same message: six nodes, no crash, two leaders of term 4; (2) all members can be removed,
  the majority of the empty set is 0, and the next added node leads beside the old members; (3) `becomeLeader` saves after its first
  AppendEntries are out, so a crash lets a node be elected twice in one term.

### Hlc, Span, Pong (tube/hlc.go, tube/span.go, tube/pongpq.go; C20–C22)

- **Hlc.** All clock functions with int64 wrap-around. The CAS loops are small-step: load, read wall clock, CAS
  success or failure, for any number of goroutines and nodes. Messages carry timestamps of earlier events.
  Hypotheses: wall-clock readings in [0, 2^61) and fewer than 2^61-2^17 events. Not modelled: Go memory model below atomics,
  `ToTime`/printing helpers.
- **Hlc finding.** The counter carries into the physical part after 65536 events in one tick. A message stamp near 2^63 overflows.
- **Span.** All of span.go on `Z`. Findings: `isSuperSetOf` says no for an empty span outside; inverted spans give wrong intersections.
- **Pong.** The red-black tree (external library) is the sorted duplicate-free list it is documented to be. Finding: with no
  pong at all, `quorumPongTm` answers ok with the current time for every quorum, so a leader that has heard nobody is not told to
  step down by this check.

### Mmap, Limit (mutmap.go, limitlsn.go, handleTLSConnection in srv.go; C15, C16, C39)

- **Mmap.** Every method is a tree of single accesses between lock and unlock. Go maps live in a heap so that handed-out maps can
  be written by callers. Range loops visit entries in any order. The RWMutex is modelled by who holds it; writer preference is not
  (it only removes behaviours). Linearizability is stated with explicit effect points in the history. `String` is not modelled.
- **Mmap finding.** `Update` unlocks without defer, so a panic in the passed function blocks the map for ever.
- **Limit.** Semaphore, both `sync.Once`, the done channel, and the select (either ready case) as interleaved steps; any number of
  goroutines. `c.(*tls.Conn)` failing is excluded, see the call site.
- **Limit finding (C39).** `handleTLSConnection` returns without closing when the client's key is rejected, so the slot is lost.

### Cdc (jcdc/; C25, C26, C40)

- All five own chunkers (FastCDC Stadia and Plakar, UltraCDC, FNV, Rabin-Karp), `NextCut` and `Cutpoints`, `Validate`, Padme.
  Gear tables, the FNV bit count and the Rabin-Karp window and mask are parameters, so theorems hold for all of them.
  `ResticRabinCDC` delegates to an external package and is not modelled. `chunker.go`, `rolling.go` (unused) are not modelled.
- Findings: `UltraCDC.Cutpoints` panics on a tail of min+1..min+7 bytes without spare slice capacity; `UltraCDC.NextCut` exceeds
  MaxSize when max < min+8; both FastCDC `Cutpoints` ignore maxPoints; Stadia's cut can move when more data arrives;
  `Padme(0)` panics.

### Sync (jsync/giver.go, taker.go, rsync.go, sparsified/align.go; C27, C41)

- The plan (placeholder and full form), the packing into fragments, the taker's case analysis per chunk, the aligned hole
  computation, POSIX write/seek/truncate/punch on byte lists, the checksum and the rename. Plus the in-memory
  `UpdateLocalWithRemoteDiffs`. The hash is a parameter; collisions are excluded by hypothesis, not assumed away.
- Not modelled: the quick check by size and mod time (taker.go 941), directory sync, mode bits and times, progress, MessagePack
  sizes (a parameter `msz`), disk errors.
- Proof: the written file is, after each chunk, the goal's prefix followed by what `Truncate` left; a commit implies the bytes fed
  to the hasher equal the bytes in the file.
- Findings: the pull path leaves `GiverFileSize` at 0, so a file that ends in a hole is silently truncated (the checksum is over
  the bytes fed, not the file); `zeros4k[:n]` panics for an unaligned zero run between 4097 and 8190 bytes without an aligned page;
  with a pre-allocated tail the file is never extended; a chunk that does not fit a fragment makes the giver loop; a file with no
  chunks is never committed.

### Scan (jsync/rsync.go, jsync/parallel.go, jcdc/fastcdc4.go, bytes/zero.go; C42, C43, C44)

- `GetHashesOneByOne`, `CutpointsAndAllZero`, `SummarizeBytesInCDCHashes` (with its two buffers and sparse spans), `ChunkFile2`
  (jobs, candidates per segment, selection, conclusion, hashing, assembly, coalescing), `LongestZeroSpan` and its SIMD form. The
  chunker is a parameter that is good, local and stable (Cdc); the hash is a parameter. Reads return full buffers or the rest of
  the file.
- The goroutines of `ChunkFile2` share only the job list, each job having one worker at a time, so they are run in order.
- Proof (parallel): the candidates lag the kept cuts by less than the minimum, so a kept cut crosses every segment border.
- Findings: the one-pass scanner never ends when MaxSize exceeds its buffer; `ChunkFile2` panics ("bad append") or returns chunks
  that miss the end of the file when the last segment is shorter than about twice the minimum chunk.
- Not modelled: sparse files in `ChunkFile2`, the assembly code of the SIMD compares (taken to be "all zero").

### Kv (tube/actions.go, tube/kv.go, the apply code of tube/tube.go; C28–C30, C45–C48)

- `kvstoreWrite`, `doCAS`, `doReadKey`, `doDeleteKey`, `doMakeTable`, `doDeleteTable`, `doRenameTable`, the range and prefix scans,
  `doShowKeys`, the leader's dry-run fast path, `applyNewStateToMachine` as a fold over the log, `Merge`, `PreSaveHook` and
  `PostLoadHook`. A table is a sorted association list (the ART is the subject of C23, C24, C49); the searches that fail on the ART
  (Art finding 5) fail here too. Tickets are values and every change the
  code makes to a ticket is in the model, since changed tickets are sent to other nodes. The local clock is a list of readings.
- Simplified: keys are not empty (`Find(Exact, "")` on a tree with one key returns that key); sessions and snapshots are not here.
- Proof: one inductive relation lists the outcomes of a write; fencing by induction over a history relation; replicas by showing each
  operation independent of the clock, and a second application of an answered ticket equal to the first one.
- Findings: (1) the fast path tests expiry with a zero entry time, so a lease is never over for it; (2) the holder's own plain write
  is refused while its lease is in force; (3) delete and re-create resets epoch and version, so fencing tokens and CAS versions
  repeat; (4) auto-delete consults the local clock inside replicated reads and deletes, and ignores the drift bound; (5) applying an
  entry changes its ticket, and a node that catches up is sent the changed ticket (tube.go 9639): with a drift bound the holder's too
  short lease request is refused on one node and granted on the other; (6) DELETE_TABLE and RENAME_TABLE ignore leases and a delete
  checks the name, not the peer; (7) a descending prefix scan starts at the prefix and misses every longer key; (8) a range scan from a
  key that is below all keys of the table at a byte they share returns nothing; (9) a scan that buries an expired key can end there.

### Art (tube/art; C23, C24, C49)

- `inner.go`, `leaf.go`, `node.go`, `n4.go`, `n16.go`, `n48.go`, `n256.go`, `gte.go`, `lte.go`, `tree.go` and `iterator.go`: the four node
  sizes with their arrays, growing and shrinking, path compression, insert, remove, the subtree counts and their lazily filled prefix
  counts, exact and ordered search with position, `At` with its kept iterator, `Atfar`, iterators and their restart after a change.
- Simplified: a node changed in place is a new value in its parent; of a leaf the model keeps pointer identity, key and value; a failed
  search reports no leaf; filling the prefix-count cache during a read is the relation `refresh` (any reads, at any time).
- Not modelled: locks, serialisation (`saver.go`), the string and debugging functions, the `hasPrefix` helpers.
- Proof: layer 1 shows each node kind is a sorted list of (byte, child); layer 2 relates a tree below a path to its sorted leaves (`Wf`) and
  proves insert, remove, redo, get, at, GTE and LTE against the list; layer 3 shows what an iterator has left to visit (`Rest`); layer 4
  runs histories of calls (`Hist`).
- Findings: (1) a key and the same key followed by a zero byte are not told apart: one is lost while Size counts both; (2) with deeper
  trees such an insert panics; (3) `Find(Exact, "")` on a one-key tree finds the key; (4) `Find(GT, k)` and `Find(LT, k)` on the tree {k}
  return k; (5) GTE/GT with a key below the compressed path of the root find nothing, so `Iter` and `Ascend` from such a key visit
  nothing, and `RevIter` with such an end visits nothing; (6) inserting the same `*Leaf` twice counts it twice; (7) after a change an
  iterator can visit a key twice, skip its start key, or (descending, when the next key is the empty key) go back to the largest key;
  (8) read-only calls write `pren`, `SubN` caches and `atCache` under the read lock; `Atfar` keeps the read lock of an empty tree (not
  modelled).

### Wal (tube/wal.go, tube/par.go, tube/msgbin.go; C35, C52, C53, C55)

- The two files byte by byte: frames, records (entry and two hashes), the parlog's 400-byte slots with their checksum. Append, batch
  overwrite, compaction, snapshot installation, opening and the lookups return the file operations they did, in order, so that a crash can
  be placed after any of them or inside a write. Two crash relations: `killed` (the process dies) and `powerLoss` (from the lowest offset
  written since the last sync the log holds anything; a parlog write may be cut; renames may be lost independently).
- Parameters: the MessagePack encodings (they decode what they encode), blake3 and the parlog's crc (no assumption but their length).
  Collisions are excluded by the hypothesis `noCollision` on the file at hand where a theorem needs it, not assumed away.
- Simplified: failing system calls, the NODISK variant (memwal.go), the read-only open, the notification hook; TicketID and ClusterID in a
  parlog record are one field that the checks do not read.
- Proof: `good` relates the log in memory to both files (image of the records with the hash chain, slots, positions, run-length index by
  Rle's invariant); every call preserves it (`Wal_Proofs3`); crash states of every call are described and opened (`Wal_Proofs4`).
- Findings: (1) opening keeps one position too many (wal.go 302 appends before it meets EOF), so overwriting behind the entries read at
  opening writes over the wrong record: every call succeeds and the log never opens again; (2) replacing all entries of a compacted log
  panics in `saveRaftLogEntryDoFsync` after the parlog was truncated; (3) an empty log forgets its base when reopened after a snapshot; (4) any
  append cut short, and a compaction killed between its renames, leaves a log that panics at every open; (5) the parlog may stay longer than
  the log after a crash, and the next append, acknowledged, makes the log unreadable; (6) a log file cut at a record boundary opens without
  notice; (7) a batch without entries that removes some panics (`es[:min(overwriteCount, -1)]`).

### Persist (tube/persistor.go; C54)

- `save` as its six file operations, `load`; the directory with unsynced names. A random temporary name is taken to be new.
- Finding: `NewRaftStatePersistor` does not sync the directory: a process killed between rename and directory sync leaves a state that the next
  process loads and a later power loss takes back.

### Sess (sessions in tube/tube.go, tube/sess.go; C36, C56, C57)

- Modelled: the session table with its entries shared by pointer (a heap), the map by client name, the tree by expiry, `commitWhatWeCan`'s session
  part around any state machine, `leaderDoneEarlyOnSessionStuff`, `leaderServedLocalRead`, `cleanupAcked`, `refreshSession`, the collector,
  session creation and end, restart, snapshot (clone and install). The time the collector sees is any number. Logs are built one entry at a time
  by a node that has applied a prefix and lets the entry in (that leaders only extend their logs and nodes apply prefixes is C31–C33).
- New session ids are taken to be new (`rpc.NewCallID` is random): a hypothesis of the log rule, not an axiom.
- Not modelled: `ticketID2tkt`, waiting queues and replies on the wire, `redirectToLeader`, the leases' clocks (`leaderCanServeReadsLocally`).
- Findings: duplicates are caught only when a ticket is let in, not when it is applied: a retry while the first copy is logged and unapplied is
  applied twice; user defined operations and shadow changes are not deduplicated at all; an entry whose session ended after it was let in is
  applied and answered "unknown SessionID"; local reads ignore `SessionLastKnownIndex`; the tree by expiry and the map by client name are not
  rebuilt after a restart, so two sessions of one client stay usable and old sessions are never collected; `SessionTableEntry.Clone` drops
  `SessionEndxTm`, so sessions arrive timed out with a snapshot.

### Rpc (cli.go, srv.go: calls, one-way messages, uploads, downloads, bistreams, cancelling; C58–C63)

- Modelled: one client, one server, one connection that delivers in order until it goes down. Every goroutine's next action is one `op`
  (the user's calls, the client's send and read loops, the server's read loop, each `processWork` goroutine, each registered function's
  choices, timers), so a theorem over all lists of ops is one over all interleavings. The client's `notifyOnce`, `notifyOnReadCallIDMap`,
  `notifyOnErrorCallIDMap` and `notifyOnRead`, the server's `inflight` table, stream channels and blocked read loop are in the state.
- Not modelled: keep-alives, peers and circuits, net/rpc (own area), encryption and encoding (Wire, Crypt), addresses, several clients of
  one server (they share no state but the registered functions), the reuse of messages through the server's free list, wrap-around of Seqno.
- Found: `Server.SendMessage` and `OneWaySend` with a user-chosen Seqno can be taken for the reply of a call (`C58_push_refuted`,
  `C58_oneway_refuted`); `UploadMore` counts a part it failed to send and the server process panics at the next one
  (`C60_skipped_part_refuted`); an upload function that ends early stops the server's read loop (`C60_wedge_refuted`); `UploadBegin`
  registers its channels after sending (`C60_late_registration_refuted`); a one-part download has no CallDownloadEnd
  (`C61_single_part_refuted`); a cancel request can overtake its request (`C62_lost_cancel_refuted`); a repeated CallID cancels the wrong
  context (`C62_repeated_id_refuted`); an unregistered service is reported with a nil error and costs everyone the connection
  (`C63_nil_error_refuted`, `C63_others_lost_refuted`). Seen in the code, not stated as theorems: entries of `notifyOnce` stay for ever
  after a timeout; a slow listener of `GetReadIncomingCh` misses messages; a Downloader nobody reads stops the client's read loop.

### NetRpc (cli.go `Call`, `Go`, `send`, `gotNetRpcInput`; greencodec.go; srv.go `callBridgeNetRpc` and what it calls; C64)

- Modelled: the client's `reqMutex`, pending calls and `gotNetRpcInput`; the server's `decBuf` and `encBuf`, which belong to the
  connection, and the goroutine of each request, one action per step. Bytes are lists of tokens, one per encoded value.
  That `SendAndGetReply` gives the answer to this request, or gives up, is taken from Rpc.
- Not modelled: the encodings themselves (greenpack, msgpack), reflection and the registration of receivers, free lists.
- Found: once a call was given up its goroutine on the server runs on and shares both buffers with the goroutines of later requests;
  the next call may hang (`C64_hang_refuted`), the client may panic (`C64_panic_refuted`), a request may be lost
  (`C64_lost_request_refuted`). `Client.Go` is not asynchronous: `send` holds `reqMutex` until the answer is there, so calls of
  several goroutines run one after the other.

### Frag (ckt.go fragments; C65–C68)

- Modelled: `Fragment` and the parts of `Message` it travels in, `ToMessage`, `convertMessageToFragment`, `ConvertFragmentToMessage`, what
  `SendOneWay` and `newCircuit` add to it (system arguments, UserMeta), the four argument functions, `Compare`, and the pool of recycled
  fragments. Go maps are association lists, a nil map being told apart from an empty one (writing to a nil map panics).
- Not modelled: `Created` and other time stamps, `Serial`'s wrap-around, the encoding (Wire), `RpbTo` and the other pointers of a fragment.
- Found: `bytes.Compare` is tested with `> 1`, so a greater payload gives 0 (`C67_order_refuted`); UserMeta overrides the sender's arguments
  (`C65_meta_refuted`); an empty first argument map panics (`C65_first_panic_refuted`); a circuit closed with a reason tells the other side
  of an error, not of the end (`C65_end_with_reason_refuted`); `SendOneWay` recycles the fragment before it is sent
  (`C68_retry_refuted`, `C68_wiped_refuted`).

### Ckt (ckt.go, ckt2.go, pump.go, srv.go: circuits between peers; C69–C71)

- Modelled: two processes, one connection, any number of peers in each and of circuits between them. `newCircuit`, `SendOneWay`, `Close`,
  `bootstrapCircuit` with `provideRemoteOnNewCircuitCh`, `implRemotePeerAndGetCircuit`, the pump with its two-second and five-second timers,
  `cleanupCkt`, the background sender of end notices, the read loop's `handleReply_to_CallID_ToPeerID`. One action of one goroutine per `op`.
  `Ckt_View` states the invariant for one direction of one circuit as a list with stages (taken, in Reads, with the pump, in ReadsIn, at the
  read loop, on the wire); `Ckt_Proofs`–`Ckt_Proofs5` show that every step of the model is a step (or none) of every such view.
- Not modelled: starting peers, circuit acknowledgements, keep-alives, notices that a peer shut down, several connections, reconnecting.
- Found: a full `ReadsIn` makes the read loop drop a fragment after five seconds (`C69_full_channel_refuted`); closing one circuit starts a
  timer that drops a fragment of another (`C69_other_closed_refuted`); `implRemotePeerAndGetCircuit` tells the pump after sending the request,
  so an early answer is lost (`C69_early_answer_refuted`); `Close` with a reason does not close the other end (`C70_reason_refuted`); asking a
  stopping peer for a circuit ends the connection for all (`C70_connection_lost_refuted`); `AutoShutdownWhenNoMoreCircuits` never happens
  (`C71_auto_refuted`). Seen, not stated: delivery to `Errors` has no timeout, so one user who does not read errors stops the peer, and then
  the read loop; traffic for an unknown peer closes the connection.

### Lease (tube/tube.go: reads served by the leader alone; C72)

- Modelled (`Lease_Model`): a timed layer over the steps of `Raft_Model`, which leaves to chance when an election timer fires and whether a
  voter is sticky. Here both follow the node's own clock, an arbitrary monotone function of real time: `haveStickyLeader`, the election timer,
  leaderID and lastLegitAppendEntries, UnackedPing (`newAEtoPeer`, `bcastAppendEntries`), LastFullPing (`handleAppendEntriesAck`),
  `leaderCanServeReadsLocally` with its good-until time.
- `Lease_Raft` adds to the Raft invariants that every leader left its evidence among the messages (a majority of votes, an AppendEntries) and
  that a commit index is not ahead of the leader of the term it was reached in; `Lease_Handlers` says what one handler run sends and leaves;
  `Lease_Proofs` is the timed invariant (a promise lives until the follower's clock has advanced by its election timeout).
- Not modelled: pre-votes, the one-node branch, leaderID learnt from other replies, changing settings.
- Found: a follower's promise is lost in a crash (`C72_restart_refuted`: leaderID and lastLegitAppendEntries are not saved and a restarted node
  votes at once); `bcastAppendEntries` stamps after the send, so a slow send makes the lease too long (`C72_late_stamp_refuted`); a vote or
  ack of a higher term makes a follower forget its leader (`C72_higher_reply_refuted`); shadow replicas, which have no vote, count
  (`C72_shadow_refuted`). Seen, not stated: `haveStickyLeader` adds ClockDriftBound to the promise, but the election timer clears leaderID
  without it, so the bound does not lengthen the promise.

### Herm (tube/hermes/hermes.go, pqtree.go: the Hermes replicated store; C73–C78)

- Modelled (`Herm_Model`): one key on any number of nodes. `TS.Compare`, `readReq`, `writeReq`, `recvInvalidate` with `actionI`,
  `recvAck` with the broadcast-ACK accumulation and `actionLA`, `recvValidate`, `unblockReadsFor`, `releaseDiscardedWriter` (with the
  slice it iterates over while deleting from it), `recordPending`/`deleteTicket`, `checkCoordOrFollowerFailed` and the replay, for both values
  of useBcastAckOptimization. The log of the cluster records requests, timestamps issued and answers; `hist_of` is what clients see.
- `Herm_Spec` is linearizability, well-formedness and no-invention over histories, without reference to the model. `Herm_Nonlin` is a checked
  procedure that refutes linearizability of a concrete history by trying every order; the `_refuted` theorems of C73 use it.
- Hypothesis `hashInj` (a parameter, not an axiom): the keyed hash separates ids at each version. BLAKE3 is not modelled.
- Not modelled: read-modify-write tickets (no exported function makes one), several keys, membership epochs and the operating lease (a message
  dropped for these reasons is a message not delivered), when deadlines fall (any time).
- Found: the four ways C73 fails, above all that as shipped `len(ackVector)+1 >= ReplicationDegree-1` lets a write complete one ACK early; panics
  (C77); requests that are never answered (C78); divergence after a deadline (C75). Seen, not stated: `readReq` does not check the operating
  lease; the version bump for RMW is the opposite of what its comment says, and followers acknowledge an RMW without applying it; membership
  changes do not change ReplicationDegree; with ReplicationDegree 1 every write but the first waits for its deadline.

### Cas (jsync/cas.go: the content-addressed store; C79–C82)

- Modelled (`Cas_Model`): both files byte by byte, the header codec, `NewCASIndex`, `loadIndex`, `verifyDataAgainstIndex`, `Get` (in the
  two steps its lock allows), `Append` (one blob a step, with the buffered index and its flushes), `addToMapData` with its random eviction.
  The process may be killed after any byte of any write.
- Parameters, with the hypotheses in `Cas_Spec.laws`: the hash (55 bytes, different for the blobs in use), s2 (decode after encode gives the
  input), the size of the work buffer. Sizes fit in 31 bits.
- Not modelled: pre-allocation, fsync and power failures (a write that returned stays), reading in pieces of 1 MB (with VerifyData a record
  larger than that makes the loop run for ever), errors of the operating system.
- Found: see the `_refuted` theorems of C79–C81. In short: `Get` ignores a header that does not match; offsets are recomputed from the index, so
  one orphaned record shifts every later one; VerifyData caches compressed bytes; `Append` panics on any known blob that is not in memory;
  overlapping Gets corrupt the cache.

### Czar (tube/czar.go: reliable membership; C83–C92)

- Modelled (`Czar_Model`): any number of member processes, one event at a time: `setVers`, `expireSilentNodes`, `Ping`/`handlePing`, the loop of
  `RMember.start` (contending, renewing, dialling, heartbeats, expiry), and for the key `doCAS` and `kvstoreWrite`. Time is a number that events
  advance; Tube's time stamps are arbitrary. The trace holds views handed to users, pings, answers, leases, panics.
- Not modelled: `slow` mode, the members table, channels that fill, several clocks (one clock for all members), the race on the address dialled.
  The hash of a list is taken to be injective (it is the hashed data itself).
- Found: see the `_refuted` theorems. In short: a winner whose answer is late panics on its retry; a member that missed an epoch can never win
  again; a member that gets a stale first answer goes quiet for ever; a new pinger is left out of the answer when somebody else is dropped; a
  takeover forgets members; a new epoch may go unannounced. Seen, not stated: after a restart of the loop in the czar state the expiry timer is
  nil; a user who does not drain OperatingLeaseRenewCh blocks its member.

### Tofu (hostkey.go: known keys, trust on first use, lockdown; C93–C103)

- Modelled (`Tofu_Model`): `hostKeyVerifies`, `readknownKeys`, `WriteOut`, `Add`, `IdentityString`, `isWritable`, and what the TLS and QUIC
  servers do with the answer. The check is a program over system calls on two names and their inodes (open files keep writing to a renamed
  inode), run alone, cut off after any call, or interleaved with others and with `chmod`. The file is text, read byte by byte.
- Assumed: base58 decoding inverts encoding and the code has no white space and no colon (`Base58`, a hypothesis of the theorems, met by the
  example `b58X`). Text is ASCII. New files are writable; disks do not fill; each line is written by one call.
- Not modelled: TLS itself (that possession of the first key is checked, and the chain is signed by the CA, is Go's), ownership of files, the
  fingerprint function, that the TLS server leaves a refused connection open.
- Found: see the `_refuted` theorems. In short: a listed peer's public certificate, appended to one's own chain, opens a read-only server; a
  refused peer ends the QUIC server; e-mail addresses are written unescaped; nothing is locked, so that checks at the same time panic, lose
  records, forget peers or undo a change to read-only; a kill between rename and create leaves a server that accepts everybody.

### Dsync (jsync/dirscan.go, walk.go, dirgiver.go, dirtaker.go: directory sync; C104–C110)

- Modelled (`Dsync_Model`): the giver's walk of a tree, the order of the listing and its packs; on the taker the file system (directories,
  files with contents, time and mode, symlinks), `filepath.Join`, each entry of a listing, `takeOneFile` (comparison by size and second), the
  batch of fetches (which files still arrive after a failure is arbitrary), the removal of what is left, dry runs.
- Simplified: checks of single files run one after the other (each touches its own path only); symlinks in the middle of a path are not
  followed; a directory or symlink where the giver has a file makes the fetch fail; directories have no size or time; a fetched file arrives
  whole (`Sync_*.v` models that).
- Not modelled: the wire, cancellation, a giver tree that changes meanwhile, the unused variant with a temporary directory, a target that turns
  from a directory into a file.
- Found: see the `_refuted` theorems. In short: dirtaker.go:840 tests `syncReq.Chunks != nil` where it means `== nil`, so that no file that
  exists and is not empty is ever updated by a directory sync, which reports success; ".." in file paths; dry runs that write; new leaf
  directories with mode 0700; byte totals that leave out one file per pack.

### Wait (tube/imap.go and its uses in tube/tube.go: requests that wait; C111–C116)

- Modelled (`Wait_Model`): `imap` (set, del, repair, all) over a heap of tickets whose LogIndex changes; of a node: arrival of a request on a
  leader or follower, stalling before the first commit, batches, commits with `FinishTicket` and `resubmitStalledTickets`, `becomeLeader`,
  stepping down, a follower's log, answers from the leader.
- Simplified: the ordered maps are sorted lists (`Omap_*.v` verifies them); sessions, membership changes and their queue, compaction, clusters
  of one node, requests that wait for a leader to be known, and an answer for a request that waits at a leader are left out; a batch is put in
  ticket by ticket; every client can be reached.
- Found: `all()` yields only tickets that have a LogIndex. `resubmitStalledTickets` looks there for tickets that have none, `becomeLeader` for
  the follower's tickets (which have none), `tellClientsImNotLeader` for all: see the `_refuted` theorems of C113–C115.

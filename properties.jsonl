{"id": "C01", "title": "Plaintext frames round-trip on any byte-stream connection", "statement": "Whatever sequence of messages is sent with sendMessage on an unencrypted connection, and however the connection splits the bytes into Read results, the peer's successive readMessage calls return exactly those serialized messages, in order, and consume exactly the bytes sent; a message whose serialized body exceeds maxMessage is reported as ErrTooLong by the reader.", "quantifier": "all finite message sequences, all body lengths, all compression choices, all ways the transport chunks reads", "why_tests_cant": "the chunking of a TCP stream and the mix of lengths/algorithms is unbounded; tests see a handful of chunkings", "anchors": ["common.go:workspace.sendMessage", "common.go:workspace.readMessage", "common.go:readFull", "common.go:writeFull"]}
{"id": "C02", "title": "Partial writes never duplicate, drop or reorder bytes", "statement": "writeFull returns nil only if every byte of the buffer was handed to the connection exactly once and in order; whatever the connection accepted before an error is a prefix of the buffer; after a deadline error at most one retry is made.", "quantifier": "all buffers and all sequences of short-write / error results returned by the connection", "why_tests_cant": "requires all interleavings of short writes and errors", "anchors": ["common.go:writeFull"]}
{"id": "C03", "title": "Compression tag codec is a bijection on supported names", "statement": "encodeMagic7 and decodeMagic7 are mutually inverse on the eight supported tags, every other string/byte is rejected with an error, and a frame whose first seven bytes differ from the magic is always refused with ErrMagicWrong.", "quantifier": "all strings, all bytes, all 8-byte headers", "why_tests_cant": "the string domain is infinite", "anchors": ["magic7.go:encodeMagic7", "magic7.go:decodeMagic7", "magic7.go:setMagicCheckWord", "common.go:workspace.readMessage"]}
{"id": "C04", "title": "Server compression follows the client, per-message opt-out is not sticky", "statement": "On an unencrypted connection with compression on, the tag the server uses for its next reply is the tag of the last client message that did not opt out via NoSystemCompression; opt-out messages are sent with the no-system-compression tag and never change the tag used afterwards; the client always uses its own configured tag.", "quantifier": "all histories of received/sent messages", "why_tests_cant": "depends on the whole history of both directions", "anchors": ["common.go:workspace.sendMessage", "common.go:workspace.readMessage"]}
{"id": "C05", "title": "Every supported compression name can actually be used", "statement": "For every CompressAlgo accepted by configuration, sending a message with it succeeds (no panic) and the receiver recovers it. (Documented in magic7.go; refuted for lz4 and all zstd levels, which panic.)", "quantifier": "all configured algorithms, all messages", "why_tests_cant": "tests only configure s2", "anchors": ["compress.go:pressor.handleCompress", "compress.go:decomp.handleDecompress", "magic7.go:magic"]}
{"id": "C06", "title": "Encrypted frames round-trip", "statement": "With encryption on, for any AEAD whose Open inverts Seal, every message accepted by sendMessage whose frame is within the receiver's limit is returned intact by the peer's readMessage, for any number of consecutive messages.", "quantifier": "all keys, nonces, bodies, message sequences", "why_tests_cant": "infinite input space; sequence-dependent nonce state", "anchors": ["chacha.go:encoder.sendMessage", "chacha.go:decoder.readMessage"]}
{"id": "C07", "title": "Nonces never repeat under one session key", "statement": "Within one connection no two encrypted frames, in either direction, ever use the same nonce, for any starting random nonces, as long as each side sends fewer than 2^120 messages.", "quantifier": "all initial random nonces, all message counts below the bound", "why_tests_cant": "2^120 states; counter carry across 16 bytes", "anchors": ["chacha.go:newBlabber", "chacha.go:incrementNonce", "chacha.go:encoder.moveToNextNonce"]}
{"id": "C08", "title": "A message the encrypted sender accepts is never dropped by the receiver for its size", "statement": "If sendMessage on an encrypted connection returns without ErrTooLong then the peer's readMessage does not fail with ErrTooLong (the stated purpose of the sender-side check). Refuted: bodies of maxMessage-39..maxMessage bytes pass the sender's check but the frame is up to 40 bytes longer.", "quantifier": "all body lengths", "why_tests_cant": "boundary at ~1.3 MB", "anchors": ["chacha.go:encoder.sendMessage", "chacha.go:decoder.readMessage", "common.go:maxMessage"]}
{"id": "C09", "title": "Per-message compression opt-out works on encrypted connections", "statement": "A message with NoSystemCompression set is sent on an encrypted connection without a crash. Refuted: the encoder panics whenever the tag in use differs from the configured one, which also kills a server matching a client that uses another algorithm, and CompressionOff with a configured algorithm.", "quantifier": "all configurations and message histories", "why_tests_cant": "needs the combination of encryption, opt-out and configuration", "anchors": ["chacha.go:encoder.sendMessage"]}
{"id": "C10", "title": "No received byte sequence crashes the encrypted reader", "statement": "For every byte string arriving on an encrypted connection readMessage returns a message or an error. Refuted: a length field below the tag/nonce size makes the slice expressions panic.", "quantifier": "all byte strings, including adversarial ones", "why_tests_cant": "adversarial input space", "anchors": ["chacha.go:decoder.readMessage"]}
{"id": "C11", "title": "omap behaves as a sorted finite map", "statement": "For every sequence of set/delkey/deleteWithIter/deleteAll/get/Len/cached calls, get2 returns the last value set and not since deleted, Len is the number of live keys, set reports newlyAdded exactly when the key was absent, and cached()/all() enumerate live pairs in strictly increasing key order.", "quantifier": "all operation sequences, all keys and values", "why_tests_cant": "cache/version interactions depend on the whole history", "anchors": ["omap.go:omap.set", "omap.go:omap.delkey", "omap.go:omap.get2", "omap.go:omap.cached", "omap.go:omap.all"]}
{"id": "C12", "title": "Deleting the current key while ranging over an omap visits every other key", "statement": "While ranging over all(), deleting the key just yielded (as documented) still yields every other live key exactly once. Holds when the order cache is cold; refuted on a warm cache: deleting the second-to-last key ends the range early and skips the last key.", "quantifier": "all maps, all deletion patterns during iteration, cold and warm cache", "why_tests_cant": "depends on cache temperature and position", "anchors": ["omap.go:omap.all", "omap.go:omap.allokv", "dmap.go:dmap.all", "tube/omap.go"]}
{"id": "C13", "title": "delkey reports absence with an end iterator", "statement": "delkey of an absent key returns found=false and an iterator at the end (documented: next is Limit). Refuted whenever a larger key is present.", "quantifier": "all maps and absent keys", "why_tests_cant": "needs arbitrary maps", "anchors": ["omap.go:omap.delkey"]}
{"id": "C14", "title": "dmap index, tree and order cache never disagree", "statement": "For every operation sequence dmap's hash index and its ordered tree hold exactly the same ids, set never panics with an out-of-sync error, and get2/Len/all agree with a finite map keyed by id().", "quantifier": "all operation sequences", "why_tests_cant": "invariant over unbounded histories", "anchors": ["dmap.go:dmap.set", "dmap.go:dmap.delkey", "dmap.go:dmap.deleteWithIter", "dmap.go:dmap.deleteAll", "dmap.go:dmap.all"]}
{"id": "C15", "title": "Mutexmap operations are atomic", "statement": "Every concurrent history of Mutexmap calls is equivalent to executing the same calls one at a time in lock-acquisition order on a plain map; GetValNDel hands a given stored value to at most one caller.", "quantifier": "all thread counts, all schedules", "why_tests_cant": "schedules are unbounded", "anchors": ["mutmap.go"]}
{"id": "C16", "title": "The TLS listener never exceeds its connection limit", "statement": "At every instant of every schedule of Accept/Close calls, the number of accepted and not yet closed connections is at most n, closing a connection twice releases its slot only once, and after Close no new connection is handed out once the done signal is observed.", "quantifier": "all schedules of accepts, errors and closes", "why_tests_cant": "needs all interleavings", "anchors": ["limitlsn.go"]}
{"id": "C17", "title": "Run-length encoded log terms are equivalent to the plain list of terms", "statement": "For every legal sequence of AddTerm, Truncate and CompactNewBeg, lastIndex, lastTerm and getTermForIndex on retained indexes agree with the plain (base, list of terms) log, and iteration from an index yields exactly the remaining (term,index) pairs.", "quantifier": "all operation sequences and indexes", "why_tests_cant": "unbounded logs", "anchors": ["tube/rle.go:TermsRLE"]}
{"id": "C18", "title": "Truncation preserves every retained term, including the compaction term", "statement": "After Truncate(k) every index still covered (base <= i <= k) has the same term as before. Refuted at the compaction base: Truncate overwrites the compaction term with the last kept run's term, and a later legal AddTerm can then panic.", "quantifier": "all logs and k", "why_tests_cant": "needs compacted logs with several terms", "anchors": ["tube/rle.go:TermsRLE.Truncate", "tube/rle.go:TermsRLE.AddTerm"]}
{"id": "C19", "title": "Extends computes the longest common prefix of leader and follower logs", "statement": "For uncompacted logs with non-decreasing terms, leader.Extends(follower) returns true exactly when the follower's term list is a prefix of the leader's, and the returned index is the length of the longest common prefix.", "quantifier": "all pairs of logs", "why_tests_cant": "pairs of unbounded lists", "anchors": ["tube/rle.go:TermsRLE.Extends", "tube/rle.go:TermsRLE.extends_aware_but_no_compaction_here"]}
{"id": "C20", "title": "Hybrid logical clock is strictly monotone and respects causality", "statement": "Every timestamp produced by a clock is strictly greater than every earlier one of that clock, every receive timestamp is strictly greater than the message's timestamp, so timestamps order all happens-before related events; the physical part never runs ahead of the largest physical time seen anywhere.", "quantifier": "all wall-clock readings (even going backwards), all message histories, all CAS interleavings", "why_tests_cant": "arbitrary clocks and schedules", "anchors": ["tube/hlc.go"]}
{"id": "C21", "title": "Span arithmetic is interval arithmetic", "statement": "overlaps/contains/isSuperSetOf/intersect agree with the set of integers in [beg,endx): intersect returns exactly the common integers, empty iff there are none.", "quantifier": "all pairs of spans", "why_tests_cant": "64-bit domain", "anchors": ["tube/span.go"]}
{"id": "C22", "title": "Leader lease time is the quorum-th newest pong", "statement": "The pong queue holds at most one pong per peer, the latest added; quorumPongTm(q) returns the q-th largest receive time when at least q peers are present and reports failure otherwise.", "quantifier": "all sequences of add/delete, all q", "why_tests_cant": "unbounded histories", "anchors": ["tube/pongpq.go"]}
{"id": "C23", "title": "Adaptive radix tree is a map", "statement": "For every sequence of Insert and Remove with arbitrary byte-string keys (including empty keys and keys that are prefixes of others), Find Exact returns the last inserted, not removed value, Remove returns that leaf, Insert reports updated exactly for present keys and Size is the number of keys.", "quantifier": "all operation sequences, all byte strings", "why_tests_cant": "node-type growth/shrink and path compression interact over histories", "anchors": ["tube/art/tree.go", "tube/art/inner.go", "tube/art/leaf.go", "tube/art/n4.go", "tube/art/n16.go", "tube/art/n48.go", "tube/art/n256.go"]}
{"id": "C24", "title": "Ordered queries on the radix tree agree with the sorted key list", "statement": "GTE/GT/LTE/LT searches and At(i)/LeafIndex return exactly the element/position dictated by the lexicographically sorted list of keys.", "quantifier": "all trees, all query keys, all indexes", "why_tests_cant": "all shapes", "anchors": ["tube/art/gte.go", "tube/art/lte.go", "tube/art/node.go", "tube/art/tree.go"]}
{"id": "C25", "title": "Content-defined chunking partitions the input", "statement": "For every input and configuration in range, the cutpoints of the FastCDC/UltraCDC chunkers are strictly increasing, end at the input length, and every chunk except the last has a size between the minimum and the maximum.", "quantifier": "all byte strings, all valid configurations", "why_tests_cant": "all inputs", "anchors": ["jcdc/fastcdc2.go", "jcdc/fastcdc4.go", "jcdc/ultracdc.go"]}
{"id": "C26", "title": "Chunking is local: a cut depends only on the bytes up to it", "statement": "The next cut of a chunker depends only on the first max(MaxSize,..) bytes of the remaining data, so after a resynchronisation point two files with a common suffix share all later chunks.", "quantifier": "all pairs of inputs", "why_tests_cant": "pairs of unbounded inputs", "anchors": ["jcdc/fastcdc2.go", "jcdc/ultracdc.go"]}
{"id": "C27", "title": "Chunk-based file sync reconstructs the source exactly", "statement": "Applying the update plan computed from the sender's chunks against any local file yields a file byte-identical to the sender's, assuming no hash collision between the chunks involved.", "quantifier": "all pairs of files", "why_tests_cant": "pairs of files", "anchors": ["jsync/rsync.go", "jsync/taker.go", "jsync/giver.go"]}
{"id": "C28", "title": "A write to a leased key by someone else is refused until the lease plus clock drift has passed", "statement": "When a key has an unexpired lease, a committed write whose requester is not the leasor leaves value, leasor, epoch and version unchanged and returns an error carrying the current value; once the entry time exceeds lease end plus drift bound the write succeeds.", "quantifier": "all stores, tickets and times", "why_tests_cant": "time and history dependent", "anchors": ["tube/actions.go:kvstoreWrite"]}
{"id": "C29", "title": "Lease epochs are fencing tokens", "statement": "Over any sequence of committed writes to a key that is never deleted, the lease epoch never decreases, increases whenever the leasor identity changes, versions increase by exactly one per successful write, and the write log index strictly increases.", "quantifier": "all histories", "why_tests_cant": "unbounded histories", "anchors": ["tube/actions.go:kvstoreWrite", "tube/fencing.go"]}
{"id": "C30", "title": "Replicas that apply the same log hold the same key/value state", "statement": "Applying the same sequence of committed write, CAS, delete, make/delete/rename-table entries from the same start yields the same store on every node, independent of local clocks. (Read-triggered auto-delete, which consults the local clock, is excluded / refuted.)", "quantifier": "all logs, all nodes", "why_tests_cant": "unbounded logs", "anchors": ["tube/actions.go", "tube/tube.go:commitWhatWeCan"]}
{"id": "C31", "title": "At most one leader per term", "statement": "In every execution of the cluster, at most one node becomes leader in a given term.", "quantifier": "all cluster sizes, all message delays, losses, duplications, reorderings and restarts", "why_tests_cant": "distributed schedules", "anchors": ["tube/tube.go:handleRequestVote", "tube/tube.go:tallyVote", "tube/tube.go:beginElection"]}
{"id": "C32", "title": "Log matching", "statement": "If two nodes' logs contain an entry with the same index and term then the logs are identical up to that index.", "quantifier": "all executions", "why_tests_cant": "distributed schedules", "anchors": ["tube/tube.go:handleAppendEntries", "tube/tube.go:logsAreMismatched"]}
{"id": "C33", "title": "Committed entries are never lost and all nodes apply the same sequence", "statement": "An entry committed in some term is in the log of every later leader, and no two nodes ever apply different entries at the same index.", "quantifier": "all executions", "why_tests_cant": "distributed schedules", "anchors": ["tube/tube.go:leaderAdvanceCommitIndex", "tube/tube.go:commitWhatWeCan", "tube/tube.go:handleAppendEntries"]}
{"id": "C34", "title": "Membership change keeps quorums intersecting", "statement": "Whenever the reconfiguration check accepts a new member set, every majority of the old set intersects every majority of the new set.", "quantifier": "all member sets", "why_tests_cant": "all sets", "anchors": ["tube/tube.go:quorumsOverlap", "tube/tube.go:mongoLeaderCanReconfig"]}
{"id": "C35", "title": "The write-ahead log survives crashes", "statement": "After a crash at any byte of an append, reopening the write-ahead log recovers exactly the entries whose records were completely written, or reports corruption; it never returns a corrupted entry.", "quantifier": "all crash points, all logs", "why_tests_cant": "crash points", "anchors": ["tube/wal.go"]}
{"id": "C36", "title": "Client sessions give exactly-once application", "statement": "A session ticket with a serial number already applied is answered from the session table and not applied again.", "quantifier": "all histories of retries and leader changes", "why_tests_cant": "schedules", "anchors": ["tube/tube.go:leaderDoneEarlyOnSessionStuff", "tube/tube.go:commitWhatWeCan"]}
{"id": "C37", "title": "Concurrent sends on one connection never interleave frames", "statement": "Whatever goroutines send on one connection at the same time, and however the scheduler interleaves their conn.Write calls, the bytes on the wire are a concatenation of whole frames, one per send, in some order. (Holds when all senders share one workspace; refuted for the server, whose read loop and send loop each build their own.)", "quantifier": "all numbers of senders, all messages, all schedules", "why_tests_cant": "needs every interleaving of the writes of concurrent goroutines", "anchors": ["common.go:workspace.sendMessage", "srv.go:runSendLoop", "srv.go:runReadLoop", "chacha.go:newBlabber"]}
{"id": "C38", "title": "Ranging inside a range does not corrupt later ranges", "statement": "If a for-range over an omap (or dmap) contains another for-range over the same map, and neither changes the map, then every later range still yields each live key exactly once in order.", "quantifier": "every map content, every nesting and every point at which the inner and outer loops are left", "why_tests_cant": "needs the interleaving of two iterations with early exits; only particular combinations expose the shared order cache", "anchors": ["omap.go: all, cached", "dmap.go: all"]}
{"id": "C39", "title": "A rejected client gives its listener slot back", "statement": "When the TLS server turns a client away (failed handshake or key not accepted) it closes the connection, so that turned-away clients never use up the connection limit.", "quantifier": "all sequences of clients, all outcomes of handshake and key check", "why_tests_cant": "needs as many hostile clients as the limit", "anchors": ["srv.go:handleTLSConnection", "limitlsn.go"]}
{"id": "C40", "title": "Length-hiding padding is cheap, stable and order preserving", "statement": "For every positive message length below 2^62 the Padme padding is non-negative and less than n/log2(n), padding an already padded length adds nothing, and a longer message never has a shorter padded length. (A zero length panics.)", "quantifier": "all lengths", "why_tests_cant": "bit tricks over 62-bit lengths", "anchors": ["jcdc/padme.go Padme"]}
{"id": "C41", "title": "A file that changes during a sync is never committed in a mixed state", "statement": "If the sender's file or the receiver's old version changes while a sync runs, the receiver either keeps its old file or commits a file with the size and checksum the sender announced at the start.", "quantifier": "all pairs of files, chunk lists and concurrent modifications of either file", "why_tests_cant": "the file may change at any moment of the transfer", "anchors": ["jsync/taker.go: Taker", "jsync/giver.go: packAndSendChunksJustInTime"]}
{"id": "C42", "title": "File scanners describe the file exactly", "statement": "Scanning a file into content-defined chunks, with the one-pass scanner or with the sparse-aware scanner, yields chunks that cover the file exactly once in order, each labelled with the hash of its bytes or as a run of zeros that really is zeros, no data chunk above the maximum size; the result does not depend on the size of the read buffer, and on a file without holes both scanners give the same chunks.", "quantifier": "every file, every chunker with bounded look-ahead, every hash function, every read buffer at least as large as the maximum chunk, every correct sparse map", "why_tests_cant": "the file, the buffer boundaries, the hole layout and the chunker settings range over unbounded sets; tests fix a few files", "anchors": ["jsync/rsync.go:GetHashesOneByOne", "jsync/rsync.go:SummarizeBytesInCDCHashes", "jcdc/fastcdc4.go:CutpointsAndAllZero"]}
{"id": "C43", "title": "Parallel chunking describes the file", "statement": "Chunking a file in parallel segments yields chunks that cover the file exactly once in order with truthful labels and bounded sizes, whatever the number of segments and wherever the segment borders fall.", "quantifier": "every non-empty file, every chunker, every segment size", "why_tests_cant": "segment borders interact with the positions of the cut points; only some sizes and contents expose the bad cases", "anchors": ["jsync/parallel.go:ChunkFile2"]}
{"id": "C44", "title": "Longest run of zeros", "statement": "The search for the longest run of zero bytes returns a run of zeros such that no run is longer and, of those of this length, the first one; the wide version returns the same answer on every CPU, with and without 64- and 32-byte compares.", "quantifier": "every byte string, every combination of CPU features", "why_tests_cant": "tests fix a few strings and the CPU they run on", "anchors": ["bytes/zero.go:LongestZeroSpan", "bytes/zero.go:SIMDLongestZeroSpan"]}
{"id": "C45", "title": "Compare-and-swap is atomic and has one winner per version", "statement": "A CAS on a key that reports success found the version, epoch or value it asked for and stored its own value as the next version, touching no other key, and never against another's lease; one that does not report success leaves the store unchanged and returns an error. A CAS whose comparison holds on an unleased key succeeds. Of all CAS for the same version of a key that is not deleted, at most one succeeds.", "quantifier": "all stores, tickets, clocks, drift bounds, and all histories between two CAS", "why_tests_cant": "needs every interleaving of writes between two CAS", "anchors": ["tube/actions.go:doCAS", "tube/actions.go:kvstoreWrite"]}
{"id": "C46", "title": "A lease protects its key from deletes by others", "statement": "While a lease is in force a delete by anyone but its holder leaves the key in place; once it is over, or for the holder, the delete removes exactly that key.", "quantifier": "all stores, tickets and times", "why_tests_cant": "time and history dependent", "anchors": ["tube/actions.go:doDeleteKey", "tube/actions.go:doDeleteTable", "tube/actions.go:doRenameTable"]}
{"id": "C47", "title": "Reads and scans return exactly what is stored", "statement": "A read returns the stored value and lease of the key. A range scan returns, in key order, every key between its bounds with its value and no other key. A prefix scan returns every key with the prefix and no other.", "quantifier": "all stores, bounds, prefixes and both directions", "why_tests_cant": "all stores and bounds", "anchors": ["tube/actions.go:doReadKey", "tube/actions.go:doReadKeyRange", "tube/actions.go:doReadPrefixRange"]}
{"id": "C48", "title": "Saving, loading and merging the key/value store lose nothing", "statement": "Loading a saved store gives back the same store for every order in which the map is ranged over; merging another store takes all its keys and keeps all others.", "quantifier": "all stores, all map orders", "why_tests_cant": "Go map iteration order is random; unbounded stores", "anchors": ["tube/tube.go:KVStore.PreSaveHook", "tube/tube.go:KVStore.PostLoadHook", "tube/kv.go:Merge"]}
{"id": "C49", "title": "Iterating over a key range of the radix tree", "statement": "Iter, RevIter, Ascend and Descend visit exactly the keys between their bounds, once each, in order, and report the position of each. After the tree is changed, the next call goes on with the key after the last one visited.", "quantifier": "all trees reached by any history, all bounds, both directions", "why_tests_cant": "all node shapes, path compressions and bounds; changes between any two calls", "anchors": ["tube/art/iterator.go:Iter", "tube/art/iterator.go:RevIter", "tube/art/iterator.go:Next", "tube/art/iterator.go:inRange", "tube/art/tree.go:find_unlocked"]}
{"id": "C50", "title": "One leader per term, under membership changes", "statement": "However the members change, one at a time, through the leader, and whatever messages are lost, repeated, delayed or reordered and whichever nodes crash and restart: no term has two leaders. A leader is a node in the leader role or one that has sent AppendEntries for the term; a restarted node counts as another one.", "quantifier": "all founding sets, all schedules of elections, changes, deliveries, crashes and restarts, of any length", "why_tests_cant": "ranges over all schedules with changing quorums; the failing ones need six nodes and dozens of well chosen deliveries", "anchors": ["tube/tube.go:changeMembership", "tube/tube.go:mongoLeaderCanReconfig", "tube/tube.go:becomeLeader", "tube/tube.go:beginPreVote", "tube/tube.go:handleRequestVote", "tube/tube.go:tallyVote", "tube/tube.go:handleAppendEntries", "tube/watchdog.go:seen"]}
{"id": "C51", "title": "Membership changes that were built on are never lost", "statement": "If a leader changes the members starting from some configuration, every leader of a later term has that configuration in the provenance of its own; and a configuration's members and version are those its provenance gives.", "quantifier": "all schedules as in C50", "why_tests_cant": "a lost change shows only in a later election won by members that missed it", "anchors": ["tube/tube.go:changeMembership", "tube/tube.go:setMC", "tube/tube.go:VersionGT", "tube/tube.go:addProv"]}
{"id": "C52", "title": "Damage to the stored log is noticed", "statement": "When the log file or its companion file (parlog) holds other bytes than were written, opening the log fails or gives the entries that were stored.", "quantifier": "all histories of the log, all contents of either file", "why_tests_cant": "no finite set of damaged files covers all of them", "anchors": ["tube/wal.go:loadRaftLogEntry", "tube/wal.go:validateParLog", "tube/par.go:newParLog"]}
{"id": "C53", "title": "The write-ahead log is a list of entries behind a base", "statement": "Append, overwrite from an index, compaction, snapshot installation, reopening and the lookups act as on a plain list of consecutive entries behind the last discarded index and term.", "quantifier": "all histories of calls, all entries and indexes", "why_tests_cant": "the positions, hashes and run-length index kept beside the list depend on the whole history", "anchors": ["tube/wal.go:saveRaftLogEntry", "tube/wal.go:overwriteEntries", "tube/wal.go:Compact", "tube/wal.go:installedSnapshot", "tube/wal.go:getAllEntriesFrom"]}
{"id": "C54", "title": "Saving the Raft state is atomic", "statement": "After any history of saves with the process or machine dying at any point, loading gives the state of the last completed save or of one interrupted since; once loaded, a state does not go away without a save.", "quantifier": "all states, all histories of saves, all crash points", "why_tests_cant": "crash points and unsynced directory entries cannot be produced on demand", "anchors": ["tube/persistor.go:save", "tube/persistor.go:load", "tube/persistor.go:NewRaftStatePersistor"]}
{"id": "C55", "title": "The log can be used after a crash", "statement": "After a crash at any point of an append, a batch, a compaction or a snapshot installation the log opens with its old or new content, and what is appended then is durable.", "quantifier": "all histories of the log, all crash points, all contents of unsynced parts", "why_tests_cant": "crash points of two files that are synced at different times", "anchors": ["tube/wal.go:overwriteEntries", "tube/wal.go:Compact", "tube/wal.go:installedSnapshot", "tube/par.go"]}
{"id": "C56", "title": "A session never goes back in time", "statement": "When a client with a session has been told the results as of log entry i, no later answer to that session comes from a state older than entry i.", "quantifier": "all histories of reads, writes, leader changes, restarts and snapshots", "why_tests_cant": "the older state is only reachable after a leader change or a clock fault at the right moment", "anchors": ["tube/tube.go:leaderDoneEarlyOnSessionStuff", "tube/tube.go:leaderServedLocalRead", "tube/tube.go:commitWhatWeCan"]}
{"id": "C57", "title": "A client name has one session", "statement": "Opening a new session under a client name ends the session that name had before; at no time are two sessions of one client name usable on a node.", "quantifier": "all histories of session creation, use, expiry, end, restart and snapshot", "why_tests_cant": "depends on the order of creations, expiries, restarts and snapshots", "anchors": ["tube/tube.go:applyNewSess", "tube/tube.go:updateSessTableByClientName", "tube/tube.go:garbageCollectOldSessions", "tube/tube.go:applyNewStateSnapshot"]}
{"id": "C58", "title": "A call returns the answer to its own request", "statement": "SendAndGetReply returns at most once; when it returns a reply without error, that reply is the server's answer to this very request (what the registered function returned for it, or the error for an unregistered service), whatever other calls, streams, one-way messages and pushes share the connection; and when the server has dealt with everything and the client has read it, no call is left waiting.", "quantifier": "all interleavings of client, server and user code on one connection, with timeouts, cancels, failed writes and disconnects", "why_tests_cant": "the reply is matched by a number; whether it can be taken for another depends on the schedule of all goroutines", "anchors": ["cli.go:SendAndGetReply", "cli.go:runReadLoop", "cli.go:runSendLoop", "srv.go:processWork", "srv.go:SendMessage"]}
{"id": "C59", "title": "A request is executed at most once", "statement": "The server calls a registered function at most once for each message the client sent, with exactly that message; a call sends its request at most once; a reply is only sent after the function returned, carries what it returned, and there is at most one.", "quantifier": "all interleavings on one connection", "why_tests_cant": "one missed case in the hand-over between goroutines would show only in rare schedules", "anchors": ["srv.go:processWork", "srv.go:handleIncomingMessage", "cli.go:runSendLoop"]}
{"id": "C60", "title": "Uploads arrive whole and in order", "statement": "An upload function is given its own begin message first and then the parts in order, none skipped, repeated or taken from another upload; a reply without error means it was given the whole upload; an upload cannot bring down the server or stop the connection.", "quantifier": "all interleavings of uploads, calls and cancels on one connection, any number of parts, any buffer sizes", "why_tests_cant": "depends on how parts of concurrent uploads, cancels and ends of functions interleave", "anchors": ["cli.go:UploadBegin", "cli.go:UploadMore", "srv.go:handleUploadParts", "srv.go:beginReadStream", "srv.go:registerInFlightCallToCancel"]}
{"id": "C61", "title": "Downloads arrive whole and in order", "statement": "The parts a server function sends are numbered 0, 1, 2, ... and reach the client's download channel in that order, none lost or repeated, followed by the function's reply; the part sent with last=true has HDR.Typ CallDownloadEnd.", "quantifier": "all interleavings on one connection, any number of parts, any buffer size", "why_tests_cant": "depends on the interleaving of the server's writes and the client's reads over an unbounded stream", "anchors": ["cli.go:NewDownloader", "cli.go:BeginDownload", "srv.go:sendDownloadPart", "srv.go:handleReply_to_CallID_ToPeerID", "cli.go:runReadLoop"]}
{"id": "C62", "title": "Cancelling a call cancels that call", "statement": "After a caller has been told ErrCancelReqSent the context of its function is cancelled; the context of a function is not cancelled unless its own call was cancelled or its own deadline passed.", "quantifier": "all interleavings on one connection", "why_tests_cant": "a race between goroutines that handle the request and its cancelling", "anchors": ["cli.go:SendAndGetReply", "srv.go:cancelCallID", "srv.go:noLongerInFlight", "srv.go:registerInFlightCallToCancel", "srv.go:processWork"]}
{"id": "C63", "title": "A request for an unregistered service is refused", "statement": "A request for a service nobody registered runs no function, is answered by one error, is reported to the caller as an error, and does not disturb the other calls on the connection.", "quantifier": "all interleavings on one connection", "why_tests_cant": "the effect on other calls depends on what is in progress at that moment", "anchors": ["srv.go:respondToReqWithError", "srv.go:processWork", "cli.go:SendAndGetReply"]}
{"id": "C64", "title": "A net/rpc call returns what its method returned", "statement": "Client.Call returns the reply and error its method returned for its argument, the method having been called exactly once with that argument (or an error and no call, if no such method is registered), whatever other goroutines call on the same client, and whether or not earlier calls were cancelled or timed out; no call is left waiting and the client does not panic.", "quantifier": "all interleavings of the client's goroutines and the server's per-request goroutines on one connection; any number of calls, any giving up", "why_tests_cant": "the server's buffers belong to the connection and its goroutines to requests; what goes wrong depends on the schedule", "anchors": ["cli.go:Call", "cli.go:Go", "cli.go:send", "cli.go:gotNetRpcInput", "srv.go:callBridgeNetRpc", "srv.go:sendResponse", "srv.go:readRequest", "greencodec.go"]}
{"id": "C65", "title": "A fragment arrives as it was sent", "statement": "What is read from a circuit carries the operation, subject, part number, payload, error text, type and user arguments the sender put into the fragment, and names the sending peer and the circuit; sending a well-formed fragment, or asking for a circuit with one as its first fragment, does not panic.", "quantifier": "all fragments, circuits and UserMeta maps", "why_tests_cant": "the conversion copies some twenty fields and a map through two record types; only a statement over all fields and all maps, nil and empty ones included, settles it", "anchors": ["ckt.go:SendOneWay", "ckt.go:ConvertFragmentToMessage", "ckt.go:ToMessage", "ckt.go:convertMessageToFragment", "ckt.go:newCircuit"]}
{"id": "C66", "title": "User and system arguments of a fragment never meet", "statement": "What SetUserArg sets is what GetUserArg returns, whatever SetSysArg is used for, and the other way round; keys that are ruled out are refused.", "quantifier": "all sequences of settings, all keys and values", "why_tests_cant": "all interleavings of settings of all keys", "anchors": ["ckt.go:SetUserArg", "ckt.go:GetUserArg", "ckt.go:SetSysArg", "ckt.go:GetSysArg"]}
{"id": "C67", "title": "Fragment.Compare is an order", "statement": "Compare is the lexicographic order by circuit, sender, receiver, serial, service names, type, operation, part, subject, error and payload: 0 exactly for fragments that agree in all of these, and opposite when the arguments change places.", "quantifier": "all pairs of fragments", "why_tests_cant": "pairs of fragments are infinitely many and the defect is in the last field compared", "anchors": ["ckt.go:Compare"]}
{"id": "C68", "title": "A recycled fragment has one user", "statement": "NewFragment returns a blank fragment that nobody else holds, with a serial number of its own, however fragments are sent, freed and sent again.", "quantifier": "all histories of creating, changing, freeing and sending fragments, with any outcome of each send", "why_tests_cant": "sharing shows only after a particular history of failures and reuse", "anchors": ["ckt.go:newFragment", "ckt.go:freeFragment", "ckt.go:SendOneWay"]}
{"id": "C69", "title": "A circuit delivers in order and without gaps", "statement": "What the user of one end of a circuit takes from Reads (and from Errors) is what the user of the other end sent there with SendOneWay, the first fragment included: in the order of sending, nothing twice, nothing invented. While the circuit is open and the connection up, everything sent is delivered once nothing is under way.", "quantifier": "all interleavings of any number of peers and circuits over one connection: opening, sending, receiving, closing and stopping at any moment; any capacity of the channels; both directions; fragments and errors", "why_tests_cant": "loss and reordering depend on which of a dozen goroutines runs next, on timers of two and five seconds, and on which other circuits are being closed", "anchors": ["pump.go:peerbackPump", "ckt.go:SendOneWay", "ckt.go:bootstrapCircuit", "srv.go:handleReply_to_CallID_ToPeerID", "ckt2.go:implRemotePeerAndGetCircuit"]}
{"id": "C70", "title": "Closing a circuit: data first, and the other end learns of it", "statement": "When one end of a circuit is closed, by its user or because its peer stops, the other end is closed too, after everything that was sent before.", "quantifier": "all interleavings as for C69", "why_tests_cant": "the notice of the end travels through the same queues as data but can be overtaken, given up after five seconds, or replaced by an error", "anchors": ["pump.go:cleanupCkt", "pump.go:peerbackPump", "ckt.go:Close", "ckt.go:bootstrapCircuit", "srv.go:handleReply_to_CallID_ToPeerID"]}
{"id": "C71", "title": "A peer's circuits are accounted for", "statement": "The circuits a peer was told of are those it has open (OpenCircuitCount) and those it closed; each end is closed at most once; a peer stops only when told to, or, with AutoShutdownWhenNoMoreCircuits, when its last circuit closed.", "quantifier": "all interleavings as for C69, all peers", "why_tests_cant": "an end can be closed from both sides, by the user and by the peer at once; counts must agree in every order of these", "anchors": ["pump.go:cleanupCkt", "pump.go:peerbackPump", "ckt.go:OpenCircuitCount", "ckt.go:Close"]}
{"id": "C72", "title": "A read the leader answers by itself is not stale", "statement": "When the leader of the cluster answers a read from its own store without asking anyone (the lease: enough followers have acknowledged it recently), the answer reflects every write that any node had applied before, anywhere, and nobody leads a later term; this stays so until the good-until time handed to the client, as long as the leader keeps its term.", "quantifier": "all executions of the consensus protocol with clocks: any cluster size above one, any message order, loss, duplication and delay, crashes and restarts, any clocks within a bound on how far two may drift apart over an election timeout, any settings of election timeout, heartbeat and drift bound, different per node", "why_tests_cant": "staleness needs one particular interleaving of a lease about to run out with an election elsewhere, and depends on clock readings; no test controls the clocks of several machines", "anchors": ["tube/tube.go:leaderCanServeReadsLocally", "tube/tube.go:haveStickyLeader", "tube/tube.go:handleAppendEntriesAck", "tube/tube.go:bcastAppendEntries", "tube/tube.go:handleAppendEntries"]}
{"id": "C73", "title": "Reads and writes on all Hermes nodes are linearizable", "statement": "Any node of a Hermes cluster takes reads and writes; together the answers are those of a single register: there is an order of the operations, respecting which was answered before which was requested, in which every read returns the value of the write before it.", "quantifier": "all executions of a Hermes cluster on one key: any number of nodes, any reads and writes on any nodes, any message order, delay, loss and duplication", "why_tests_cant": "the order must exist for every interleaving of requests and messages over all nodes; a stale read needs one particular delay of one message", "anchors": ["tube/hermes/hermes.go:Write", "tube/hermes/hermes.go:Read", "tube/hermes/hermes.go:writeReq", "tube/hermes/hermes.go:readReq", "tube/hermes/hermes.go:recvInvalidate", "tube/hermes/hermes.go:recvAck", "tube/hermes/hermes.go:recvValidate"]}
{"id": "C74", "title": "A Hermes read returns only values somebody wrote", "statement": "A value a read returns, on any node, at any time, was passed to a write requested before.", "quantifier": "all executions of a Hermes cluster on one key: any number of nodes, any reads and writes on any nodes, any message order, delay, loss and duplication, deadlines passing at any time, nodes that panicked", "why_tests_cant": "values travel through invalidations, replays and queued writes; no test covers all the paths and their combinations", "anchors": ["tube/hermes/hermes.go:Write", "tube/hermes/hermes.go:Read", "tube/hermes/hermes.go:writeReq", "tube/hermes/hermes.go:readReq", "tube/hermes/hermes.go:recvInvalidate", "tube/hermes/hermes.go:recvAck", "tube/hermes/hermes.go:recvValidate", "tube/hermes/hermes.go:checkCoordOrFollowerFailed"]}
{"id": "C75", "title": "Hermes nodes agree once messages have arrived", "statement": "Once every invalidation sent has been delivered to its addressee (in any order, any number of times), all nodes hold the same value, and it is one somebody asked to write.", "quantifier": "all executions of a Hermes cluster on one key: any number of nodes, any reads and writes on any nodes, any message order, delay, loss and duplication", "why_tests_cant": "nodes may process concurrent writes in every order; agreement must hold for all of them", "anchors": ["tube/hermes/hermes.go:Write", "tube/hermes/hermes.go:Read", "tube/hermes/hermes.go:writeReq", "tube/hermes/hermes.go:readReq", "tube/hermes/hermes.go:recvInvalidate", "tube/hermes/hermes.go:recvAck", "tube/hermes/hermes.go:recvValidate"]}
{"id": "C76", "title": "Hermes writes are totally ordered, the same everywhere", "statement": "Of two writes to a key every node prefers the same one; no two writes are given the same timestamp; a node never goes back to an older write.", "quantifier": "all timestamps; all executions of a Hermes cluster on one key", "why_tests_cant": "ties between nodes are broken by a keyed hash, so the order between particular writes is different every time", "anchors": ["tube/hermes/hermes.go:Write", "tube/hermes/hermes.go:Read", "tube/hermes/hermes.go:writeReq", "tube/hermes/hermes.go:readReq", "tube/hermes/hermes.go:recvInvalidate", "tube/hermes/hermes.go:recvAck", "tube/hermes/hermes.go:recvValidate", "tube/hermes/hermes.go:Compare"]}
{"id": "C77", "title": "No request or message makes a Hermes node panic", "statement": "Whatever requests and messages arrive, in whatever order, the node keeps running.", "quantifier": "all executions of a Hermes cluster on one key: any number of nodes, any reads and writes on any nodes, any message order, delay, loss and duplication", "why_tests_cant": "the panics are assertions on states that only particular message orders reach", "anchors": ["tube/hermes/hermes.go:Write", "tube/hermes/hermes.go:Read", "tube/hermes/hermes.go:writeReq", "tube/hermes/hermes.go:readReq", "tube/hermes/hermes.go:recvInvalidate", "tube/hermes/hermes.go:recvAck", "tube/hermes/hermes.go:recvValidate"]}
{"id": "C78", "title": "A Hermes request is answered at most once, and only after it was made", "statement": "Every Read and Write returns at most once, with an answer given after the request; nothing is answered that was not asked.", "quantifier": "all executions of a Hermes cluster on one key: any number of nodes, any reads and writes on any nodes, any message order, delay, loss and duplication, deadlines passing at any time, nodes that panicked", "why_tests_cant": "tickets are kept in two structures and moved between them by every handler; double answers need particular interleavings", "anchors": ["tube/hermes/hermes.go:Write", "tube/hermes/hermes.go:Read", "tube/hermes/hermes.go:writeReq", "tube/hermes/hermes.go:readReq", "tube/hermes/hermes.go:recvInvalidate", "tube/hermes/hermes.go:recvAck", "tube/hermes/hermes.go:recvValidate", "tube/hermes/pqtree.go", "tube/hermes/hermes.go:unblockReadsFor"]}
{"id": "C79", "title": "The content-addressed store returns what was stored under a hash", "statement": "Get of a hash returns the blob with that hash that an Append was given before, and never reports a blob of an Append that returned as missing; the counts Appends return add up to the number of different blobs.", "quantifier": "all executions of one content-addressed store: any processes one after the other, each with any Appends, any concurrent Gets, any cache size and any choice of what to evict, each closed or killed at any byte of any write", "why_tests_cant": "wrong answers need a particular order of kills, reopenings and appended sizes; every byte offset in every history must be right", "anchors": ["jsync/cas.go:NewCASIndex", "jsync/cas.go:Get", "jsync/cas.go:Append", "jsync/cas.go:loadIndex", "jsync/cas.go:ManualMarshalMsg"]}
{"id": "C80", "title": "What a returned Append has stored outlives the process", "statement": "After the process was closed or killed anywhere, the store can be opened again, with or without VerifyData, and Get returns every blob of every Append that had returned.", "quantifier": "all executions of one content-addressed store: any processes one after the other, each with any Appends, any concurrent Gets, any cache size and any choice of what to evict, each closed or killed at any byte of any write", "why_tests_cant": "the kill may fall on any byte of any write of any Append", "anchors": ["jsync/cas.go:NewCASIndex", "jsync/cas.go:Get", "jsync/cas.go:Append", "jsync/cas.go:loadIndex", "jsync/cas.go:verifyDataAgainstIndex"]}
{"id": "C81", "title": "Append and Get do not panic", "statement": "Append of any non-empty blobs and Get of any hash return, whatever was stored and asked before and whatever runs at the same time.", "quantifier": "all executions of one content-addressed store: any processes one after the other, each with any Appends, any concurrent Gets, any cache size and any choice of what to evict, each closed or killed at any byte of any write", "why_tests_cant": "the panics depend on which blobs a random eviction left in memory, and on which Gets overlap", "anchors": ["jsync/cas.go:NewCASIndex", "jsync/cas.go:Get", "jsync/cas.go:Append", "jsync/cas.go:addToMapData"]}
{"id": "C82", "title": "The store keeps at most MaxMemBlob blobs in memory", "statement": "At no time does a store opened with MaxMemBlob m hold more than m blobs in memory.", "quantifier": "all executions of one content-addressed store: any processes one after the other, each with any Appends, any concurrent Gets, any cache size and any choice of what to evict, each closed or killed at any byte of any write", "why_tests_cant": "the bound must hold after every sequence of insertions and evictions, overlapping Gets included", "anchors": ["jsync/cas.go:addToMapData", "jsync/cas.go:verifyDataAgainstIndex"]}
{"id": "C83", "title": "The membership views handed to a user never go back", "statement": "Of two membership views a process hands to its user, the later has the same or a higher version (lease epoch, then number within the epoch).", "quantifier": "all runs of any number of membership processes over one czar key: any interleaving of starts, kills, contending, renewing, pings, answers, timeouts and lost connections, any delays, any time stamps of Tube's leader", "why_tests_cant": "answers, key reads and takeovers race; only some schedules would bring an old view after a new one", "anchors": ["tube/czar.go:setVers", "tube/czar.go:handlePing", "tube/czar.go:expireSilentNodes", "tube/czar.go:start"]}
{"id": "C84", "title": "At most one czar at a time", "statement": "If the clock of Tube's leader is never more than ClockDriftBound ahead of the members' when it stamps an entry, then at any time at most one process would answer a ping as czar.", "quantifier": "all runs of any number of membership processes over one czar key: any interleaving of starts, kills, contending, renewing, pings, answers, timeouts and lost connections, any delays, any time stamps of Tube's leader", "why_tests_cant": "two czars need a lease that ends between particular steps of two processes", "anchors": ["tube/czar.go:setVers", "tube/czar.go:handlePing", "tube/czar.go:expireSilentNodes", "tube/czar.go:start", "tube/tube.go:doCAS", "tube/actions.go:kvstoreWrite"]}
{"id": "C85", "title": "Answers to pings never go back, whichever czar gives them", "statement": "Under the same condition on clocks, of two answers to pings, given by any czars to any processes, the later has the same or a higher version.", "quantifier": "all runs of any number of membership processes over one czar key: any interleaving of starts, kills, contending, renewing, pings, answers, timeouts and lost connections, any delays, any time stamps of Tube's leader", "why_tests_cant": "must hold across takeovers, restarts and slow pings", "anchors": ["tube/czar.go:setVers", "tube/czar.go:handlePing", "tube/czar.go:expireSilentNodes", "tube/czar.go:start"]}
{"id": "C86", "title": "A version number determines the membership", "statement": "Two views with the same version, shown to any users or pingers at any time, name the same czar and the same members.", "quantifier": "all runs of any number of membership processes over one czar key: any interleaving of starts, kills, contending, renewing, pings, answers, timeouts and lost connections, any delays, any time stamps of Tube's leader", "why_tests_cant": "every pair of views in every run must agree", "anchors": ["tube/czar.go:setVers", "tube/czar.go:handlePing", "tube/czar.go:expireSilentNodes", "tube/czar.go:start", "tube/czar.go:hashPeerIDs"]}
{"id": "C87", "title": "A member stays in the list while its lease runs", "statement": "If an answer to a ping lists a member with a lease until u, then no later answer lacks it before u plus the clock drift bound.", "quantifier": "all runs of any number of membership processes over one czar key: any interleaving of starts, kills, contending, renewing, pings, answers, timeouts and lost connections, any delays, any time stamps of Tube's leader", "why_tests_cant": "depends on when each member last pinged, when the czar looked and who took over", "anchors": ["tube/czar.go:setVers", "tube/czar.go:handlePing", "tube/czar.go:expireSilentNodes", "tube/czar.go:start"]}
{"id": "C88", "title": "The answer to a ping lists the pinger", "statement": "The czar's answer to a ping lists the process that sent it, with a lease of six seconds from the arrival of the ping.", "quantifier": "all runs of any number of membership processes over one czar key: any interleaving of starts, kills, contending, renewing, pings, answers, timeouts and lost connections, any delays, any time stamps of Tube's leader", "why_tests_cant": "fails only when another member becomes overdue at the same moment", "anchors": ["tube/czar.go:handlePing", "tube/czar.go:expireSilentNodes"]}
{"id": "C89", "title": "Membership processes do not panic", "statement": "No sequence of delays, losses, restarts and takeovers makes a membership process panic.", "quantifier": "all runs of any number of membership processes over one czar key: any interleaving of starts, kills, contending, renewing, pings, answers, timeouts and lost connections, any delays, any time stamps of Tube's leader", "why_tests_cant": "each panic needs a particular order of a handful of events", "anchors": ["tube/czar.go:setVers", "tube/czar.go:handlePing", "tube/czar.go:expireSilentNodes", "tube/czar.go:start"]}
{"id": "C90", "title": "When the czar is gone another member takes over", "statement": "Once the lease of the last czar is over, a live member that contends becomes czar.", "quantifier": "all runs of any number of membership processes over one czar key: any interleaving of starts, kills, contending, renewing, pings, answers, timeouts and lost connections, any delays, any time stamps of Tube's leader", "why_tests_cant": "depends on which epochs each member has heard of", "anchors": ["tube/czar.go:start", "tube/tube.go:doCAS"]}
{"id": "C91", "title": "A member goes on sending heartbeats", "statement": "A live member that was answered sends its next heartbeat or contends for the czar role.", "quantifier": "all runs of any number of membership processes over one czar key: any interleaving of starts, kills, contending, renewing, pings, answers, timeouts and lost connections, any delays, any time stamps of Tube's leader", "why_tests_cant": "the member goes quiet only if an answer arrives after a particular instant", "anchors": ["tube/czar.go:start", "tube/czar.go:setVers"]}
{"id": "C92", "title": "A user hears of the view its member works with", "statement": "Whenever a member works with a view, its user has been handed one with that version.", "quantifier": "all runs of any number of membership processes over one czar key: any interleaving of starts, kills, contending, renewing, pings, answers, timeouts and lost connections, any delays, any time stamps of Tube's leader", "why_tests_cant": "the missing upcall needs a key read that equals the next answer", "anchors": ["tube/czar.go:setVers", "tube/czar.go:doUpcall", "tube/czar.go:start"]}
{"id": "C93", "title": "A read-only known-keys file lets in only the peers it lists", "statement": "With a known-keys file that is not writable, a TLS or QUIC peer is let in if and only if the key it has proved to hold is in the file, and the file never changes.", "quantifier": "all contents of the known-keys file, all certificate chains, hosts and e-mail addresses, any number of connections at the same time in any interleaving", "why_tests_cant": "every text of the file, every chain and every schedule must be covered", "anchors": ["hostkey.go:hostKeyVerifies", "hostkey.go:readknownKeys", "hostkey.go:WriteOut", "fileutil.go:isWritable", "srv.go:handleTLSConnection", "cli.go:SkipVerifyKeys"]}
{"id": "C94", "title": "A writable known-keys file remembers every peer let in", "statement": "With a writable known-keys file a peer with ed25519 certificates is let in, its key is in the file afterwards, every key that was in the file still is, and no other key is added.", "quantifier": "all contents of the known-keys file, all certificate chains, hosts and e-mail addresses, checks one after the other", "why_tests_cant": "depends on every text of the file and every content of the certificate", "anchors": ["hostkey.go:hostKeyVerifies", "hostkey.go:readknownKeys", "hostkey.go:WriteOut", "fileutil.go:isWritable"]}
{"id": "C95", "title": "Making the file read-only admits exactly the peers seen so far", "statement": "After any number of peers were let in with a writable file and the file was made read-only, exactly the peers listed before and those let in are let in.", "quantifier": "all contents of the known-keys file, all certificate chains, hosts and e-mail addresses, any number of peers before", "why_tests_cant": "must hold for every sequence of peers", "anchors": ["hostkey.go:hostKeyVerifies", "hostkey.go:readknownKeys", "hostkey.go:WriteOut", "fileutil.go:isWritable"]}
{"id": "C96", "title": "A crash while writing loses no known key", "statement": "If the process is killed at any moment of a check, the known-keys file still lists every key that was known.", "quantifier": "all contents of the known-keys file, all certificate chains, hosts and e-mail addresses, every point between two system calls", "why_tests_cant": "each crash point must be covered", "anchors": ["hostkey.go:WriteOut"]}
{"id": "C97", "title": "Peers that connect at the same time are all served and recorded", "statement": "Checks that run at the same time do not disturb each other: nobody listed is refused or forgotten, whoever is let in is recorded, the process goes on.", "quantifier": "all contents of the known-keys file, all certificate chains, hosts and e-mail addresses, any number of connections in any interleaving of their system calls", "why_tests_cant": "the failures need particular interleavings", "anchors": ["hostkey.go:hostKeyVerifies", "hostkey.go:readknownKeys", "hostkey.go:WriteOut", "fileutil.go:isWritable", "srv.go:handleTLSConnection"]}
{"id": "C98", "title": "A refused peer does not keep others out", "statement": "Whatever peers were refused before, a listed peer is served.", "quantifier": "all contents of the known-keys file, all certificate chains, hosts and e-mail addresses, any sequence of connections", "why_tests_cant": "must hold after every sequence of peers", "anchors": ["srv.go:handleTLSConnection", "quic_server.go:runQUICServer"]}
{"id": "C99", "title": "A server that can accept nobody stops", "statement": "A server whose known-keys file is read-only and lists nobody notices it and stops, as the documentation of SkipVerifyKeys says.", "quantifier": "all contents of the known-keys file, all certificate chains, hosts and e-mail addresses, any peer", "why_tests_cant": "every text without an entry must be covered", "anchors": ["cli.go:SkipVerifyKeys", "hostkey.go:hostKeyVerifies"]}
{"id": "C100", "title": "A refused peer is not remembered", "statement": "A peer that is refused leaves the known-keys file as it was.", "quantifier": "all contents of the known-keys file, all certificate chains, hosts and e-mail addresses, any state of the file", "why_tests_cant": "depends on the position of the certificate that causes the refusal", "anchors": ["hostkey.go:hostKeyVerifies", "hostkey.go:readknownKeys", "hostkey.go:WriteOut", "fileutil.go:isWritable"]}
{"id": "C101", "title": "Without a known-keys file any ed25519 peer is let in and nothing is recorded", "statement": "If there is no known-keys file, a peer is let in if and only if all its certificates hold ed25519 keys, and no file is created.", "quantifier": "all contents of the known-keys file, all certificate chains, hosts and e-mail addresses, any chain", "why_tests_cant": "every chain must be covered", "anchors": ["hostkey.go:hostKeyVerifies", "hostkey.go:readknownKeys", "hostkey.go:WriteOut", "fileutil.go:isWritable"]}
{"id": "C102", "title": "The check does not panic", "statement": "The check of a peer with a certificate and a remote address with a host part does not panic, whatever the known-keys file contains.", "quantifier": "all contents of the known-keys file, all certificate chains, hosts and e-mail addresses, any state of the file", "why_tests_cant": "every text of the file must be covered", "anchors": ["hostkey.go:hostKeyVerifies", "hostkey.go:readknownKeys", "hostkey.go:WriteOut", "fileutil.go:isWritable"]}
{"id": "C103", "title": "A malformed known-keys file lets nobody in", "statement": "If a line of the known-keys file is neither blank, a comment, a single word nor an entry, then nobody is let in and the file is not changed.", "quantifier": "all contents of the known-keys file, all certificate chains, hosts and e-mail addresses, any number of connections in any interleaving", "why_tests_cant": "every malformed text must be covered", "anchors": ["hostkey.go:hostKeyVerifies", "hostkey.go:readknownKeys", "hostkey.go:WriteOut", "fileutil.go:isWritable"]}
{"id": "C104", "title": "The directory listing is the giver's tree", "statement": "A directory sync sends an entry for every file, symlink and directory of the giver's tree, once, with its size, time, mode and target, and no other; directories without subdirectories come first; exactly the last pack is marked as the last; no pack is over the payload limit unless it is a single entry.", "quantifier": "all giver trees of any size and depth, all entry sizes and limits", "why_tests_cant": "every tree and every split into packs must be covered", "anchors": ["jsync/dirscan.go:ScanDirTreeOnePass", "jsync/walk.go:OneWalkForAll"]}
{"id": "C105", "title": "The announced number of bytes is the size of the giver's files", "statement": "The sizes announced in the packs of a listing add up to the sizes of the entries listed.", "quantifier": "all giver trees", "why_tests_cant": "depends on how the listing falls into packs", "anchors": ["jsync/dirscan.go:ScanDirTreeOnePass", "jsync/walk.go:OneWalkForAll"]}
{"id": "C106", "title": "A directory sync touches nothing outside its target", "statement": "Whatever listing the giver sends, nothing changes on the taker outside the target directory, but for missing directories above it.", "quantifier": "all listings, all file systems of the taker, all schedules", "why_tests_cant": "every path a giver can send must be covered", "anchors": ["jsync/dirtaker.go:DirTaker", "jsync/dirtaker.go:takeOneFile", "jsync/dirtaker.go:dirTakerRequestIndivFiles"]}
{"id": "C107", "title": "After a directory sync the taker has the giver's files", "statement": "After a directory sync that ends without an error every file of the giver's tree is on the taker with the same contents, time and mode.", "quantifier": "all giver trees of any size and depth, all file systems of the taker, all schedules of the fetching goroutines", "why_tests_cant": "depends on every pair of trees and on the schedule", "anchors": ["jsync/dirtaker.go:DirTaker", "jsync/dirtaker.go:takeOneFile", "jsync/dirtaker.go:dirTakerRequestIndivFiles"]}
{"id": "C108", "title": "A directory sync removes what the giver does not have and nothing else", "statement": "After a directory sync that ends without an error no path is left beneath the target that the giver does not have, and nothing the giver has was removed.", "quantifier": "all giver trees of any size and depth, all file systems of the taker, all schedules", "why_tests_cant": "every pair of trees must be covered", "anchors": ["jsync/dirtaker.go:DirTaker", "jsync/dirtaker.go:takeOneFile", "jsync/dirtaker.go:dirTakerRequestIndivFiles"]}
{"id": "C109", "title": "A dry run changes nothing", "statement": "A directory sync with DryRun leaves the taker's file system as it was.", "quantifier": "all giver trees of any size and depth, all file systems of the taker, all listings", "why_tests_cant": "every kind of difference must be covered", "anchors": ["jsync/dirtaker.go:DirTaker", "jsync/dirtaker.go:takeOneFile", "jsync/dirtaker.go:dirTakerRequestIndivFiles", "jsync/service.go:RequestToSyncDir"]}
{"id": "C110", "title": "Directories get the giver's permissions", "statement": "After a directory sync every directory of the giver's tree has the giver's mode on the taker.", "quantifier": "all giver trees of any size and depth, all file systems of the taker, all schedules", "why_tests_cant": "every pair of trees must be covered", "anchors": ["jsync/dirtaker.go:DirTaker", "jsync/dirtaker.go:takeOneFile", "jsync/dirtaker.go:dirTakerRequestIndivFiles"]}
{"id": "C111", "title": "A waiting request is found by its ticket ID until it is finished", "statement": "Whatever requests are put in, finished, given a log index and walked, looking up a ticket ID finds the request last put in under it and not finished since, and nothing else.", "quantifier": "all histories of one map of waiting requests, all assignments of IDs", "why_tests_cant": "the index of a ticket changes while it is in the map, at any point of any history", "anchors": ["tube/imap.go:imap"]}
{"id": "C112", "title": "Waiting requests are walked in log order", "statement": "A walk of the waiting requests yields exactly those that have a log index, each once, in the order of the log.", "quantifier": "all histories of one map of waiting requests, all assignments of IDs and indexes", "why_tests_cant": "depends on when each index is assigned relative to the walks", "anchors": ["tube/imap.go:imap"]}
{"id": "C113", "title": "Every request that a leader accepts is started", "statement": "A request that arrives at a leader is put in its log, at once or after the leader's first entry has committed, without the client sending it again.", "quantifier": "all histories of a node: requests, batches, commits, elections, answers, log changes", "why_tests_cant": "the request may come at any point before or after the first commit", "anchors": ["tube/imap.go:imap", "tube/tube.go:replicateTicket", "tube/tube.go:resubmitStalledTickets", "tube/tube.go:FinishTicket", "tube/tube.go:becomeLeader", "tube/tube.go:tellClientsImNotLeader"]}
{"id": "C114", "title": "A follower that becomes leader takes its waiting requests over", "statement": "Requests that wait at a follower for the leader's answer are still known when it becomes leader itself.", "quantifier": "all histories of a node", "why_tests_cant": "the election may come at any point", "anchors": ["tube/imap.go:imap", "tube/tube.go:replicateTicket", "tube/tube.go:resubmitStalledTickets", "tube/tube.go:FinishTicket", "tube/tube.go:becomeLeader", "tube/tube.go:tellClientsImNotLeader"]}
{"id": "C115", "title": "Clients are told when the leader steps down", "statement": "When a leader steps down every client whose request it holds is told to go to another.", "quantifier": "all histories of a node", "why_tests_cant": "the leader may step down at any point", "anchors": ["tube/imap.go:imap", "tube/tube.go:replicateTicket", "tube/tube.go:resubmitStalledTickets", "tube/tube.go:FinishTicket", "tube/tube.go:becomeLeader", "tube/tube.go:tellClientsImNotLeader", "tube/tube.go:clearBatchToSubmit"]}
{"id": "C116", "title": "A committed entry's request has the entry's index", "statement": "When a node applies an entry of its log, the request in it has that log index, so that the node does not crash on its own check.", "quantifier": "all histories of a node", "why_tests_cant": "requests, answers and elections may come between an entry and its commit in any order", "anchors": ["tube/imap.go:imap", "tube/tube.go:commitWhatWeCan", "tube/tube.go:FinishTicket"]}

{"id": "C01", "title": "Variable-length integers survive the wire", "statement": "Any integer below 2^62, encoded and then followed by arbitrary further bytes, decodes back to exactly that integer and leaves exactly the further bytes unread.", "quantifier": "every u64 below 2^62 and every byte string that may follow it", "why_tests_cant": "2^62 values times unbounded trailing data; the length classes meet at boundaries a test only samples", "anchors": ["rs/moq/src/coding/varint.rs: VarInt Encode/Decode", "rs/moq/src/coding/varint.rs: u64 Encode/Decode"]}
{"id": "C02", "title": "Integers use the shortest encoding, and only out-of-range integers panic", "statement": "Encoding an integer produces exactly 1, 2, 4 or 8 bytes, the smallest of these classes whose range contains it; encoding a u64 panics exactly when the value is at least 2^62; conversions into a VarInt fail exactly for out-of-range values, and conversions out of a VarInt into u32/u16/u8 fail exactly when the value does not fit.", "quantifier": "every u64 / u32 / u16 / u8 value", "why_tests_cant": "exhausting 2^64 inputs is infeasible", "anchors": ["rs/moq/src/coding/varint.rs: encode_size, Encode for VarInt, Encode for u64, TryFrom impls"]}
{"id": "C03", "title": "Integer decoding is total, bounded and never reads past its own bytes", "statement": "On every byte string decoding an integer either yields a value below 2^62 after consuming a non-empty prefix whose length is fixed by the first byte, or reports that more bytes are needed, which happens exactly when fewer bytes are available than the first byte calls for.", "quantifier": "every byte string, including hostile ones", "why_tests_cant": "input space is infinite; malformed peers choose the bytes", "anchors": ["rs/moq/src/coding/varint.rs: Decode for VarInt"]}
{"id": "C04", "title": "Every protocol message survives the wire in any context", "statement": "For each message kind (announce, announce-request, session setup client/server, session info with non-zero or absent bitrate, subscribe, subscribe-ok, group header, frame header, control type, data type, version list, extensions, and the primitive strings, byte vectors, durations, i8, u8), every well-formed value encodes without panicking and decodes back to itself from the encoding followed by arbitrary bytes, leaving exactly those bytes.", "quantifier": "every well-formed message value and every trailing byte string", "why_tests_cant": "messages contain unbounded strings, lists and maps", "anchors": ["rs/moq/src/message/*.rs", "rs/moq/src/coding/encode.rs", "rs/moq/src/coding/decode.rs"]}
{"id": "C05", "title": "Decoding of a growing buffer never changes its mind", "statement": "For each message kind: on every strict prefix of a message's encoding the decoder reports exactly 'more bytes needed'; and once a decoder returns a value or a definite error on some bytes, appending further bytes gives the same value (with the extra bytes left over) or the same error.", "quantifier": "every byte string and every extension of it, for every message kind", "why_tests_cant": "all split points of all inputs; a single wrong branch order breaks it only for particular splits", "anchors": ["rs/moq/src/session/reader.rs: Reader::decode retry loop", "rs/moq/src/coding/decode.rs", "rs/moq/src/message/*.rs"]}
{"id": "C06", "title": "Message streams are uniquely decodable", "statement": "If the concatenated encodings of two sequences of same-kind messages are equal then the sequences are equal; no message's encoding is a proper prefix of another message's encoding of the same kind.", "quantifier": "every two finite sequences of messages of a kind", "why_tests_cant": "quantifies over pairs of unbounded sequences", "anchors": ["rs/moq/src/message/*.rs", "rs/moq/src/coding/*.rs"]}
{"id": "C07", "title": "Size prediction equals bytes written", "statement": "For every value that encodes without panicking, the size reported by encode_size equals the number of bytes encode writes, whichever buffer operations are used.", "quantifier": "every encodable value of every kind and every sequence of buffer writes", "why_tests_cant": "the counting buffer re-implements every write operation; tests sample a few", "anchors": ["rs/moq/src/coding/size.rs: Sizer", "rs/moq/src/coding/encode.rs: Encode::encode_size"]}
{"id": "C08", "title": "Extension maps do not depend on hash order, and duplicates are refused", "statement": "An extension map encoded in any iteration order of its entries decodes to the same map; a byte string that lists the same extension twice is rejected as a duplicate; every other well-formed list is accepted with exactly the listed entries.", "quantifier": "every finite map, every permutation of its entries, every byte string", "why_tests_cant": "hash order is random per process; n! orders", "anchors": ["rs/moq/src/message/extensions.rs"]}
{"id": "C09", "title": "Bitrate statistics survive the wire", "statement": "A session-info message decodes to the value that was sent.", "quantifier": "every optional u64 bitrate below 2^62", "why_tests_cant": "the single failing value (present and zero) is easily missed by sampling", "anchors": ["rs/moq/src/message/session.rs: SessionInfo"]}
{"id": "C10", "title": "Lengths are not silently truncated", "statement": "A length or count decoded from the wire equals the transmitted integer, on every supported word size (64-bit native, 32-bit wasm).", "quantifier": "every transmitted integer and both word sizes", "why_tests_cant": "CI runs on 64-bit only and never sends 4 GiB lengths", "anchors": ["rs/moq/src/coding/varint.rs: Decode for usize", "rs/moq/src/coding/decode.rs: Decode for Vec<T>, Bytes"]}
{"id": "C11", "title": "Application error codes never collide with protocol error codes", "statement": "Two errors of different kinds are reported to the peer with different codes, and different application codes stay different, for all application codes.", "quantifier": "every pair of errors, every u32 application code, debug and release arithmetic", "why_tests_cant": "2^64 pairs; overflow only in the top 64 application codes", "anchors": ["rs/moq/src/error.rs: Error::to_code"]}
{"id": "C12", "title": "Message reading is independent of how the network slices the stream", "statement": "Reading any sequence of messages, optional messages and raw byte ranges from a stream gives the same results and errors for every way the stream's bytes are split into network chunks (the transport never delivers an empty one), and the chunk boundaries observed by raw reads only ever split the same byte sequence.", "quantifier": "every byte stream, every chunking, every script of read operations, both kinds of stream ending", "why_tests_cant": "number of chunkings is exponential in stream length", "anchors": ["rs/moq/src/session/reader.rs: Reader::decode, decode_maybe, read, finished"]}
{"id": "C13", "title": "Clean end-of-stream is detected exactly", "statement": "Checking for the end of a stream succeeds exactly when the peer finished the stream and every byte has been consumed; leftover bytes are reported as an error, and an optional message is absent exactly when the stream ended cleanly at a message boundary.", "quantifier": "every stream content, chunking and read position", "why_tests_cant": "depends on buffer residue produced by particular chunkings", "anchors": ["rs/moq/src/session/reader.rs: Reader::finished, decode_maybe"]}
{"id": "C14", "title": "Writing is independent of partial writes", "statement": "After writing any sequence of messages, the bytes accepted by the transport are exactly the concatenation of the messages' encodings, however many bytes each low-level write accepts; an interrupted sequence leaves exactly a prefix.", "quantifier": "every message sequence, every schedule of partial-write sizes, every point of interruption", "why_tests_cant": "partial-write schedules are controlled by flow control", "anchors": ["rs/moq/src/session/writer.rs: Writer::encode, write"]}
{"id": "C15", "title": "A published group arrives intact", "statement": "If a publisher serves a group with any number of frames of any sizes written in any chunks and finishes it, then for every network slicing the subscriber's copy of the group contains the same frames, in the same order, with identical sizes and bytes, and is marked finished.", "quantifier": "every group content, every producer chunking, every network chunking", "why_tests_cant": "unbounded frames and chunkings", "anchors": ["rs/moq/src/session/publisher.rs: serve_group", "rs/moq/src/session/subscriber.rs: recv_group, run_group, run_frame"]}
{"id": "C16", "title": "A cut-off group never yields a corrupted frame", "statement": "If the stream of a group is cut at any byte, by a finish, a reset or a connection loss, then the frames the subscriber sees as complete are exactly a prefix of the frames sent; the frame in flight (if any) and the group are marked with an error and never as finished, except when the cut falls exactly on a frame boundary with a clean finish.", "quantifier": "every group, every cut position, every kind of ending, every chunking", "why_tests_cant": "crash points are byte-granular", "anchors": ["rs/moq/src/session/publisher.rs: serve_group", "rs/moq/src/session/subscriber.rs: run_group, run_frame"]}
{"id": "C17", "title": "Relaying preserves groups over any number of hops", "statement": "Passing a finished group through any number of relays, each with its own chunking, yields the same frames as passing it directly.", "quantifier": "every group, every number of hops, every chunking at each hop", "why_tests_cant": "unbounded hop count", "anchors": ["rs/moq/src/session/publisher.rs: serve_group", "rs/moq/src/session/subscriber.rs: run_group"]}
{"id": "C18", "title": "Hostile group streams are harmless", "statement": "For every byte stream whatsoever, receiving it as a group ends without a panic, and every frame exposed as complete has exactly the size its header declared.", "quantifier": "every byte string, chunking and stream ending", "why_tests_cant": "adversarial input space", "anchors": ["rs/moq/src/session/subscriber.rs: recv_group, run_group, run_frame", "rs/moq/src/model/frame.rs: FrameProducer::write, finish"]}
{"id": "C19", "title": "Frame readers all observe exactly the bytes written, in order", "statement": "For every interleaving of writes, reads, clones and drops on a frame, the bytes each reader has observed are a prefix of the bytes written; a reader that is told the frame ended has observed all of them.", "quantifier": "every interleaving of any number of producers and readers", "why_tests_cant": "schedules and number of handles unbounded", "anchors": ["rs/moq/src/model/frame.rs: FrameProducer, FrameConsumer"]}
{"id": "C20", "title": "A completed frame has exactly its declared size", "statement": "With a single (never cloned) writer, a frame is marked complete only when exactly the declared number of bytes has been written; writing more, or finishing early, panics instead.", "quantifier": "every sequence of operations on one frame", "why_tests_cant": "unbounded chunk sequences", "anchors": ["rs/moq/src/model/frame.rs: FrameProducer::write, finish"]}
{"id": "C21", "title": "Frame size limit holds across cloned writers", "statement": "The declared size of a frame bounds the bytes readers can observe even when the writer handle has been cloned.", "quantifier": "every interleaving over any number of cloned writers", "why_tests_cant": "needs particular clone interleavings", "anchors": ["rs/moq/src/model/frame.rs: FrameProducer derive(Clone), written"]}
{"id": "C22", "title": "Readers are always released", "statement": "Once all writers of a frame, group or track are gone, no reader waits any more: each read returns remaining data, the recorded result, or a cancellation error.", "quantifier": "every reachable state with no remaining writer", "why_tests_cant": "depends on every order of drop and read", "anchors": ["rs/moq/src/model/frame.rs: FrameConsumer::read, read_all", "rs/moq/src/model/group.rs: next_frame, read_frame", "rs/moq/src/model/track.rs: next_group"]}
{"id": "C23", "title": "Group readers see every frame once and in order", "statement": "For every interleaving of appends, reads and clones, the sequence of frames each reader of a group obtains is a prefix of the sequence of frames appended; being told the group ended means all were obtained.", "quantifier": "every interleaving of any number of readers", "why_tests_cant": "unbounded schedules", "anchors": ["rs/moq/src/model/group.rs: GroupProducer, GroupConsumer::next_frame"]}
{"id": "C24", "title": "Abandoning a pending frame read loses nothing", "statement": "If a whole-frame read is abandoned at any await point any number of times, the complete sequence of frame payloads eventually obtained by the reader is the same as without abandonment: no frame is skipped, duplicated or truncated.", "quantifier": "every placement of cancellations among every interleaving of writes and reads", "why_tests_cant": "cancellation points are scheduler-dependent", "anchors": ["rs/moq/src/model/group.rs: GroupConsumer::read_frame, active"]}
{"id": "C25", "title": "Closing is respected", "statement": "Appending to a closed group, writing to a closed frame or inserting into a closed track panics, and does nothing else; on an open one it never panics (within size).", "quantifier": "every state and operation", "why_tests_cant": "state space unbounded", "anchors": ["rs/moq/src/model/group.rs: append_frame", "rs/moq/src/model/frame.rs: write", "rs/moq/src/model/track.rs: insert_group"]}
{"id": "C26", "title": "Track readers only move forward", "statement": "For every interleaving of inserts (in any arrival order) and reads, each reader obtains groups with strictly increasing sequence numbers, and every group it obtains was really inserted.", "quantifier": "every interleaving, every arrival order of groups", "why_tests_cant": "network reordering and reader count unbounded", "anchors": ["rs/moq/src/model/track.rs: TrackConsumer::next_group"]}
{"id": "C27", "title": "Late groups are dropped exactly when they are stale", "statement": "Inserting a group into an open track is accepted exactly when its sequence is greater than that of every group accepted before; a rejected insert changes nothing observable.", "quantifier": "every sequence of inserts", "why_tests_cant": "arrival orders unbounded", "anchors": ["rs/moq/src/model/track.rs: insert_group, create_group"]}
{"id": "C28", "title": "Readers get the freshest group and never wait on available data", "statement": "While a track is open, a read returns immediately exactly when an accepted group newer than the last one the reader obtained exists, and what it returns is the newest accepted group.", "quantifier": "every reachable state of a track and reader", "why_tests_cant": "schedules unbounded", "anchors": ["rs/moq/src/model/track.rs: next_group"]}
{"id": "C29", "title": "Finishing a track does not hide data", "statement": "Every group accepted by a track before it was finished can still be obtained, if newest, by a reader that has not obtained it yet.", "quantifier": "every interleaving of insert, finish and reads", "why_tests_cant": "needs finish to land before the read", "anchors": ["rs/moq/src/model/track.rs: next_group biased select"]}
{"id": "C30", "title": "Automatic group numbering never fails", "statement": "Appending a group through an open track's producer always succeeds and numbers groups consecutively above the latest one.", "quantifier": "every state and every interleaving of cloned producers; all sequence numbers", "why_tests_cant": "race window between two cloned producers; overflow after 2^64 groups", "anchors": ["rs/moq/src/model/track.rs: append_group"]}
{"id": "C31", "title": "Subscriptions are deduplicated", "statement": "As long as a track name is being served or requested, every further subscription to that name from any consumer of the broadcast joins the same track and no second request reaches the publisher.", "quantifier": "every interleaving of subscribes, requests, cleanup and drops", "why_tests_cant": "schedules and subscriber counts unbounded", "anchors": ["rs/moq/src/model/broadcast.rs: BroadcastConsumer::subscribe, BroadcastProducer::request"]}
{"id": "C32", "title": "No subscription is left dangling", "statement": "In every reachable state each subscription's track is published, waiting in the request queue, handed to the publisher, or terminated with an error; once the last producer is gone none waits in the queue un-terminated.", "quantifier": "every interleaving of subscribes with producer drops", "why_tests_cant": "race between the last producer drop and a concurrent subscribe", "anchors": ["rs/moq/src/model/broadcast.rs: Drop for BroadcastProducer, subscribe"]}
{"id": "C33", "title": "Cleanup never evicts a different track", "statement": "When a track ends, only that very track is removed from the broadcast's lookup table; a newer track published under the same name stays.", "quantifier": "every interleaving of publish, re-publish, track end and cleanup", "why_tests_cant": "cleanup tasks run at arbitrary times", "anchors": ["rs/moq/src/model/broadcast.rs: cleanup"]}
{"id": "C34", "title": "Dropping a clone does not shut the broadcast down", "statement": "Dropping a producer clears published tracks and rejects requests exactly when it is the last live clone.", "quantifier": "every history of clones and drops", "why_tests_cant": "clone/drop histories unbounded, atomics interleave", "anchors": ["rs/moq/src/model/broadcast.rs: Clone/Drop for BroadcastProducer"]}
{"id": "C35", "title": "Announcement consumers miss nothing and see nothing twice", "statement": "A consumer of an origin receives exactly: the broadcasts active when it was created whose path has its prefix, then every later announcement with that prefix, each once, later ones in announcement order, each with the prefix removed; and it is woken whenever something is available.", "quantifier": "every interleaving of publishes, closes, consumer creations, reads and consumer drops", "why_tests_cant": "race between snapshot and updates; unbounded consumers", "anchors": ["rs/moq/src/model/origin.rs: ProducerState::publish, consume, subscribe; OriginConsumer::next"]}
{"id": "C36", "title": "Ending an old broadcast does not hide its replacement", "statement": "When a broadcast published at a path has been replaced by another one at the same path, the end of the old one leaves the new one discoverable.", "quantifier": "every interleaving of publish, replace, close and cleanup", "why_tests_cant": "background task scheduling", "anchors": ["rs/moq/src/model/origin.rs: OriginProducer::publish cleanup task"]}
{"id": "C37", "title": "Cloning an announcement consumer is lossless", "statement": "A cloned announcement consumer receives every announcement that its original would still receive.", "quantifier": "every interleaving of clone steps with publishes by other threads", "why_tests_cant": "race inside a clone", "anchors": ["rs/moq/src/model/origin.rs: Clone for OriginConsumer"]}
{"id": "C38", "title": "Version negotiation is sound", "statement": "A server accepts a session exactly when the client offered the server's version on a session control stream; a client completes a session only with a version it offered.", "quantifier": "every setup message", "why_tests_cant": "server replies are adversarial", "anchors": ["rs/moq/src/session/mod.rs: connect_setup, accept_setup"]}
{"id": "C39", "title": "Announcement streams alternate", "statement": "On an announce stream sent by a publisher, for each path announcements alternate active, ended, active, ...; when the origin ends every path left active is ended before the stream finishes.", "quantifier": "every interleaving of publishes, re-publishes and broadcast ends, any peer prefix", "why_tests_cant": "scheduling of completion tasks against new announcements", "anchors": ["rs/moq/src/session/publisher.rs: run_announce"]}
{"id": "C40", "title": "Announcement receivers accept every well-formed stream", "statement": "A receiver of an announce stream never fails on an alternating active/ended stream, and its set of available broadcasts always equals the set of paths announced and not ended; it fails on the first violation.", "quantifier": "every announce message sequence and every scheduling of the receiver's background cleanup", "why_tests_cant": "race between a re-announcement and background cleanup", "anchors": ["rs/moq/src/session/subscriber.rs: run_broadcasts", "rs/moq/src/model/origin.rs: publish"]}
{"id": "C41", "title": "Remote announcements arrive under the requested prefix", "statement": "Consuming announcements under a prefix yields every remote broadcast whose path has that prefix, with the prefix removed, and subscriptions to it reach the broadcast at the full path.", "quantifier": "every prefix and every remote broadcast path", "why_tests_cant": "tests use the empty prefix only", "anchors": ["rs/moq/src/session/subscriber.rs: consume_prefix, run_broadcasts, run_broadcast"]}
{"id": "C42", "title": "Subscription ids are unique and groups reach the right track", "statement": "No two subscriptions on a session share an id, and an incoming group is inserted only into the track subscribed under its id; a group for an unknown or finished id is refused as cancelled.", "quantifier": "every interleaving of subscribes, ends and incoming groups", "why_tests_cant": "concurrent subscribes and late streams", "anchors": ["rs/moq/src/session/subscriber.rs: run_subscribe, recv_group"]}
{"id": "C43", "title": "Late groups cannot crash a session", "statement": "An incoming group that arrives while its subscription is ending is refused without a panic.", "quantifier": "every interleaving of the end of a subscription with incoming groups", "why_tests_cant": "narrow window between closing the track and unregistering it", "anchors": ["rs/moq/src/session/subscriber.rs: run_broadcast, recv_group", "rs/moq/src/model/track.rs: insert_group"]}
{"id": "C44", "title": "At most two groups are in flight per subscription", "statement": "While serving a track at most two groups are transmitted concurrently, the newest group obtained is always among them unless it completed, older ones are dropped first, and completing the newer group cancels the older.", "quantifier": "every schedule of group arrivals and completions", "why_tests_cant": "arrival/completion races", "anchors": ["rs/moq/src/session/publisher.rs: run_track"]}
{"id": "C45", "title": "Newer groups and higher-priority tracks go first", "statement": "Stream priorities put newer groups of a track before older ones and tracks with a higher priority number before those with a lower one, for every sequence number and priority, and computing them never panics.", "quantifier": "every pair of (track priority, group sequence)", "why_tests_cant": "2^144 pairs; sign and wrap boundaries", "anchors": ["rs/moq/src/session/publisher.rs: stream_priority"]}
{"id": "C46", "title": "Serving finds exactly the active broadcasts", "statement": "A subscription request is served from the broadcast most recently published at exactly the requested path and still active, and refused as not found when there is none.", "quantifier": "every history of publishes and ends on a session", "why_tests_cant": "replacement and cleanup interleavings", "anchors": ["rs/moq/src/session/publisher.rs: publish, recv_subscribe, run_subscribe"]}
{"id": "C47", "title": "Unused upstream subscriptions are cancelled", "statement": "When every local reader of a remotely served track is gone the upstream subscription is eventually terminated.", "quantifier": "every history of subscribes and drops", "why_tests_cant": "needs reasoning about handles held by background tasks", "anchors": ["rs/moq/src/session/subscriber.rs: run_subscribe", "rs/moq/src/model/track.rs: unused", "rs/moq/src/model/broadcast.rs: insert, cleanup"]}
{"id": "C48", "title": "Access requires a valid token whenever a key applies", "statement": "For every configuration and URL path: when a key applies to the path, access is granted only with a token that verifies under that very key; when none applies access is granted without token; the granted scopes are those of the token.", "quantifier": "every key configuration, every URL path, every signature oracle", "why_tests_cant": "path parsing corner cases are unbounded", "anchors": ["rs/moq-relay/src/auth.rs: Auth::validate"]}
{"id": "C49", "title": "Authentication never crashes the relay", "statement": "Validating any URL path returns an answer and never panics.", "quantifier": "every configuration and every URL path a client can send", "why_tests_cant": "attacker-chosen paths", "anchors": ["rs/moq-relay/src/auth.rs: Auth::validate", "rs/moq-relay/src/main.rs: accept loop"]}
{"id": "C50", "title": "Tokens do not grant access outside their key's path", "statement": "A token signed with the key configured for a path grants access only to broadcasts below that path.", "quantifier": "every configured path, every token and every URL path", "why_tests_cant": "prefix arithmetic on attacker-chosen strings", "anchors": ["rs/moq-relay/src/auth.rs: Auth::validate", "rs/moq-relay/src/connection.rs"]}
{"id": "C51", "title": "Relay sessions are confined to their scopes", "statement": "A session only learns of broadcasts whose path begins with its root path joined with its subscribe scope, each under exactly its path relative to the root; every broadcast it announces becomes visible to others only at paths beginning with its root path joined with its publish scope, and with no publish (subscribe) scope none at all, except the one broadcast its token forces.", "quantifier": "every token scope, every path, every number of sessions, every schedule of the forwarding tasks", "why_tests_cant": "string prefix corner cases; all schedules of tasks shared between sessions", "anchors": ["rs/moq-relay/src/connection.rs: Connection::run", "rs/moq/src/model/origin.rs: publish_prefix, consume_prefix", "rs/moq/src/session/mod.rs: publish_prefix, consume_prefix"]}
{"id": "C52", "title": "Keys enforce their permitted operations and algorithms", "statement": "Signing and verifying succeed only if the key lists the operation, and only under its own algorithm and secret; a generated key verifies what it signs; a relay does not start with a key that cannot verify; algorithm names parse back to themselves and nothing else parses; command-line times are accepted exactly if they are decimal numbers from 0 to 2^63-1.", "quantifier": "every key, token, and string", "why_tests_cant": "all strings", "anchors": ["rs/moq-token/src/key.rs", "rs/moq-token/src/algorithm.rs", "rs/moq-token/src/payload.rs", "rs/moq-token-cli/src/bin.rs: parse_unix_timestamp", "rs/moq-relay/src/auth.rs: Auth::new"]}
{"id": "C53", "title": "Media timestamps and payloads survive publishing", "statement": "Every media frame written to a hang track is read back with the same timestamp (to the microsecond) and payload, and its keyframe flag is set exactly for the first frame of a group.", "quantifier": "every sequence of frames with timestamps below 2^62 microseconds", "why_tests_cant": "unbounded sequences", "anchors": ["rs/hang/src/model/track.rs: TrackProducer::write", "rs/hang/src/model/group.rs: GroupConsumer::read_frame"]}
{"id": "C54", "title": "Media groups start at keyframes", "statement": "Writing media frames starts a new group at exactly the keyframes, completes the previous group first, and refuses a first frame that is no keyframe.", "quantifier": "every sequence of frames", "why_tests_cant": "unbounded sequences", "anchors": ["rs/hang/src/model/track.rs: TrackProducer::write"]}
{"id": "C55", "title": "Media buffering always makes progress", "statement": "Buffering ahead in a pending media group until a cutoff stops, errors or waits for data after finitely many steps and keeps frames in order.", "quantifier": "every buffered state, group content and cutoff", "why_tests_cant": "needs particular timestamps relative to the cutoff", "anchors": ["rs/hang/src/model/group.rs: GroupConsumer::buffer_frames_until, read_frame"]}
{"id": "C56", "title": "Media playback order never goes backwards", "statement": "A media track reader returns frames of a group in order and never returns a frame of an older group after one of a newer group, for every arrival order, readiness schedule and latency setting.", "quantifier": "every schedule of arriving groups and frames, every latency", "why_tests_cant": "select races", "anchors": ["rs/hang/src/model/track.rs: TrackConsumer::read"]}
{"id": "C57", "title": "H.264 codec strings round-trip", "statement": "Printing any H.264 description and parsing it back gives the same description.", "quantifier": "every profile, constraint and level; every text", "why_tests_cant": "2^24 values, and unboundedly many texts", "anchors": ["rs/hang/src/catalog/video/h264.rs"]}
{"id": "C58", "title": "H.265 codec strings round-trip", "statement": "Printing any H.265 description and parsing it back gives the same description.", "quantifier": "every field value", "why_tests_cant": "2^100 values", "anchors": ["rs/hang/src/catalog/video/h265.rs"]}
{"id": "C59", "title": "VP9 codec strings round-trip", "statement": "Printing any VP9 description and parsing it back gives the same description.", "quantifier": "every field value", "why_tests_cant": "2^57 values", "anchors": ["rs/hang/src/catalog/video/vp9.rs"]}
{"id": "C60", "title": "AV1 codec strings round-trip", "statement": "Printing any AV1 description and parsing it back gives the same description.", "quantifier": "every field value, every tier character", "why_tests_cant": "2^80 values", "anchors": ["rs/hang/src/catalog/video/av1.rs"]}
{"id": "C61", "title": "Parsing a codec string never panics", "statement": "Parsing any text as a video or audio codec returns a codec or an error.", "quantifier": "every UTF-8 text", "why_tests_cant": "all strings; catalogs come from remote peers", "anchors": ["rs/hang/src/catalog/video/*.rs", "rs/hang/src/catalog/audio/*.rs"]}
{"id": "C62", "title": "Codec names are dispatched unambiguously", "statement": "Printing any video or audio codec and parsing it with the generic parser gives the same codec, unknown names are preserved verbatim, and a codec that was read from a name can be published again.", "quantifier": "every codec value and every string", "why_tests_cant": "all strings", "anchors": ["rs/hang/src/catalog/video/codec.rs", "rs/hang/src/catalog/audio/codec.rs"]}
{"id": "C63", "title": "The published catalog always describes the current tracks", "statement": "After every addition or removal of a track rendition, a reader of the catalog track obtains exactly the renditions added and not removed since.", "quantifier": "every history of additions, removals and track ends", "why_tests_cant": "histories unbounded; cleanup tasks race", "anchors": ["rs/hang/src/catalog/root.rs", "rs/hang/src/model/broadcast.rs"]}
{"id": "C64", "title": "Media import does not depend on input chunking", "statement": "Feeding a fragmented-MP4 byte stream to the importer in any pieces processes the same boxes in the same order and reports the same first error.", "quantifier": "every byte string and every chunking", "why_tests_cant": "exponentially many chunkings", "anchors": ["rs/hang/src/cmaf/import.rs: Import::parse, parse_inner"]}
{"id": "C65", "title": "Imported samples are exact slices of the media data", "statement": "For every fragment, each imported sample's payload is exactly the byte range of the media data that the fragment header assigns to it; a range outside the data is refused.", "quantifier": "every fragment header and media data", "why_tests_cant": "offsets and sizes are attacker-chosen 32-bit values", "anchors": ["rs/hang/src/cmaf/import.rs: Import::extract"]}
{"id": "C66", "title": "Importing media never panics", "statement": "Importing any parsed fragment returns success or an error.", "quantifier": "every fragment, in debug and release arithmetic", "why_tests_cant": "arithmetic corner cases: zero timescale, negative times, offsets, backwards audio", "anchors": ["rs/hang/src/cmaf/import.rs: Import::extract"]}
{"id": "C67", "title": "The web renderer never draws from an empty queue", "statement": "However user actions (pause, resume, latency, visibility) interleave with decoded frames and animation callbacks, drawing never fails.", "quantifier": "every sequence of UI events, frames and callbacks", "why_tests_cant": "browser event orders", "anchors": ["rs/hang-wasm/src/watch/video.rs: Render"]}
{"id": "C68", "title": "Fetching over HTTP names the intended broadcast and track", "statement": "The relay's HTTP fetch splits a path into broadcast and track at the last slash, losslessly, and refuses paths without one.", "quantifier": "every URL path", "why_tests_cant": "all strings", "anchors": ["rs/moq-relay/src/web.rs: serve_fetch"]}
{"id": "C69", "title": "Relay clusters look broadcasts up locally first and never loop announcements", "statement": "A relay serves a path from a broadcast announced directly to it when there is one and from a cluster peer otherwise, and never announces to a peer a broadcast learned from a peer.", "quantifier": "every set of local and remote announcements", "why_tests_cant": "unbounded histories", "anchors": ["rs/moq-relay/src/cluster.rs"]}
{"id": "C70", "title": "Session setup and stream dispatch tolerate any peer bytes", "statement": "Whatever bytes a peer sends on a control or data stream, dispatch selects at most one handler determined by the first byte(s), and unknown kinds are refused with an error.", "quantifier": "every byte stream", "why_tests_cant": "adversarial bytes", "anchors": ["rs/moq/src/session/mod.rs: run_control, accept_setup", "rs/moq/src/session/subscriber.rs: run, recv_group"]}
{"id": "C71", "title": "Being told that something ended is final", "statement": "Once a reader of a frame, group or track has been told that it ended cleanly, it is never told later that it failed.", "quantifier": "every interleaving of finish, abort and reads over cloned producers", "why_tests_cant": "needs a particular order of finish and abort from different clones", "anchors": ["rs/moq/src/model/frame.rs: finish, abort", "rs/moq/src/model/group.rs: finish, abort", "rs/moq/src/model/track.rs: finish, abort"]}
{"id": "C72", "title": "The session control stream decides the session's lifetime", "statement": "After the handshake, whatever bytes the peer sends on the session stream the session stays up while that stream is open; a clean end of the stream ends the session as cancelled and a reset ends it with the transport's error; the loop never fails to make progress.", "quantifier": "every byte sequence, every split into pieces, every way the stream ends", "why_tests_cant": "all byte sequences and splits", "anchors": ["rs/moq/src/session/mod.rs: run_session"]}
{"id": "C73", "title": "Consuming one path twice shares one upstream broadcast", "statement": "Two calls to consume the same path on a session, while the first result is in use, return handles to one broadcast, so tracks are subscribed upstream once.", "quantifier": "every sequence of consume calls and task ends", "why_tests_cant": "the lookup looks right in review; only following every writer of the table shows it stays empty", "anchors": ["rs/moq/src/session/subscriber.rs: consume, run_broadcast"]}
{"id": "C74", "title": "Broadcasts end with the stream that announced them", "statement": "When the announce stream ends or fails, every broadcast announced on it and not ended before is reported as ended to its consumers.", "quantifier": "every sequence of announcements, every way the stream ends, every schedule of the background tasks", "why_tests_cant": "background tasks keep handles alive; needs every schedule", "anchors": ["rs/moq/src/session/subscriber.rs: run_announced, run_broadcasts, run_broadcast"]}
{"id": "C75", "title": "A fetch response continues when more of the group arrives", "statement": "The HTTP response for a group that is still being written delivers the rest once it is written, whenever the response was polled before.", "quantifier": "every interleaving of the writer and the polls of the response", "why_tests_cant": "lost wake-ups need a particular interleaving of polls and writes", "anchors": ["rs/moq-relay/src/web.rs: ServeGroup"]}
{"id": "C76", "title": "Broadcasts below a path with its own key are protected by a key", "statement": "Whatever URL is used, broadcasts below a path that has its own key are only reachable with a token accepted under a configured key.", "quantifier": "every configuration, every URL path, every token library", "why_tests_cant": "all strings and configurations", "anchors": ["rs/moq-relay/src/auth.rs: Auth::validate"]}
{"id": "C77", "title": "A session's forwarding ends with the session", "statement": "When a session of a relay has ended, the relay stops passing announcements on for it in either direction and keeps nothing for it.", "quantifier": "every history of sessions, announcements and ends, every schedule of the forwarding tasks", "why_tests_cant": "a leak has no visible effect in a test; needs every schedule", "anchors": ["rs/moq-relay/src/connection.rs: Connection::run", "rs/moq/src/model/origin.rs: publish_prefix"]}
{"id": "C78", "title": "The list of broadcasts is exact", "statement": "The relay's page of announced broadcasts has one line for each broadcast active under the prefix, locally announced or known from peers, and no other line.", "quantifier": "every history of announcements, every path", "why_tests_cant": "paths are arbitrary strings; announcements race with the page", "anchors": ["rs/moq-relay/src/web.rs: serve_announced"]}
{"id": "C79", "title": "Any latency may be set on a media reader", "statement": "For every latency set, and every timestamp received, reading a media track returns a frame, an end, an error or waits; it never panics.", "quantifier": "every sequence of latencies, arrivals and timestamps", "why_tests_cant": "needs extreme values at the right moment", "anchors": ["rs/hang/src/model/track.rs: TrackConsumer::read, set_latency"]}
{"id": "C80", "title": "A failed media group does not block the groups after it", "statement": "When the group being read fails (it was dropped, reset or does not decode), the media reader goes on with the newer groups that have arrived.", "quantifier": "every history of arrivals, failures and reads", "why_tests_cant": "needs a failure in the middle of playback", "anchors": ["rs/hang/src/model/track.rs: TrackConsumer::read"]}
{"id": "C81", "title": "The web player shows frames in the order they were decoded", "statement": "However user actions, decoded frames and callbacks interleave, the frames put on the canvas are decoded frames in decoding order; a frame may be shown again or skipped, but the picture never goes back.", "quantifier": "every sequence of UI events, frames and callbacks at any times", "why_tests_cant": "browser event orders and clocks", "anchors": ["rs/hang-wasm/src/watch/video.rs: Render::push, draw, trim_buffer"]}
{"id": "C82", "title": "A paused video shows no new frame", "statement": "After the page asks to pause and before it asks to resume, no frame is put on the canvas.", "quantifier": "every sequence of UI events, frames and callbacks", "why_tests_cant": "browser event orders", "anchors": ["rs/hang-wasm/src/watch/video.rs: Render::set_paused, set_latency, draw", "rs/hang-wasm/src/watch/message.rs: WatchCommand"]}
{"id": "C83", "title": "A visible, unpaused video shows what is decoded", "statement": "While the video is visible, has a canvas and is not paused (which is the documented default), every decoded frame has an animation callback on its way, every callback shows one frame, and whenever no callback is on its way the newest decoded frame is on the canvas.", "quantifier": "every sequence of UI events, frames and callbacks", "why_tests_cant": "liveness over browser event orders", "anchors": ["rs/hang-wasm/src/watch/video.rs: Render::schedule, draw, set_latency, set_paused, set_visible", "rs/hang-wasm/src/watch/message.rs: WatchCommand"]}
{"id": "C84", "title": "The picture is no older than the latency asked for", "statement": "If frames are decoded in timestamp order, a frame put on the canvas is at most the latency asked for behind the newest decoded frame.", "quantifier": "every sequence of UI events, frames and callbacks, every latency and every timestamp", "why_tests_cant": "depends on timing between decoding, callbacks and latency changes", "anchors": ["rs/hang-wasm/src/watch/video.rs: Render::trim_buffer, draw, set_latency"]}
{"id": "C85", "title": "Elements with the same URL share one session", "statement": "Connecting to a URL gives the attempt or session that already exists for it unless that session was lost, in which case (or the first time) one new attempt is made; an element is told exactly what became of the attempt it was given; attempts are never shared between URLs.", "quantifier": "every sequence of connects, polls, drops, results and losses, for any number of URLs", "why_tests_cant": "interleavings of elements and network events", "anchors": ["rs/hang-wasm/src/connect.rs: Connect::new, create, established"]}
{"id": "C86", "title": "A failed connection can be tried again", "statement": "After an attempt to connect to a URL failed, connecting to that URL again makes a new attempt.", "quantifier": "every history of the page", "why_tests_cant": "needs a failing server first", "anchors": ["rs/hang-wasm/src/connect.rs: Connect::new, create"]}
{"id": "C87", "title": "A session that no element uses is closed", "statement": "When the last element using a session is gone, the page closes the session.", "quantifier": "every history of the page", "why_tests_cant": "absence of a close over all continuations", "anchors": ["rs/hang-wasm/src/connect.rs: Connect::create"]}
{"id": "C88", "title": "A muted player downloads no audio and a hidden one no video", "statement": "Whatever the order of the page's commands, catalogs and frames, the web player holds a subscription to audio only while it is not muted, paused or without an audio output, to video only while it is visible, unpaused and has a canvas; and it plays frames only of a subscription it holds.", "quantifier": "every sequence of page commands, connection results, catalogs and frames", "why_tests_cant": "absence of a download over all orders of browser events", "anchors": ["rs/hang-wasm/src/watch/mod.rs: Watch::run", "rs/hang-wasm/src/watch/audio.rs", "rs/hang-wasm/src/watch/video.rs"]}
{"id": "C89", "title": "The player plays the first track of the newest catalog, as that catalog describes it", "statement": "What the web player plays is the track listed first in the newest catalog of the broadcast it joined last, fetched from that broadcast and decoded as that catalog says.", "quantifier": "every sequence of page commands, connection results, catalogs and frames", "why_tests_cant": "needs two broadcasts or two catalogs with the same track name", "anchors": ["rs/hang-wasm/src/watch/audio.rs: Audio::set_catalog, init", "rs/hang-wasm/src/watch/video.rs: Video::set_catalog, init"]}
{"id": "C90", "title": "The player is where the page last asked it to be", "statement": "The web player joins exactly the broadcasts the page asks for; when the page asks for none it stops, and when it reports an error it plays nothing.", "quantifier": "every sequence of page commands, connection results, catalogs and frames", "why_tests_cant": "orders of commands and network events", "anchors": ["rs/hang-wasm/src/watch/mod.rs: Watch::run, recv_command, status"]}
{"id": "C91", "title": "Any URL gives the player a status", "statement": "Whatever URL the page passes, the web player answers with a status; it does not crash.", "quantifier": "every URL", "why_tests_cant": "URLs are unbounded strings", "anchors": ["rs/hang-wasm/src/watch/mod.rs: Watch::run"]}
{"id": "C92", "title": "Nothing is captured before the page connects, and nothing leaves it then", "statement": "The web publisher gives frames to an encoder only after the page asked to connect; encoded frames reach only broadcasts that were published, did not end, and only while the page has that encoder.", "quantifier": "every sequence of page commands, connection results and encoder events", "why_tests_cant": "absence over all orders of browser events", "anchors": ["rs/hang-wasm/src/publish/mod.rs: Publish::run", "rs/hang-wasm/src/publish/video.rs", "rs/hang-wasm/src/publish/audio.rs"]}
{"id": "C93", "title": "A page publishes where the player of the same URL looks", "statement": "A web publisher connected to a URL publishes at the path a web player of the same URL asks for.", "quantifier": "every URL and every history of the page", "why_tests_cant": "needs both elements together, for arbitrary paths", "anchors": ["rs/hang-wasm/src/publish/mod.rs: Publish::run", "rs/hang/src/model/room.rs: Room::join", "rs/hang-wasm/src/watch/mod.rs"]}
{"id": "C94", "title": "A camera or microphone is part of what the page publishes", "statement": "Every encoded frame is written to a track of the newest broadcast the page published, whether the encoder was started before or after connecting.", "quantifier": "every order of connecting, starting encoders and encoded frames", "why_tests_cant": "orders of browser and network events", "anchors": ["rs/hang-wasm/src/publish/mod.rs: Publish::run", "rs/hang-wasm/src/publish/video.rs: publish_to", "rs/hang-wasm/src/publish/audio.rs: publish_to"]}
{"id": "C95", "title": "A page that leaves a broadcast stops publishing it", "statement": "After the page asks to connect elsewhere or nowhere, no frame is added to the earlier broadcast; after it closes its encoders every broadcast ends.", "quantifier": "every sequence of page commands, connection results and encoder events", "why_tests_cant": "absence over all continuations", "anchors": ["rs/hang-wasm/src/publish/mod.rs: Publish::run, recv_command", "rs/hang/src/model/broadcast.rs: add_video, add_audio"]}
{"id": "C96", "title": "No two tracks of a page have the same name", "statement": "All tracks a web publisher ever creates have distinct names.", "quantifier": "every sequence of page commands and encoder events, any number of tracks", "why_tests_cant": "unbounded number of restarts", "anchors": ["rs/hang-wasm/src/publish/video.rs: PublishVideo::new", "rs/hang-wasm/src/publish/audio.rs: PublishAudio::new"]}
{"id": "C97", "title": "A member of a room is shown the broadcasts of the others, and not their own", "statement": "Watching a room returns, once each and in order, every broadcast announced in the room by others, and none that the member published.", "quantifier": "every sequence of publishing, closing, announcements and watching, every path and name", "why_tests_cant": "interleavings of cleanup tasks with announcements; absence over all orders", "anchors": ["rs/hang/src/model/room.rs: Room::publish, Room::watch"]}
{"id": "C98", "title": "What is published in one room is not shown in another", "statement": "A broadcast published in one room is not returned by watching a different room.", "quantifier": "every pair of rooms, every name", "why_tests_cant": "room and broadcast names are unbounded strings", "anchors": ["rs/hang/src/model/room.rs: Room::new, Room::publish, Room::watch"]}
{"id": "C99", "title": "A relay connects only to other relays that the root announces", "statement": "A relay opens connections (other than to its root) only to hosts announced to it by the root and not withdrawn since, and never to the host it advertises itself as.", "quantifier": "every configuration and every order of announcements, withdrawals, failures and time-outs", "why_tests_cant": "needs a cluster and failures at the wrong moment", "anchors": ["rs/moq-relay/src/cluster.rs: Cluster::run_leaf, run_remote, run_remote_once"]}
{"id": "C100", "title": "A relay connects to every other relay announced, and does not give up", "statement": "Once a relay is at rest, every other relay announced and not withdrawn has been dialled, and is being connected to, is connected, or will be tried again after a pause; also whenever the connection is lost.", "quantifier": "every configuration and every order of announcements, withdrawals, failures and time-outs", "why_tests_cant": "liveness over unbounded failures", "anchors": ["rs/moq-relay/src/cluster.rs: Cluster::run_leaf, run_remote, run_remote_once"]}
{"id": "C101", "title": "With a relay that was withdrawn no session stays open, and with any at most one is open", "statement": "When the root withdraws a relay the session with it ends; a relay never has two sessions it opened to the same relay.", "quantifier": "every configuration and every order of announcements, withdrawals, failures and time-outs", "why_tests_cant": "absence of a close; needs flapping announcements", "anchors": ["rs/moq-relay/src/cluster.rs: Cluster::run_remote, run_remote_once", "rs/moq/src/session/mod.rs: Session"]}
{"id": "C102", "title": "Any two relays of a cluster exchange their broadcasts", "statement": "Every relay of a cluster, the root included, has a session with every other over which broadcasts are exchanged.", "quantifier": "every configuration and every history", "why_tests_cant": "needs several relays", "anchors": ["rs/moq-relay/src/cluster.rs: Cluster::run, run_leaf, run_root", "rs/moq-relay/README.md"]}
{"id": "C103", "title": "A relay that cannot reach its root, or loses it, connects again", "statement": "A relay configured with a root tries to connect to it again after connecting failed or the session ended.", "quantifier": "every configuration, every history and every continuation", "why_tests_cant": "absence over all continuations", "anchors": ["rs/moq-relay/src/cluster.rs: Cluster::run, run_leaf", "rs/moq-relay/src/main.rs: main"]}
{"id": "C104", "title": "A client given an http URL talks only to the server of the fingerprint page, and to that one", "statement": "With an http URL the native client connects exactly to a server whose certificate has the SHA-256 fingerprint in the page fetched from that URL (hexadecimal digits of either case, surrounding space ignored). The page a relay serves makes clients accept that relay.", "quantifier": "every page, every certificate, every list of certificates, every fingerprint function", "why_tests_cant": "pages, certificates and lists are unbounded; a test uses one certificate", "anchors": ["rs/moq-native/src/client.rs: Client::connect, FingerprintVerifier", "rs/moq-native/src/server.rs: Server::fingerprints", "rs/moq-relay/src/web.rs: Web::new", "rs/moq-relay/src/main.rs: main"]}
{"id": "C105", "title": "A server presents the certificate for the name the client asks for", "statement": "The first configured certificate valid for the name that the client asks for is presented; if there is none, or no name, the first of all. A configuration that a server starts with does not make it crash in a handshake.", "quantifier": "every list of certificates, every name, every notion of validity", "why_tests_cant": "certificates and their order are unbounded", "anchors": ["rs/moq-native/src/server.rs: ServeCerts::load, best_certificate, resolve"]}
{"id": "C106", "title": "The native client answers any URL", "statement": "Connecting to any URL gives a session or an error, and with https a session exactly if the certificate is trusted or verification is disabled; a moql URL gives a session over plain QUIC.", "quantifier": "every scheme, every server certificate and every trust store", "why_tests_cant": "schemes are unbounded strings; needs a server that speaks plain QUIC", "anchors": ["rs/moq-native/src/client.rs: Client::connect"]}
{"id": "C107", "title": "A session over plain QUIC is admitted as one over WebTransport", "statement": "What a session may do does not depend on whether it was opened over plain QUIC or WebTransport.", "quantifier": "every configuration of keys, every token, path and server name", "why_tests_cant": "tokens, paths and names are unbounded strings; needs a plain QUIC client", "anchors": ["rs/moq-native/src/server.rs: Server::accept_session", "rs/moq-relay/src/main.rs: main", "rs/moq-relay/src/auth.rs: Auth::validate"]}
{"id": "C108", "title": "The pipeline gets the frames of a track with their relative times", "statement": "The GStreamer source pushes every frame it reads once, in order, with its data and whether it depends on earlier frames, and at its time shifted by an amount common to all frames of the track.", "quantifier": "every number of tracks, every sequence of frames and every interleaving of tracks", "why_tests_cant": "relative times depend on when the player joined; unbounded executions", "anchors": ["rs/hang-gst/src/source/imp.rs: HangSrc::setup"]}
{"id": "C109", "title": "The pipeline is told when a track ends, and nothing crashes", "statement": "When a track ends or fails the GStreamer source says so on the pad; it does not panic on any frames; after it was stopped it pushes nothing.", "quantifier": "every number of tracks, every sequence of frames, ends and errors", "why_tests_cant": "absence of an event over all executions", "anchors": ["rs/hang-gst/src/source/imp.rs: HangSrc::setup, cleanup"]}
{"id": "C110", "title": "Any catalog gives the pipeline pads, or an error", "statement": "For every catalog the GStreamer source makes one pad for each track, named as the track, or fails with an error.", "quantifier": "every catalog: every list of names and codecs", "why_tests_cant": "catalogs come from other parties and are unbounded", "anchors": ["rs/hang-gst/src/source/imp.rs: HangSrc::setup"]}
{"id": "C111", "title": "A catalog is read as it was published", "statement": "What a publisher writes for a catalog is JSON, and reading it gives the same catalog: same tracks, codecs, numbers, descriptions and locations.", "quantifier": "every catalog: any number of tracks, names, codecs, optional members and peers; any conversion of floating point numbers", "why_tests_cant": "catalogs are unbounded trees with strings that need escaping; a test compares a few", "anchors": ["rs/hang/src/catalog/root.rs: Catalog::to_string, Catalog::from_str", "rs/hang/src/catalog/video/mod.rs: VideoConfig", "rs/hang/src/catalog/audio/mod.rs: AudioConfig", "rs/hang/src/catalog/location.rs: Location"]}
{"id": "C112", "title": "How a catalog is written does not matter", "statement": "A catalog is read exactly from the JSON texts that say it, whatever their white space, escapes, order of members and unknown members: other implementations can publish for this one.", "quantifier": "every byte string and every catalog", "why_tests_cant": "all byte strings and all layouts of a text", "anchors": ["rs/hang/src/catalog/root.rs: Catalog::from_slice", "rs/hang/src/catalog: derived Deserialize"]}
{"id": "C113", "title": "No catalog and no feedback makes its reader panic", "statement": "Reading any bytes as a catalog or as feedback gives a value or an error.", "quantifier": "every byte string", "why_tests_cant": "all byte strings from other parties", "anchors": ["rs/hang/src/catalog/root.rs: Catalog::from_slice", "rs/hang/src/feedback/root.rs: Feedback", "rs/hang/src/catalog/video/h264.rs: H264::from_str"]}
{"id": "C114", "title": "Feedback is read as it was sent", "statement": "What a viewer writes as feedback is read as the same capabilities and peers, and it is read exactly from the JSON texts that say it.", "quantifier": "every feedback value, every byte string", "why_tests_cant": "unbounded lists of codecs and peers", "anchors": ["rs/hang/src/feedback/root.rs: Feedback", "rs/hang/src/feedback/capabilities.rs: Capabilities"]}
{"id": "C115", "title": "A key is read from a file as it was written", "statement": "Writing any key and reading the file gives the same algorithm, operations, secret and identifier; a key is read exactly from the JSON texts that say it (any order, unknown members, padding of the secret or not).", "quantifier": "every key: any secret, any set of operations, any identifier; every byte string as file", "why_tests_cant": "secrets, identifiers and texts are unbounded", "anchors": ["rs/moq-token/src/key.rs: Key, Key::from_str, from_file, to_str, to_file", "rs/moq-token/src/algorithm.rs: Algorithm"]}
{"id": "C116", "title": "A token made with a key is accepted by that key and says the same", "statement": "What is signed with a key is accepted, until it expires, by every key with the same algorithm and secret, and carries the same paths and times; the relay grants exactly that below the directory in the URL.", "quantifier": "every key, every payload, every time, every authentication code, every directory", "why_tests_cant": "paths, secrets and texts are unbounded; depends on the time", "anchors": ["rs/moq-token/src/key.rs: Key::sign, Key::verify", "rs/moq-token/src/payload.rs: Payload", "rs/moq-relay/src/auth.rs: Auth::validate"]}
{"id": "C117", "title": "Only tokens made with the key are accepted", "statement": "A token is accepted exactly if its last part is the authentication code, with the key's algorithm and secret, of the rest, and the rest says what is read; altered content needs a collision of codes, another algorithm is refused.", "quantifier": "every byte string as token, every key, every authentication code", "why_tests_cant": "quantifies over all forged tokens", "anchors": ["rs/moq-token/src/key.rs: Key::verify"]}
{"id": "C118", "title": "An expired token is refused", "statement": "After its expiration a token is not accepted.", "quantifier": "every token, every key, every time", "why_tests_cant": "depends on the time; tests use times far away from the boundary", "anchors": ["rs/moq-token/src/key.rs: Key::verify", "rs/moq-token/src/payload.rs: Payload"]}
{"id": "C119", "title": "The command line verifies what it signs", "statement": "moq-token verify accepts the output of moq-token sign, with the same key.", "quantifier": "every key, every payload", "why_tests_cant": "for all keys and payloads; the commands are never tested together", "anchors": ["rs/moq-token-cli/src/bin.rs: main"]}
{"id": "C120", "title": "Readers of a location track are told published positions, in order", "statement": "What the calls of next() return to a reader are positions that some clone of the producer published (or what else was put into the public track, as it is on the wire), each at most once and in the order of publication, whatever is interleaved or dropped; next() never panics; positions are read bit for bit as they were written.", "quantifier": "every execution: any number of producer clones and readers, any interleaving of their critical sections, dropped calls of next(), foreign groups in the track; every position", "why_tests_cant": "quantifies over all interleavings and all floats", "anchors": ["rs/hang/src/model/location.rs: LocationConsumer::next, LocationProducer::update"]}
{"id": "C121", "title": "latest() is the newest position readers see", "statement": "When no update is on its way, latest() is the position that was put into the track last, and a reader made then is told it; update returns unless the track was finished.", "quantifier": "every execution of any number of clones", "why_tests_cant": "depends on the interleaving of update on two clones", "anchors": ["rs/hang/src/model/location.rs: LocationProducer::update, latest"]}
{"id": "C122", "title": "A reader that asks is told the newest position", "statement": "A reader that is not in a call of next() has been told the newest position, or is told it by the next call; also if it dropped calls of next(), and before the end of the track.", "quantifier": "every execution, dropped futures at every point", "why_tests_cant": "depends on where a future was dropped and on the interleaving with update and finish", "anchors": ["rs/hang/src/model/location.rs: LocationConsumer::next", "rs/moq/src/model/track.rs: TrackConsumer::next_group"]}
{"id": "C123", "title": "An imported movie's catalog says what its boxes say", "statement": "A movie header is accepted exactly if each track is one the importer can describe. The catalog then lists exactly those tracks, in order, with the codec parameters, the size, the rate, the channels and the bitrate of their boxes, and every catalog published on the way lists the tracks made so far; a header that is refused leaves nothing behind.", "quantifier": "every list of tracks, every box contents", "why_tests_cant": "box contents and numbers of tracks are unbounded; the importer has no tests", "anchors": ["rs/hang/src/cmaf/import.rs: Import::init, init_video, init_h265, init_audio", "rs/hang/src/model/broadcast.rs: BroadcastProducer::create_video, create_audio"]}
{"id": "C124", "title": "Imported tracks have different names", "statement": "No two tracks of an imported movie get the same name, and none gets the name of the catalog track.", "quantifier": "every list of tracks, any number of headers in a stream", "why_tests_cant": "quantifies over all track ids and headers", "anchors": ["rs/hang/src/cmaf/import.rs: Import::init, init_video, init_audio"]}
{"id": "C125", "title": "Imported codecs have their standard names", "statement": "The codec string of each rendition in the catalog is the one the standards (RFC 6381, ISO/IEC 14496-15, the VP9 and AV1 bindings) give to the configuration in the file, so a browser recognises it.", "quantifier": "every configuration box of every codec", "why_tests_cant": "the bits of a configuration box are too many to try; tests use a few files", "anchors": ["rs/hang/src/cmaf/import.rs: init_video, init_h265", "rs/hang/src/catalog/video/h265.rs: Display for H265", "rs/hang/src/catalog/video/av1.rs: Display for AV1"]}
{"id": "C126", "title": "The catalog of an imported movie can be read", "statement": "What the importer publishes as the catalog of a movie is read by a player, and says the same.", "quantifier": "every list of tracks, every box contents, both ways of writing absent values", "why_tests_cant": "depends on every bit of every configuration box; publisher and player are tested apart", "anchors": ["rs/hang/src/cmaf/import.rs: Import::init", "rs/hang/src/catalog/root.rs: Catalog::from_slice", "rs/hang/src/catalog/video/codec.rs: FromStr for VideoCodec"]}
{"id": "C127", "title": "Copies of a track over any tree of sessions", "statement": "However many relays a track passes through, every group a reader is given anywhere is a group the application put into its track, with the same number, and its contents are what the application wrote: a beginning of it, and exactly all of it once the group is marked complete. Every reader is given groups in increasing order.", "quantifier": "every tree of sessions, every number of groups, frames and readers, every interleaving of the application, the publishers, the subscribers and the transport, every cut of the streams", "why_tests_cant": "executions of a network of relays with arbitrary timing cannot be enumerated; the tests have one session at most", "anchors": ["rs/moq/src/session/publisher.rs: run_subscribe, run_track, serve_group", "rs/moq/src/session/subscriber.rs: run_subscribe, recv_group", "rs/moq/src/model/track.rs: TrackProducer, TrackConsumer"]}
{"id": "C128", "title": "Everybody gets to the newest group", "statement": "Once a network of sessions has come to rest (no subscription ended, every publisher has looked at its track, no stream failed and the streams that were not replaced by newer ones have been seen), every copy of the track has the application's newest group as its newest one, and every reader is given it or has been. As long as the application's track is open and nothing failed, polling the publishers and delivering streams is enough to bring the network to rest.", "quantifier": "every tree of sessions, every execution that comes to rest, whatever groups were dropped on the way", "why_tests_cant": "convergence after arbitrary drops and races is not a statement about one execution", "anchors": ["rs/moq/src/session/publisher.rs: run_track", "rs/moq/src/session/subscriber.rs: recv_group", "rs/moq/src/model/track.rs: TrackConsumer::next_group"]}
{"id": "C129", "title": "What a far reader learns of the end", "statement": "A reader of a copy is told that the track is complete only if the application finished it and its newest group has arrived or failed; if the application aborts its track, every reader gets the application's error.", "quantifier": "every tree of sessions, every execution", "why_tests_cant": "depends on the race between the end of a subscription and the streams of its groups", "anchors": ["rs/moq/src/session/publisher.rs: run_subscribe, run_track", "rs/moq/src/session/subscriber.rs: run_subscribe, recv_group"]}
{"id": "C130", "title": "Viewers of a live track are shown what was written", "statement": "Whoever reads a live media track, on the publisher's machine or behind any number of relays, is only shown frames that the application wrote, with their timestamps and payloads, and as the frame of the group in which it was written; a frame is marked as a keyframe exactly if it begins a group.", "quantifier": "every tree of sessions, every sequence of written frames, every number of viewers with any latency budgets, every interleaving of writers, relays, transport and viewers, every cut of the streams", "why_tests_cant": "the writer, the sessions and the reader are tested apart if at all, and one run fixes one interleaving", "anchors": ["rs/hang/src/model/track.rs: TrackProducer::write, TrackConsumer::read", "rs/moq/src/session/publisher.rs: serve_group", "rs/moq/src/session/subscriber.rs: recv_group"]}
{"id": "C131", "title": "Viewers of a live track are shown frames in order", "statement": "The frames a viewer is shown are consecutive frames of a group, from its first one, and then of later groups: nothing twice, nothing out of order, no gap inside a group.", "quantifier": "every tree of sessions, every interleaving, every viewer, every latency budget, whatever was dropped or reset on the way", "why_tests_cant": "reordering and skipping depend on timing across sessions", "anchors": ["rs/hang/src/model/track.rs: TrackConsumer::read", "rs/moq/src/model/track.rs: TrackConsumer::next_group"]}
{"id": "C132", "title": "Viewers of a live track catch up", "statement": "Once everything that was published has reached the node a viewer is attached to, the viewer, if it keeps reading, is shown the newest frame.", "quantifier": "every tree of sessions, every interleaving, every viewer, every latency budget", "why_tests_cant": "catching up after arbitrary drops is not a statement about one execution", "anchors": ["rs/hang/src/model/track.rs: TrackConsumer::read", "rs/moq/src/session/publisher.rs: run_track", "rs/moq/src/session/subscriber.rs: recv_group"]}
{"id": "C133", "title": "Audio at the worklet's rate is passed on unchanged", "statement": "Every decoded audio frame of the current track that has the sample rate of the audio worklet is sent to the worklet at once, with all channels, all samples and its timestamp; whatever frames are decoded, nothing panics or hangs and every message has samples, equally many in each channel.", "quantifier": "every sequence of catalogs, worklets, muting, decoded frames and ends of tracks; every resampler", "why_tests_cant": "the code runs in a browser only and has no tests; frames of every shape and order", "anchors": ["rs/hang-wasm/src/watch/audio.rs: Audio::run_inner, Audio::proxy", "rs/hang-wasm/src/watch/audio.rs: Audio::resample"]}
{"id": "C134", "title": "Resampled audio is the track's audio", "statement": "If the worklet has another rate, what it is sent is the track's samples, in order and without loss, resampled from the track's rate to the worklet's, all channels, and nothing of another track.", "quantifier": "every resampler, every sequence of frames of any sizes, every change of track, worklet or number of channels", "why_tests_cant": "depends on what is left in buffers across frames and tracks", "anchors": ["rs/hang-wasm/src/watch/audio.rs: Audio::resample", "rs/hang-wasm/src/watch/audio.rs: Audio::reinit"]}
{"id": "C135", "title": "Resampled audio has the right time", "statement": "The timestamp of a resampled message is that of the decoded frame its first sample is from.", "quantifier": "every sequence of frame sizes and timestamps", "why_tests_cant": "the relation of chunks and frames depends on all sizes so far", "anchors": ["rs/hang-wasm/src/watch/audio.rs: Audio::resample"]}
{"id": "C136", "title": "The worklet plays what it is sent", "statement": "Each call of the audio system is given the next samples of what the worklet was sent, in order, every sample once, then silence; messages are left out only if one arrives while five are not over, and then exactly those between the one being played and the new one.", "quantifier": "every interleaving of messages and calls, every size of messages and calls, every number of channels", "why_tests_cant": "positions in buffers depend on the whole history of sizes", "anchors": ["rs/hang-wasm/src/worklet/index.ts: onFrame, process"]}
{"id": "C137", "title": "Latency and gaps of audio", "statement": "At most five messages wait in the worklet, and it plays silence only when everything it has was played.", "quantifier": "every interleaving of messages and calls", "why_tests_cant": "a bound over all histories", "anchors": ["rs/hang-wasm/src/worklet/index.ts: onFrame, process"]}
{"id": "C138", "title": "All channels are heard", "statement": "A track with one channel is heard on all outputs, and all channels of a track are heard when there are fewer outputs.", "quantifier": "all numbers of channels and outputs", "why_tests_cant": "depends on the audio context; the code runs in a browser only", "anchors": ["rs/hang-wasm/src/worklet/index.ts: process"]}
{"id": "C139", "title": "Audio is played at its time", "statement": "Audio is played when its timestamp says, so that it is in step with the video.", "quantifier": "every sequence of messages with any timestamps", "why_tests_cant": "a statement about time, not about one message", "anchors": ["rs/hang-wasm/src/worklet/index.ts: onFrame, process", "rs/hang-wasm/src/worklet/message.rs: WorkletCommand::Frame"]}
{"id": "C140", "title": "Nothing is announced that nobody published", "statement": "In a network of programs that forward announcements to each other, within programs and over sessions, everything published or found at an origin of an application stands for a broadcast some application published, under the path that the prefixes removed and added on the way make of its path.", "quantifier": "every network: any number of origins, forwarding tasks and sessions, in any topology, cycles included; every schedule; every failure of sessions; every use of the origins", "why_tests_cant": "a statement about any topology and all interleavings of the tasks of all programs; tests have one session", "anchors": ["rs/moq/src/model/origin.rs: OriginProducer::publish, OriginProducer::publish_prefix, OriginProducer::consume_prefix, OriginConsumer::next", "rs/moq/src/session/publisher.rs: Publisher::recv_announce", "rs/moq/src/session/subscriber.rs: Subscriber::consume_prefix, Subscriber::run_announced, Subscriber::run_broadcast"]}
{"id": "C141", "title": "Announcements spread through the network", "statement": "When nothing is left to do, looking up a path at an origin finds a broadcast exactly if, somewhere in the network, an application publishes a broadcast that has not ended, from where links and open sessions lead to this origin and make this path; and what is found is not closed.", "quantifier": "every network, schedule and failure, in both directions: nothing missing, nothing stale", "why_tests_cant": "convergence of a distributed protocol under every interleaving; no run of a test shows the absence of lost or stale entries", "anchors": ["rs/moq/src/model/origin.rs: OriginProducer::publish, OriginProducer::publish_prefix, OriginProducer::consume_prefix, OriginConsumer::next", "rs/moq/src/session/publisher.rs: Publisher::recv_announce", "rs/moq/src/session/subscriber.rs: Subscriber::consume_prefix, Subscriber::run_announced, Subscriber::run_broadcast"]}
{"id": "C142", "title": "A broadcast closes only for a reason", "statement": "A broadcast an origin was given through the network is closed only if the broadcast it stands for has ended, or a session on the way has closed.", "quantifier": "every network, schedule and failure; at every moment", "why_tests_cant": "causality through any number of tasks and sessions", "anchors": ["rs/moq/src/model/origin.rs: OriginProducer::publish, OriginProducer::publish_prefix, OriginProducer::consume_prefix, OriginConsumer::next", "rs/moq/src/session/publisher.rs: Publisher::recv_announce", "rs/moq/src/session/subscriber.rs: Subscriber::consume_prefix, Subscriber::run_announced, Subscriber::run_broadcast"]}
{"id": "C143", "title": "Prefixes keep the network free of collisions", "statement": "If the links into each origin add prefixes of which none continues another, and applications publish each path once and not under these prefixes, no origin is ever given a path twice; announcements then spread as C141 says.", "quantifier": "every network, schedule and failure", "why_tests_cant": "an invariant over all runs of all topologies; it is what makes the restriction of C141 something a deployment can check", "anchors": ["rs/moq/src/model/origin.rs: OriginProducer::publish, OriginProducer::publish_prefix, OriginProducer::consume_prefix, OriginConsumer::next", "rs/moq/src/session/subscriber.rs: Subscriber::consume_prefix, Subscriber::run_announced, Subscriber::run_broadcast"]}
{"id": "C144", "title": "Imported keyframes are where the file says", "statement": "A video frame imported from a file is a keyframe exactly if its sample is marked as a sync sample that depends on no other; an audio frame exactly if the last keyframe of its track is not within 10 seconds before it, or there was a video keyframe since. So audio can be joined wherever video can: after a video keyframe the first audio frame is one.", "quantifier": "every sequence of boxes: any headers, tracks, fragments, samples, flags and defaults", "why_tests_cant": "flags come from three levels of defaults; the audio rule depends on the whole history", "anchors": ["rs/hang/src/cmaf/import.rs: Import::extract", "rs/hang/src/cmaf/import.rs: Import::last_keyframe"]}
{"id": "C145", "title": "A file is imported completely and in order, or refused", "statement": "The frames written are the samples of the file's fragments in order, each from the media data after its own fragment header, to the track made for its id, up to the first bad box; importing succeeds exactly if all tracks are supported, every media data has exactly one fragment header before it and a file header, and every sample lies inside its data.", "quantifier": "every sequence of boxes, every cut of the bytes into chunks", "why_tests_cant": "a refinement between the whole file and everything written, over all files", "anchors": ["rs/hang/src/cmaf/import.rs: Import::process, Import::extract, Import::init, Import::parse"]}
{"id": "C146", "title": "Announcements come to rest", "statement": "If links and sessions do not lead in a circle, the network can go through only so many changes before somebody uses it again, whatever the schedule, and can always reach a state in which nothing is left to do; where the ways into every origin are apart, each origin then has exactly the broadcasts that are to be seen there. With a circle of two links it never comes to rest.", "quantifier": "every network of origins, links and sessions, every use of it before, every schedule of its tasks after", "why_tests_cant": "termination over unboundedly many tasks, queues and messages, each of which can create more", "anchors": ["rs/moq/src/model/origin.rs: OriginProducer::publish_prefix, OriginConsumer::next", "rs/moq/src/session/publisher.rs: Publisher::run_announce", "rs/moq/src/session/subscriber.rs: Subscriber::run_announced"]}
{"id": "C147", "title": "A subscription reaches the broadcast it is for", "statement": "Once the network is at rest, subscribing to what is found at a path is passed back, session by session, to exactly one broadcast of an application: one that has not ended, is to be seen there under this path, and comes over sessions that are all open. This holds where sessions are asked for everything; a session asked for a prefix asks its peer for another path than the one that was announced and can deliver the tracks of another broadcast.", "quantifier": "every network of origins, links and sessions, every use of it, every path at every origin", "why_tests_cant": "ranges over all networks and histories; a request passes through unboundedly many programs, each of which looks the path up anew", "anchors": ["rs/moq/src/session/subscriber.rs: Subscriber::run_broadcast, run_subscribe", "rs/moq/src/session/publisher.rs: Publisher::run_subscribe", "rs/moq/src/model/origin.rs: OriginConsumer::consume"]}
{"id": "C148", "title": "The clock's lines are the time", "statement": "Every line the clock program publishes after the first of a minute is the time at which it is published, and the first one is not in the future; the publisher does not panic. This fails by whole hours when a group is continued an hour later (a suspended computer), since only the minute is compared.", "quantifier": "every schedule of the publisher's tasks, with any delays, while the system clock is not set; no panic also when it is", "why_tests_cant": "ranges over all delays of timers and all schedules of the tasks", "anchors": ["rs/moq-clock/src/clock.rs: Publisher::run, Publisher::send_segment"]}
{"id": "C149", "title": "The clock keeps up", "statement": "Each minute's first line is late by exactly the sum of the delays of all sleeps of the publisher since its start, and the time its own task took to start. The publisher never looks at the system clock again, so there is no bound, even if no sleep takes a millisecond too long.", "quantifier": "every schedule and every delay of the timers", "why_tests_cant": "a sum over arbitrarily long runs; the drift of a real run becomes visible after weeks", "anchors": ["rs/moq-clock/src/clock.rs: Publisher::run"]}
{"id": "C150", "title": "A clock's subscriber sees time go forward", "statement": "Where the lines that are published are the time (C148), the lines a subscriber prints are times that grow, second by second or faster, over all groups it gets, however slow it is.", "quantifier": "every schedule of publisher and subscriber", "why_tests_cant": "ranges over all interleavings of writing groups and reading them, with groups skipped", "anchors": ["rs/moq-clock/src/clock.rs: Subscriber::run, Publisher::send_segment", "rs/moq/src/model/track.rs: TrackConsumer::next_group"]}
{"id": "C151", "title": "The GStreamer sink publishes what it is fed", "statement": "Every start of the sink publishes a broadcast holding exactly what importing the bytes rendered since then gives, however they are cut into buffers; up to a failure it still does, and nothing is changed afterwards.", "quantifier": "every sequence of property changes, starts, stops and buffers, every cut of the bytes into buffers, both builds", "why_tests_cant": "ranges over all inputs and all ways to cut them", "anchors": ["rs/hang-gst/src/sink/imp.rs: HangSink::render, setup", "rs/hang/src/cmaf/import.rs: Import::parse"]}
{"id": "C152", "title": "The GStreamer sink fails without harm", "statement": "The sink fails exactly if it is started without a URL, cannot connect, is given a buffer before a start, or one that cannot be imported. Such a failure is a panic: the element never works again, and after a start that panicked, reading or setting any of its properties aborts the program, so a failed start cannot be repeated.", "quantifier": "every sequence of property changes, starts, stops and buffers, every outcome of connecting", "why_tests_cant": "needs all histories: poisoned locks outlive the call that failed", "anchors": ["rs/hang-gst/src/sink/imp.rs: HangSink::setup, render, set_property, property"]}
{"id": "C153", "title": "The player behind a watching element is told what the page asks", "statement": "Once no message waits, the worker of a watching element was told exactly the URL, latency, pause, visibility and muting the page asked for last, by property or by attribute; so with the volume at zero no audio is downloaded and with the last word hidden no video.", "quantifier": "every sequence of property and attribute changes, observer reports, slot changes, clicks and network events, in every interleaving with the worker", "why_tests_cant": "ranges over all interleavings of the page with its worker, including commands posted before the worker is up", "anchors": ["rs/hang-wasm/src/watch/index.ts: Watch, WatchElement", "rs/hang-wasm/src/bridge.ts: Bridge.postMessage", "rs/hang-wasm/src/watch/mod.rs: Watch"]}
{"id": "C154", "title": "An element off the screen downloads no video", "statement": "While the canvas of a watching element is off the screen or the page is in the background, no video is downloaded.", "quantifier": "every sequence of observer reports and page visibility changes among everything else that can happen", "why_tests_cant": "needs all interleavings of two sources of visibility", "anchors": ["rs/hang-wasm/src/watch/index.ts: IntersectionObserver callback, visibilitychange listener"]}
{"id": "C155", "title": "The canvas on display is the one drawn on", "statement": "Whatever is slotted into a watching element, once no message waits the player draws on the canvas the user sees.", "quantifier": "every sequence of slot changes among everything else that can happen", "why_tests_cant": "needs all histories: a canvas can be handed to the worker only once", "anchors": ["rs/hang-wasm/src/watch/index.ts: #setCanvas, initVideo, slotchange listener"]}
{"id": "C156", "title": "What is heard has the volume asked for", "statement": "The audio context fed by the player has the volume the page asked for last and runs once the user clicked.", "quantifier": "every sequence of volume changes, audio set-ups, module loads and clicks among everything else that can happen", "why_tests_cant": "needs all orders in which the modules of several contexts load, and all browser policies", "anchors": ["rs/hang-wasm/src/watch/index.ts: initAudio, volume, click listener"]}
{"id": "C157", "title": "The attributes of a publishing element take effect", "statement": "A publishing element has video off exactly while it has the attribute no-video, audio off exactly while it has no-audio, and the device named by the attribute device.", "quantifier": "every sequence of attribute changes", "why_tests_cant": "ranges over all attribute values and sequences", "anchors": ["rs/hang-wasm/src/publish/index.ts: PublishElement.attributeChangedCallback"]}
{"id": "C158", "title": "A JavaScript endpoint understands the messages of a Rust endpoint", "statement": "Every message a Rust endpoint writes, a JavaScript endpoint reads as the same message, taking exactly its bytes and leaving what follows, however the transport cut them.", "quantifier": "every announcement, interest, subscription, acceptance, group header, session information and set-up message, every cut into pieces, every rest of the stream", "why_tests_cant": "two independent implementations of one format: ranges over all values and all cuts, at the edges of numbers and text", "anchors": ["js/moq/src/wire: Announce, AnnounceInterest, Subscribe, SubscribeOk, Group, SessionInfo, SessionClient, SessionServer", "js/moq/src/wire/stream.ts: Reader", "rs/moq/src/message: Encode impls", "rs/moq/src/coding: Writer"]}
{"id": "C159", "title": "A Rust endpoint understands the messages of a JavaScript endpoint", "statement": "Every message a JavaScript endpoint writes, a Rust endpoint reads as the same message, taking exactly its bytes.", "quantifier": "every message with any safe numbers and any text, every rest of the stream, both widths of usize", "why_tests_cant": "two independent implementations of one format: ranges over all values", "anchors": ["js/moq/src/wire/stream.ts: Writer", "js/moq/src/wire: encode methods", "rs/moq/src/message: Decode impls"]}
{"id": "C160", "title": "A JavaScript client and a Rust server shake hands", "statement": "A Rust server accepts what a JavaScript client says first, and the JavaScript client accepts the answer; it goes on with no other version than its own.", "quantifier": "every way the transport takes and cuts the bytes; every version a server might answer with", "why_tests_cant": "ranges over all schedules of the two streams and all answers", "anchors": ["js/moq/src/connection.ts: connect", "rs/moq/src/session/mod.rs: Session::accept"]}
{"id": "C161", "title": "Groups cross between JavaScript and Rust whole", "statement": "Of a group served by the one library the other gets the first frames, each with exactly its bytes; all of them if all arrived; and what JavaScript takes for a complete group is one.", "quantifier": "every group, finished or cut off, every schedule of the writer, every prefix delivered and every cut of it, both directions", "why_tests_cant": "ranges over all prefixes and all ways a stream can end", "anchors": ["js/moq/src/subscriber.ts: runGroup", "js/moq/src/publisher.ts: #runGroup", "rs/moq/src/session/publisher.rs: serve_group", "rs/moq/src/session/subscriber.rs: recv_group"]}
{"id": "C162", "title": "What JavaScript reads does not depend on how bytes are cut", "statement": "Two streams with the same bytes and the same end give the same result and leave the same bytes, for every message and for every frame.", "quantifier": "all pairs of ways to cut the same bytes, including empty pieces and bytes already buffered, valid or not", "why_tests_cant": "ranges over all cuts of all byte strings", "anchors": ["js/moq/src/wire/stream.ts: Reader"]}
{"id": "C163", "title": "A JavaScript endpoint serves every request", "statement": "Each stream a Rust peer opens with a request is served with that request, whatever other streams do.", "quantifier": "every list of streams, each with a well-formed request", "why_tests_cant": "the accept loop reads one stream at a time: needs every combination of streams", "anchors": ["js/moq/src/connection.ts: #runBidis", "js/moq/src/wire/stream.ts: Stream.accept"]}
{"id": "C164", "title": "Media frames keep time and payload between JavaScript and Rust", "statement": "A frame with a timestamp in microseconds and a payload, written by the one library and read by the other, has the same timestamp and payload.", "quantifier": "every timestamp and payload, both directions", "why_tests_cant": "ranges over all timestamps, at the edges of the number formats of both languages", "anchors": ["js/hang/src/container/frame.ts: encodeFrame, decodeFrame", "js/hang/src/container/vint.ts", "rs/hang/src/model/frame.rs", "rs/hang/src/model/track.rs"]}
{"id": "C165", "title": "Positions are understood between JavaScript and Rust", "statement": "A position published by a JavaScript endpoint is the position a Rust endpoint reads.", "quantifier": "every position", "why_tests_cant": "two formats of one track, needs to range over all texts", "anchors": ["js/hang/src/container/position.ts: PositionProducer, PositionConsumer", "rs/hang/src/model/location.rs: LocationConsumer"]}
{"id": "C166", "title": "A viewer gives up the rest of a group only if it is too late", "statement": "Between two frames shown one after another from different groups, either the first group had no more frames, or the second frame is ahead of the first by at least the latency asked for.", "quantifier": "every live track, every tree of sessions, every schedule, every latency however it changes, every viewer", "why_tests_cant": "ranges over all interleavings of writer, relays, transport and viewers", "anchors": ["rs/hang/src/model/track.rs: TrackConsumer::read, set_latency", "rs/hang/src/model/group.rs: GroupConsumer"]}
{"id": "C167", "title": "A reader in the browser goes forward and reads what was written", "statement": "A reader of a track (js/moq), using nextGroup and nextFrame in any mixture, is at every result further on than before: a later group, or the same group and a later frame. Every group it is given was added by the writer. Every frame is, bit for bit, the one written at that place. Within a group no frame is left out before one that is given.", "quantifier": "every sequence of calls of the writer and of any number of readers, every order in which promises settle and calls go on", "why_tests_cant": "ranges over all interleavings of promises", "anchors": ["js/moq/src/track.ts: TrackProducer, TrackConsumer", "js/moq/src/group.ts: GroupProducer, GroupConsumer", "js/moq/src/util/watch.ts: WatchProducer, WatchConsumer"]}
{"id": "C168", "title": "A reader in the browser that waits has got the newest frame", "statement": "While nextFrame waits and nothing it awaits has happened, and the track has not ended, all frames of the newest group have been given to this reader.", "quantifier": "every sequence of calls of the writer and of any number of readers, every order in which promises settle and calls go on", "why_tests_cant": "absence of a lost wake-up, over all interleavings", "anchors": ["js/moq/src/track.ts: TrackConsumer.nextFrame", "js/moq/src/util/watch.ts: WatchConsumer.next"]}
{"id": "C169", "title": "A reader in the browser is told the end only at the end", "statement": "nextGroup and nextFrame return undefined, to a reader that was not closed, only if the track has ended, and only if all frames of the newest group have been given to a reader that uses nextFrame. Closing a reader makes its pending nextFrame return undefined.", "quantifier": "every sequence of calls of the writer and of any number of readers, every order in which promises settle and calls go on", "why_tests_cant": "ranges over all interleavings of promises", "anchors": ["js/moq/src/track.ts: TrackConsumer.nextFrame, close", "js/moq/src/util/watch.ts: WatchConsumer.next, WatchProducer.close"]}
{"id": "C170", "title": "A peer hears of everything a browser publishes", "statement": "A peer that asks an endpoint of the JavaScript library for announcements under a prefix is told, in order, each once and with the prefix removed, of every broadcast published there whose path starts with the prefix and of every one taken back, from the very first on; when it is told nothing more, it was told all.", "quantifier": "every sequence of publishing, closing, following and reading, every order in which awaited things go on, every prefix", "why_tests_cant": "ranges over all interleavings and all paths", "anchors": ["js/moq/src/announced.ts: AnnouncedProducer, AnnouncedConsumer.next", "js/moq/src/publisher.ts: Publisher.runAnnounce, publish, #runPublish"]}
{"id": "C171", "title": "What a browser announces is what it serves", "statement": "The last announcement about a path is active exactly if a subscription to that path finds a broadcast, and it then finds the one last published there. A broadcast that is published and not closed is found and announced, unless a later one took its place.", "quantifier": "every sequence of publishing, closing and asking, every order in which awaited things go on", "why_tests_cant": "ranges over all interleavings", "anchors": ["js/moq/src/publisher.ts: Publisher.publish, #runPublish, runSubscribe, consume"]}
{"id": "C172", "title": "A browser announces and takes back in turn", "statement": "About each path an endpoint of the JavaScript library says active, ended, active, ended, and so on, as the peer demands (C40).", "quantifier": "every sequence of publishing and closing, every order in which awaited things go on", "why_tests_cant": "ranges over all interleavings", "anchors": ["js/moq/src/publisher.ts: Publisher.publish, #runPublish"]}
{"id": "C173", "title": "A browser does not give up a subscription that is in use", "statement": "A subscription shared by several readers is given up for want of readers only if all of them were closed.", "quantifier": "every sequence of subscribing, cloning and closing, every order in which awaited things go on", "why_tests_cant": "ranges over all interleavings", "anchors": ["js/moq/src/util/watch.ts: WatchProducer.consume, unsubscribe, unused, WatchConsumer.close", "js/moq/src/subscriber.ts: Subscriber.consume, #runSubscribe", "js/moq/src/broadcast.ts: BroadcastConsumer.subscribe, BroadcastProducer.insertTrack, removeTrack"]}
{"id": "C174", "title": "A browser gives up a subscription nobody uses", "statement": "Once all readers of a subscription are closed, the subscription is ended.", "quantifier": "every sequence of subscribing, cloning and closing, every order in which awaited things go on", "why_tests_cant": "ranges over all interleavings", "anchors": ["js/moq/src/util/watch.ts: WatchProducer.consume, unsubscribe, unused, WatchConsumer.close", "js/moq/src/subscriber.ts: Subscriber.consume, #runSubscribe"]}
{"id": "C175", "title": "The relay deals with every client once and as its own token says", "statement": "A client whose handshake has ended is dealt with exactly once: its connection is run with what its own URL grants and with the next connection number, or it is closed as refused, or its failure is ignored. No client has to wait for another one's handshake; the relay waits only when all who arrived have been taken up and all who are ready have been dealt with.", "quantifier": "every order in which clients arrive, handshakes end in success or failure and the loop proceeds, every choice among what is ready, every outcome of the validation", "why_tests_cant": "ranges over all interleavings and all choices of select!", "anchors": ["rs/moq-native/src/server.rs: Server::accept", "rs/moq-relay/src/main.rs: main"]}
{"id": "C176", "title": "The relay goes on until it is told to end", "statement": "The relay stops letting clients in only on ctrl-c or if its endpoint fails, whatever clients do.", "quantifier": "every sequence of arrivals, handshakes and URLs, every configuration of the access control", "why_tests_cant": "ranges over all interleavings and all URLs", "anchors": ["rs/moq-native/src/server.rs: Server::accept", "rs/moq-relay/src/main.rs: main", "rs/moq-relay/src/auth.rs: Auth::validate"]}
{"id": "C177", "title": "Ctrl-c ends the relay", "statement": "After ctrl-c the relay closes its endpoint and ends.", "quantifier": "every moment at which the signal comes, every sequence of arrivals and handshakes, every choice among what is ready", "why_tests_cant": "depends on the random choice of select! and on the moment of the signal", "anchors": ["rs/moq-native/src/server.rs: Server::accept"]}
{"id": "C178", "title": "Waits before reconnecting grow twofold", "statement": "After every failed attempt or lost connection the page waits before it tries again: the delay that was set, doubled for every failure since a connection was last made, up to the maximum; no wait without a failure.", "quantifier": "every sequence of URL changes, attempts that succeed or fail, connections that end, timers and calls of close, in every order", "why_tests_cant": "ranges over all interleavings of attempts and timers", "anchors": ["js/hang/src/connection.ts: Connection.#connect, close"]}
{"id": "C179", "title": "A page with a URL never gives up", "statement": "As long as a URL is set and the connection object is not closed, it is connecting to that URL, or connected, or a timer is set that makes the next attempt.", "quantifier": "every sequence of URL changes, attempts that succeed or fail, connections that end, timers and calls of close, in every order", "why_tests_cant": "ranges over all interleavings of attempts and timers", "anchors": ["js/hang/src/connection.ts: Connection.#connect, close"]}
{"id": "C180", "title": "A connection that works is left alone", "statement": "A connection is closed only by close() or by a change of the URL.", "quantifier": "every sequence of URL changes, attempts that succeed or fail, connections that end, timers and calls of close, in every order", "why_tests_cant": "ranges over all interleavings of attempts and timers", "anchors": ["js/hang/src/connection.ts: Connection.#connect, close"]}
{"id": "C181", "title": "The page shows how it is", "statement": "The established connection is the one that is open, to the URL that was set last; the status says whether there is one, or an attempt, or neither.", "quantifier": "every sequence of URL changes, attempts that succeed or fail, connections that end, timers and calls of close, in every order", "why_tests_cant": "ranges over all interleavings of attempts and timers", "anchors": ["js/hang/src/connection.ts: Connection.#connect, close"]}
{"id": "C182", "title": "Closing closes", "statement": "After close() no connection is open and none is attempted.", "quantifier": "every sequence of URL changes, attempts that succeed or fail, connections that end, timers and calls of close, in every order", "why_tests_cant": "ranges over all interleavings of attempts and timers", "anchors": ["js/hang/src/connection.ts: Connection.#connect, close"]}
{"id": "C183", "title": "A player gives every frame back", "statement": "The frames that come out of the decoders are closed in the order in which they came, each at most once; never more than two are kept; a frame that is returned was not closed, and asking for one always ends.", "quantifier": "every sequence of reruns of the player's effect, frames and failures of every decoder made so far, calls of frame(now) with any time, and calls of close", "why_tests_cant": "ranges over all interleavings of decoders and calls, and all timestamps", "anchors": ["js/hang/src/watch/video.ts: Video.#init, frame, close", "js/signals/src/index.ts: effect"]}
{"id": "C184", "title": "The picture never goes back", "statement": "frame(now) never returns a frame that came out of a decoder before one that was returned earlier.", "quantifier": "every sequence of reruns of the player's effect, frames and failures of every decoder made so far, calls of frame(now) with any time, and calls of close", "why_tests_cant": "ranges over all interleavings of decoders and calls, and all timestamps", "anchors": ["js/hang/src/watch/video.ts: Video.#init, frame, close", "js/signals/src/index.ts: effect"]}
{"id": "C185", "title": "The lag says how late a frame is", "statement": "The lag returned is how much later the frame is, against the clock, than the earliest frame so far; a frame is passed over only if it is later than the distance to the next one.", "quantifier": "every sequence of reruns of the player's effect, frames and failures of every decoder made so far, calls of frame(now) with any time, and calls of close", "why_tests_cant": "ranges over all interleavings of decoders and calls, and all timestamps", "anchors": ["js/hang/src/watch/video.ts: Video.#init, frame, close", "js/signals/src/index.ts: effect"]}
{"id": "C186", "title": "A track's lag is its own", "statement": "The lag of a frame depends only on frames of its own track.", "quantifier": "every sequence of reruns of the player's effect, frames and failures of every decoder made so far, calls of frame(now) with any time, and calls of close", "why_tests_cant": "ranges over all interleavings of decoders and calls, and all timestamps", "anchors": ["js/hang/src/watch/video.ts: Video.#init, frame, close", "js/signals/src/index.ts: effect"]}
{"id": "C187", "title": "What is shown is what was selected", "statement": "After another track was selected and has given two frames, only its frames are shown; after the player was disabled no new frame is shown.", "quantifier": "every sequence of reruns of the player's effect, frames and failures of every decoder made so far, calls of frame(now) with any time, and calls of close", "why_tests_cant": "ranges over all interleavings of decoders and calls, and all timestamps", "anchors": ["js/hang/src/watch/video.ts: Video.#init, frame, close", "js/signals/src/index.ts: effect"]}
{"id": "C188", "title": "Closing the player ends it", "statement": "After close() every frame is closed and nothing is shown.", "quantifier": "every sequence of reruns of the player's effect, frames and failures of every decoder made so far, calls of frame(now) with any time, and calls of close", "why_tests_cant": "ranges over all interleavings of decoders and calls, and all timestamps", "anchors": ["js/hang/src/watch/video.ts: Video.#init, frame, close", "js/signals/src/index.ts: effect"]}
{"id": "C189", "title": "Samples are played in time", "statement": "A sample is never scheduled in the past, and never later than the largest latency after it came out of the decoder.", "quantifier": "every sequence of samples with any timestamps, clocks and latencies, ends of nodes in any order, and changes of enabled", "why_tests_cant": "ranges over all timestamps, clocks and orders of events", "anchors": ["js/hang/src/watch/audio.ts: Audio.#emit, #scheduleBuffer, constructor", "js/signals/src/index.ts: effect"]}
{"id": "C190", "title": "Sound only jumps forward", "statement": "From one sample to the next the distance between timestamp and time of playing never grows: no pause is put in.", "quantifier": "every sequence of samples with any timestamps, clocks and latencies, ends of nodes in any order, and changes of enabled", "why_tests_cant": "ranges over all timestamps, clocks and orders of events", "anchors": ["js/hang/src/watch/audio.ts: Audio.#emit, #scheduleBuffer, constructor", "js/signals/src/index.ts: effect"]}
{"id": "C191", "title": "No sample is heard twice", "statement": "A sample that was played is not played again.", "quantifier": "every sequence of samples with any timestamps, clocks and latencies, ends of nodes in any order, and changes of enabled", "why_tests_cant": "ranges over all timestamps, clocks and orders of events", "anchors": ["js/hang/src/watch/audio.ts: Audio.#emit, #scheduleBuffer, constructor", "js/signals/src/index.ts: effect"]}
{"id": "C192", "title": "Only late samples are thrown away and the sound comes back", "statement": "A sample is thrown away only if it is later than the largest latency of an earlier one against the clock; while samples come in step with the clock, some are played.", "quantifier": "every sequence of samples with any timestamps, clocks and latencies, ends of nodes in any order, and changes of enabled", "why_tests_cant": "ranges over all timestamps, clocks and orders of events", "anchors": ["js/hang/src/watch/audio.ts: Audio.#emit, #scheduleBuffer, constructor", "js/signals/src/index.ts: effect"]}
{"id": "C193", "title": "A disabled player is silent", "statement": "When the player is disabled every sound is stopped, and none is started before it is enabled again.", "quantifier": "every sequence of samples with any timestamps, clocks and latencies, ends of nodes in any order, and changes of enabled", "why_tests_cant": "ranges over all timestamps, clocks and orders of events", "anchors": ["js/hang/src/watch/audio.ts: Audio.#emit, #scheduleBuffer, constructor", "js/signals/src/index.ts: effect"]}
{"id": "C194", "title": "There is at most one AudioContext", "statement": "The player never keeps more than one AudioContext.", "quantifier": "every sequence of samples with any timestamps, clocks and latencies, ends of nodes in any order, and changes of enabled", "why_tests_cant": "ranges over all timestamps, clocks and orders of events", "anchors": ["js/hang/src/watch/audio.ts: Audio.#emit, #scheduleBuffer, constructor", "js/signals/src/index.ts: effect"]}
{"id": "C195", "title": "Muted means volume zero", "statement": "After every change the audio is muted if and only if the volume is zero, and the effects that see to it come to rest.", "quantifier": "every choice of properties given to the constructor and every sequence of changes of volume, mute and pause", "why_tests_cant": "ranges over all sequences of changes; effects set each other's signals", "anchors": ["js/hang/src/watch/audio.ts: AudioEmitter"]}
{"id": "C196", "title": "The volume is the one that was set", "statement": "After a volume other than zero is given, to the constructor or later, that is the volume.", "quantifier": "every choice of properties given to the constructor and every sequence of changes of volume, mute and pause", "why_tests_cant": "ranges over all sequences of changes; effects set each other's signals", "anchors": ["js/hang/src/watch/audio.ts: AudioEmitter"]}
{"id": "C197", "title": "Unmuting brings the volume back", "statement": "Muting sets the volume to zero, and unmuting to what it was, whatever was paused meanwhile.", "quantifier": "every choice of properties given to the constructor and every sequence of changes of volume, mute and pause", "why_tests_cant": "ranges over all sequences of changes; effects set each other's signals", "anchors": ["js/hang/src/watch/audio.ts: AudioEmitter"]}
{"id": "C198", "title": "Audio is downloaded unless paused", "statement": "Audio is downloaded if and only if it is not paused, muted or not.", "quantifier": "every choice of properties given to the constructor and every sequence of changes of volume, mute and pause", "why_tests_cant": "ranges over all sequences of changes; effects set each other's signals", "anchors": ["js/hang/src/watch/audio.ts: AudioEmitter"]}
{"id": "C199", "title": "Nothing is recorded once nothing is selected", "statement": "When no device is selected, or the broadcast is closed, no camera, microphone or screen is recorded.", "quantifier": "every sequence of selecting a device, enabling and disabling audio and video, closing, and the browser granting or denying requests in any order", "why_tests_cant": "ranges over all interleavings of the page with the browser's promises, which resolve when the user decides", "anchors": ["js/hang/src/publish/broadcast.ts: Broadcast.#runCameraAudio, #runCameraVideo, #runScreen, close"]}
{"id": "C200", "title": "One camera, one microphone", "statement": "At most one track of each kind (audio, video) is recorded at any time.", "quantifier": "every sequence of selecting a device, enabling and disabling audio and video, closing, and the browser granting or denying requests in any order", "why_tests_cant": "ranges over all interleavings of the page with the browser's promises, which resolve when the user decides", "anchors": ["js/hang/src/publish/broadcast.ts: Broadcast.#runCameraAudio, #runCameraVideo, #runScreen, close"]}
{"id": "C201", "title": "Only what is enabled is recorded", "statement": "Audio is recorded only while audio is enabled, and video only while video is enabled.", "quantifier": "every sequence of selecting a device, enabling and disabling audio and video, closing, and the browser granting or denying requests in any order", "why_tests_cant": "ranges over all interleavings of the page with the browser's promises, which resolve when the user decides", "anchors": ["js/hang/src/publish/broadcast.ts: Broadcast.#runCameraAudio, #runCameraVideo, #runScreen, close"]}
{"id": "C202", "title": "The user is asked for what was selected, and for nothing else", "statement": "Each change that selects and enables a camera, microphone or screen asks the browser for it, and the browser is not asked for anything else.", "quantifier": "every sequence of selecting a device, enabling and disabling audio and video, closing, and the browser granting or denying requests in any order", "why_tests_cant": "ranges over all interleavings of the page with the browser's promises, which resolve when the user decides", "anchors": ["js/hang/src/publish/broadcast.ts: Broadcast.#runCameraAudio, #runCameraVideo, #runScreen, close"]}
{"id": "C203", "title": "A microphone that is enabled is published", "statement": "When audio is enabled, a microphone was given and nothing is being waited for, an audio track is published.", "quantifier": "every sequence of enabling, giving or removing a microphone, and of worklets being loaded", "why_tests_cant": "that something never happens, in any execution, takes an invariant", "anchors": ["js/hang/src/publish/audio.ts: Audio.#runWorklet, #runEncoder"]}
{"id": "C204", "title": "A page watches what is announced", "statement": "In its default mode the page consumes the broadcast if and only if it has been announced as active, on the present connection and under the present path, and not ended since.", "quantifier": "every sequence of enabling, changes of path, losing and making connections, announcements, catalogs and their ends, in any order", "why_tests_cant": "ranges over all interleavings of three effects with the asynchronous loops that they start and leave behind", "anchors": ["js/hang/src/watch/broadcast.ts: Broadcast.#runActive, #runBroadcast, #runCatalog"]}
{"id": "C205", "title": "A broadcast that is announced is loaded", "statement": "When the page is told that the broadcast is active and it was not told so before on this connection and path, it consumes the broadcast anew and loads its catalog.", "quantifier": "every sequence of enabling, changes of path, losing and making connections, announcements, catalogs and their ends, in any order", "why_tests_cant": "ranges over all interleavings of three effects with the asynchronous loops that they start and leave behind", "anchors": ["js/hang/src/watch/broadcast.ts: Broadcast.#runActive, #runBroadcast, #runCatalog"]}
{"id": "C206", "title": "What is watched is what was chosen", "statement": "Whatever is consumed, or listened for, is the present path on the present connection, only while enabled, and one at a time; while enabled and connected, the page listens.", "quantifier": "every sequence of enabling, changes of path, losing and making connections, announcements, catalogs and their ends, in any order", "why_tests_cant": "ranges over all interleavings of three effects with the asynchronous loops that they start and leave behind", "anchors": ["js/hang/src/watch/broadcast.ts: Broadcast.#runActive, #runBroadcast, #runCatalog"]}
{"id": "C207", "title": "The status says what is the case", "statement": "The status is live only with a catalog, not offline with one, and offline if and only if no catalog is being loaded or watched.", "quantifier": "every sequence of enabling, changes of path, losing and making connections, announcements, catalogs and their ends, in any order", "why_tests_cant": "ranges over all interleavings of three effects with the asynchronous loops that they start and leave behind", "anchors": ["js/hang/src/watch/broadcast.ts: Broadcast.#runActive, #runBroadcast, #runCatalog"]}
{"id": "C208", "title": "The catalog is that of the broadcast", "statement": "The catalog that is shown is the last one sent by the broadcast that is consumed.", "quantifier": "every sequence of enabling, changes of path, losing and making connections, announcements, catalogs and their ends, in any order", "why_tests_cant": "ranges over all interleavings of three effects with the asynchronous loops that they start and leave behind", "anchors": ["js/hang/src/watch/broadcast.ts: Broadcast.#runActive, #runBroadcast, #runCatalog"]}
{"id": "C209", "title": "A chat message is there for as long as it should", "statement": "Until the chat is closed, those who join see the last message unless it was cleared or has been there for as long as the setting said when it was published, and no message otherwise.", "quantifier": "every sequence of messages, clearing, changes of the setting and waiting of any length", "why_tests_cant": "ranges over all orders of timers that were set for earlier messages, for all durations", "anchors": ["js/hang/src/publish/chat.ts: Chat.publish, Chat.clear"]}
{"id": "C210", "title": "Groups of a chat end before the next", "statement": "When a group of the chat track is made, all groups before it have been ended, and their numbers are lower.", "quantifier": "every sequence of messages, clearing, changes of the setting and waiting of any length", "why_tests_cant": "holds for all sequences, with timers at any point", "anchors": ["js/hang/src/publish/chat.ts: Chat.publish, Chat.clear, Chat.close"]}
{"id": "C211", "title": "The peers that are asked for their position", "statement": "A handle is listed in the catalog and has a track if and only if some open peer has that handle.", "quantifier": "every sequence of making peers, changing their handles and closing them, for any number of peers", "why_tests_cant": "ranges over all sequences with any number of peers that share one record", "anchors": ["js/hang/src/publish/location.ts: Location.peer, LocationPeer", "js/signals/src/index.ts: memo", "js/moq/src/broadcast.ts: BroadcastProducer.insertTrack, removeTrack"]}
{"id": "C212", "title": "Groups of a page's video start with a key frame and belong to one camera", "statement": "Groups are made one at a time on the track of the present camera, their first frame and no other is a key frame, and nothing is written to them after a change of camera.", "quantifier": "every sequence of cameras given and taken away, first frames, configurations chosen, frames encoded and ends of a camera, in any order", "why_tests_cant": "ranges over all interleavings of asynchronous loops that share one group and status", "anchors": ["js/hang/src/publish/video.ts: Video.#runTrack, #runEncoder, #runFrames"]}
{"id": "C213", "title": "Every frame of the encoder is written", "statement": "The frames written to groups are as many as the encoder of the present camera has given.", "quantifier": "every sequence of cameras given and taken away, first frames, configurations chosen, frames encoded and ends of a camera, in any order", "why_tests_cant": "ranges over all interleavings of asynchronous loops that share one group and status", "anchors": ["js/hang/src/publish/video.ts: Video.#runTrack, #runEncoder, #runFrames"]}
{"id": "C214", "title": "The video is called active while a camera is being read", "statement": "The video says that it is active if and only if the present camera has given a frame and was neither replaced nor ended.", "quantifier": "every sequence of cameras given and taken away, first frames, configurations chosen, frames encoded and ends of a camera, in any order", "why_tests_cant": "ranges over all interleavings of asynchronous loops that share one group and status", "anchors": ["js/hang/src/publish/video.ts: Video.#runTrack, #runEncoder, #runFrames"]}
{"id": "C215", "title": "The configuration in use is that of the present camera", "statement": "If there is an encoder configuration, it is the one chosen for the present camera.", "quantifier": "every sequence of cameras given and taken away, first frames, configurations chosen, frames encoded and ends of a camera, in any order", "why_tests_cant": "ranges over all interleavings of asynchronous loops that share one group and status", "anchors": ["js/hang/src/publish/video.ts: Video.#runTrack, #runEncoder, #runFrames"]}
{"id": "C216", "title": "An effect or memo holds the resources of one run", "statement": "Of each effect and each memo at most one run of its function, the last, holds resources that its cleanup has not given back.", "quantifier": "every sequence of making effects and memos, changes that run them again, and closing, for any number of them", "why_tests_cant": "ranges over all sequences and any number of computations that share one root", "anchors": ["js/signals/src/index.ts: memo, effect, Signals.effect, Signals.memo, Signals.close"]}
{"id": "C217", "title": "Once closed, nothing is held", "statement": "When a group of effects and memos is closed, every cleanup registered by any run of their functions has been run.", "quantifier": "every sequence of making effects and memos, changes that run them again, and closing, for any number of them", "why_tests_cant": "ranges over all sequences and any number of computations that share one root", "anchors": ["js/signals/src/index.ts: memo, effect, Signals.effect, Signals.memo, Signals.close"]}
{"id": "C218", "title": "A web page accepts the catalogs that the Rust library publishes", "statement": "Every catalog that the Rust library prints is accepted by the JavaScript library.", "quantifier": "every catalog with any tracks, settings and location, and any text of its floating point numbers", "why_tests_cant": "two schemas in two languages, and all catalogs and numbers", "anchors": ["js/hang/src/catalog/root.ts: RootSchema, decode", "js/hang/src/catalog/video.ts: VideoConfigSchema", "js/hang/src/catalog/audio.ts: AudioConfigSchema", "js/hang/src/catalog/location.ts: LocationSchema", "rs/hang/src/catalog/root.rs: Catalog"]}
{"id": "C219", "title": "The Rust library reads the catalogs that a web page accepts", "statement": "Every catalog that the JavaScript library accepts can be read by the Rust library.", "quantifier": "every text", "why_tests_cant": "two schemas in two languages, and all texts", "anchors": ["js/hang/src/catalog/root.ts: RootSchema, decode", "js/hang/src/catalog/video.ts: VideoConfigSchema", "js/hang/src/catalog/audio.ts: AudioConfigSchema", "js/hang/src/catalog/location.ts: LocationSchema", "rs/hang/src/catalog/root.rs: Catalog"]}

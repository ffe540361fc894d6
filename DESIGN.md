# Formal model of moq-rs: design

Subject: `/repo/rs` (moq-lite transport, model layer, sessions, relay, tokens, hang media layer).
Tool: Coq 8.16.1, standard library only.  Sources in `rocq/theories`.

## Layout

* `Model/*.v`      executable Gallina model, one file per Rust module, every definition cites file and lines. No proofs.
* `Spec/*.v`       small specifications written without the model's helpers.
* `Proofs/*.v`     lemmas.
* `Properties/*.v` only theorem statements closed by `exact lemma`, `Print Assumptions`, and `Example`s showing
                   that a concrete non-trivial case meets the hypotheses.

Conventions.  Panics are explicit result values.  Integers are `N` (or `Z`), wrap-around is written as an explicit
`mod`, and where debug and release builds differ the model takes the arithmetic mode as an argument.  Bytes are the
256-element type `Byte.byte`.  A Rust `String` is its list of UTF-8 bytes.  Loops that are not structurally recursive
take fuel; running out is a separate result which is proved unreachable (or, for livelocks, proved to be the result
for every amount of fuel).

Async code.  A future is modelled by its poll: given the shared state it yields `Ready v` or `Pending` and the new
state.  Every critical section (a `watch` borrow/modify, a mutex-guarded block, an atomic) is one atomic step; a
concurrent execution is an arbitrary list of such steps by arbitrary handles, so "for all schedules" is "for all
lists of operations".  Functions with several critical sections are split into several operations.

## Plan per property

| id | what is modelled | how it is proved |
|----|------------------|------------------|
| C01-C03 | `VarInt` encode/decode/conversions on byte lists | arithmetic on the four length classes |
| C04-C06 | all message codecs over byte lists | a codec record with four laws (round trip, short on strict prefix, stable under extension, consumes), composed per message |
| C07 | encode as a list of `BufMut` calls with two interpreters, `Vec` and `Sizer` | induction on the calls |
| C08 | extension map with arbitrary iteration order | induction over the entry list, permutations |
| C09-C11 | `SessionInfo`, `usize` decode with word size parameter, `to_code` | case analysis; refutations by witness |
| C12-C13 | `Reader` over a list of chunks with a final event | simulation: reader state vs. remaining byte string |
| C14 | `Writer` loop over an oracle of accepted counts | induction on the oracle |
| C15-C18 | `serve_group`, `recv_group/run_group/run_frame` over Reader/Writer | composition of the above, induction on frames; cut = arbitrary prefix |
| C19-C25 | frame and group cells with any number of handles | trace invariants over arbitrary operation lists |
| C26-C30 | track cell with any number of handles | trace invariants; refutation by schedule |
| C31-C34 | broadcast table, request queue, cleanup tasks, clone counter | inductive invariant over all operation lists |
| C35-C37 | origin table, per-consumer queues, cleanup tasks | trace invariant relating queue to announcements |
| C38, C70 | setup handshake and stream dispatch | case analysis over decoded bytes |
| C39-C41, C46 | announce stream sender/receiver, session publish table | invariants over schedules; refutations by schedule |
| C42-C44, C47 | subscription table, group routing, `run_track` | invariants over schedules; refutations by schedule |
| C45 | `stream_priority` in both arithmetic modes | arithmetic |
| C48-C50, C76 | `Auth::validate`, path scoping | string lemmas; signature verification is an arbitrary oracle |
| C51, C69, C77 | a relay: two shared origins, two per session, forwarding tasks | invariant over all schedules built on the one of C35 |
| C68, C75, C78 | the HTTP interface: fetch path, response body with its wakers, list of broadcasts | string lemmas; simulation of a group reader of C23/C24 |
| C52 | key operations, algorithm names, times | case analysis |
| C53-C54 | the media writer and group readers over the group and track systems | exact state of every group as a function of the frames written |
| C55, C56, C79, C80 | the media reader over arbitrary answers of the moq layer | invariant over all polls; non-termination for all fuel |
| C57-C62 | codec string printers and parsers | decimal/hex printer-parser inverses; the AV1 pattern over arbitrary Unicode tables |
| C63 | catalog producer, its readers, `add_video`/`add_audio` and their cleanup tasks | trace invariant; accounting of every rendition asked for; a measure for coming to rest |
| C64-C66 | importer buffering and sample extraction | chunk-independence over an abstract box decoder; arithmetic |
| C67, C81-C84 | renderer state machine of the web player | invariant relating its state to the events seen; refutation by event order |
| C85-C87 | the table of sessions of a web page | invariant tying the table to the events; refutations for all continuations |
| C88-C91 | the web player: joining, catalogs, choice of tracks | invariant tying subscriptions to the events (in particular at most one track of a kind is held); refutations by event order |
| C92-C96 | the web publisher: encoders, broadcasts, who holds them | invariant tying producers to the events; injectivity of names |
| C97-C98 | rooms over an arbitrary session | trace invariant; string lemmas |
| C99-C103 | discovery and dialling of relays | trace invariant with an ownership map from sessions to tasks; refutations for all continuations |
| C104-C107 | certificates, fingerprints, URLs of native clients and servers | exact characterisation of total functions; the hash, validity and trust are arbitrary functions |
| C108-C110 | the GStreamer source | trace invariant; exact characterisation of panics |
| C111-C114 | catalogs and feedback as JSON text | a relation between texts and JSON values and between JSON values and catalogs; reader and writer proved to compute it |
| C115-C119 | key files and tokens as bytes | base64 as equality of bit strings; exact characterisation of accepted tokens for every authentication code |
| C120-C122 | location tracks | invariant over all interleavings of clones' `update` and readers' `next`; a shape per group tied to the call that is filling it |
| C123-C126 | the catalog of an imported movie | induction over the tracks; refinement to the importer of C64; names against the standards, bit by bit; composed with the JSON round trip of C111 |
| C127-C129 | one track over any tree of sessions | an invariant of the whole network: every node refines TrackSys, every link ties its streams to the groups its publisher was given and to the groups its subscriber made; contents by `hop_copy` and transitivity; convergence by induction over the tree; a run to rest is built link by link, each publisher polled once and the header of each waiting stream delivered |
| C130-C132 | a live media track: the media writer on the root of the tree of C127-C129, media readers on any copy | the writer's groups are `media_groups` of what was written (invariant over critical sections); each copy is a beginning of them (C127); each reader refines MediaRead with the frames it took as payloads |
| C133-C139 | audio in the browser: resampling and the worklet | the buffers hold what is left of the concatenated samples (induction over frames and over the rounds of the loop); the worklet's current frame, position and queue represent "what is to be played, and how many samples of it have been" (simulation) |
| C140-C143 | announcements over any network of origins, forwarding tasks and sessions | one invariant per link ("given = published + held + queued"), per session (sent, on the way, received; the table of the receiving loop) and per origin (active entries, cleanup tasks), proved for every step; at rest the queues are empty, which gives the equivalence by induction along the ways |
| C144, C145 | whole files through the importer | simulation between the importer's state and "header, tracks, pending fragment header" of the boxes so far; the remembered keyframe times are the latest recent keyframes of the history |
| C146 | the same network, without anybody using it | a weight for every origin, from the order of the links: queued announcements count for the weight of where they lead; every change makes the sum smaller |
| C147 | the same network, with a request passed back through it | induction on the way an announcement came (C142); at rest every hop finds what it showed |
| C148-C150 | the clock program with a system clock, timers of any delay and a subscriber | invariant over the groups with the times of their lines as ghost state; explicit runs of any length for the drift |
| C151, C152 | the GStreamer sink: properties, start, stop, render, poisoned locks | induction with the buffers since each start as ghost state; C64 for the cut into buffers |
| C153-C157 | the custom elements of hang-wasm: properties, attributes, observers, slots, clicks, the queue to the worker, the player behind it | invariant: messages taken and waiting fold to what was asked; worker runs as in Player (C88); contexts and canvases as ghost lists |
| C158-C165 | the JavaScript library at the other end: its reader, writer, messages, handshake, accept loop, group streams, media frames | each reader denotes a parser on the bytes still to come, whatever the pieces; parsers inverted against the Rust encoders and decoders; groups on top of C11-C13 |
| C166 | the live track of C130-C132 | invariant: the current group is that of the last frame shown, or that one was whole, or its first frame is buffered and late enough; finished groups are whole |
| C167-C169 | js/moq TrackProducer/TrackConsumer, GroupProducer/GroupConsumer over WatchProducer/WatchConsumer; promises settle and calls go on as operations of their own | invariants: per reader a mark in the history of the watch below everything awaited and above everything given; count of frames of the current group; up to date unless a group was added since the last chance to see it |
| C170-C172 | js/moq Publisher (publish, announcements, lookup) and AnnouncedProducer/Consumer | the queue is the history; the map is a fold over the history; number of unfinished publications at a path = published - taken back |
| C173, C174 | js/moq counting of consumers (watch.ts) and the cache of a consumed broadcast (subscriber.ts) | count = 1 + readers - calls of close |
| C175-C177 | the accept loops of moq-native and moq-relay | invariant: what is in the table of handshakes is what the events say |
| C178-C182 | js/hang Connection: attempts, timers, backoff | invariant per attempt between its state and the log; with one URL at most one of attempt, connection and timer exists |
| C183-C188 | js/hang Video: frame selection, lag, decoders | invariant: frames that came out = frames given back ++ the two held; every event checked against the log before it |
| C189-C194 | js/hang Audio: times of playing, rescheduling, AudioContexts | invariant between nodes, reference and log (reference only grows if never zero); every event checked against the log before it |
| C195-C198 | js/hang AudioEmitter: volume, mute, pause | invariant: muted iff the volume is zero, and the volume kept for unmuting is not |
| C199-C202 | js/hang publish Broadcast: cameras, microphones and screens | invariant: what records is what the page holds, as long as nothing changes while a request is pending |
| C203 | js/hang publish Audio: worklet and encoder effects | invariant: there is never a worklet |
| C204-C208 | js/hang watch Broadcast: announcements, consumption, catalog, status | invariants on what is open (listener, broadcast, catalog) and which catalog loops have not ended |
| C209-C211 | js/hang publish Chat and LocationPeer | invariant between the timer and the message that is seen; between the record and the open peers |
| C212-C215 | js/hang publish Video: cameras, encoders, groups | invariant between the shared group and an automaton over the log; late loops as part of the state |
| C216, C217 | js/signals: effects, memos and their cleanups | invariant between the computations and the runs that hold something |
| C218, C219 | catalogs between Rust and JavaScript | the schema of JavaScript evaluated on the printed tree, member by member; the text is that of C111 |

Everything else in the repository (TLS, QUIC, DNS, JSON, clap configuration, GStreamer and browser glue) is outside
the model.

## What is modelled, file by file

| file in /repo/rs | model | not modelled |
|---|---|---|
| moq/src/coding/{varint,encode,decode,size}.rs, message/*.rs | Coding, Message | `Debug`/`Display` output |
| moq/src/error.rs | ErrorCode | the text of errors; transport errors are one constructor |
| moq/src/session/{reader,writer,stream}.rs | Stream, Frame | flow control and priority of the transport |
| moq/src/model/{frame,group,track,broadcast,origin}.rs | FrameSys, GroupSys, TrackSys, BroadcastSys, OriginSys | tests, `assert_*` helpers |
| moq/src/session/mod.rs | Session | log output; the closing of the transport session |
| moq/src/session/publisher.rs | Publisher, Transfer | the `FuturesUnordered` fairness of `run_track` (C44 is per schedule) |
| moq-token/src/{key,algorithm,payload}.rs, moq-token-cli/src/bin.rs, moq-relay/src/auth.rs | Text, Auth | JSON and base64 of keys and payloads; the JWT library is an arbitrary pair of functions; files are an arbitrary function from names to keys |
| moq-relay/src/{connection,cluster}.rs, `OriginProducer::publish_prefix` | Relay | the wire between relays (a peer announces arbitrarily);  `Cluster::get` is two look-ups at two times |
| moq-relay/src/web.rs | Web | routing, percent-decoding, the certificate page, hyper's own reasons to poll a body |
| hang/src/model/{track,group,frame}.rs | Media, MediaRead | clones of one media writer; `closed` |
| hang/src/catalog/{video,audio}/*.rs | Text, Codec | JSON; the kinds of `ParseIntError`; the regex engine (the pattern is matched character by character) |
| hang/src/catalog/root.rs, hang/src/model/broadcast.rs | Catalog | JSON (an arbitrary pair of functions); descriptions and their `==` are arbitrary; `remove_*` by the user at broadcast level |
| hang/src/cmaf/import.rs | Import | the box decoder of `mp4_atom` (an arbitrary function); the codec descriptions made by `init_video`/`init_audio` (accepted or an error); the latency warning; the async reads of `init_from` |
| hang-wasm/src/watch/video.rs | Render | failures of the canvas calls, resizing; decoding and track selection; audio |
| hang-wasm/src/watch/{mod,audio,video}.rs, bridge.rs | Player | decoding (an audio or video frame is played or not; resampling and the worklet are Audio); descriptions are arbitrary values, a decoder accepts some of them |
| hang-wasm/src/publish/{mod,audio,video}.rs | WebPublish | choice of a codec, capture; a command is processed to its end |
| moq-relay/src/cluster.rs (`run` and what it calls) | Discovery | tokens, host name resolution (hosts are names); the exchange itself is Relay |
| hang/src/model/room.rs | Room | the session (announces arbitrarily) |
| moq-native/src/client.rs (`connect`, verifiers), server.rs (`ServeCerts`, `fingerprints`, URL of `accept_session`), moq-relay/src/web.rs L38-43, main.rs L42-50 | Native | TLS, QUIC, the HTTP fetch, PEM and key parsing: any outcome; generated certificates |
| hang-gst/src/source/imp.rs L139-341 | GstSource | GStreamer, the session; reading a track gives any answers |
| serialization of hang/src/catalog/*.rs and hang/src/feedback (derived `Serialize`, `Deserialize`, serde attributes), hang/src/catalog/root.rs `from_str`, `from_slice`, `to_string` | Json, CatalogJson | serde_json and serde_with are modelled by what they are known to do (their source is not in the repository): JSON values in any order, duplicate members refused, unknown ones ignored, arrays accepted for structs, `null` for `Option`, integers in range, hexadecimal; the limit of 128 nested values is never met (typed values nest at most eight deep, ignored ones have no limit); floating point conversion is an arbitrary pair of functions. Of two faults in one text the code may report another one first, or panic only at the first: values accepted are the same |
| moq-token/src/{key,payload}.rs as bytes, moq-token-cli/src/bin.rs (`sign`, `verify`) | Base64, Token | jsonwebtoken 9, base64 and serde_with are modelled by what they are known to do; HMAC, what jsonwebtoken makes of the claims nbf, iss, aud, of claims that are an array, of `jwk` in a header and of an expiration before 1970: arbitrary; fractions of seconds |
| hang/src/model/location.rs | Location | `reflect` (it is `next` and `update` in turn); floats are their 32 bits; through the public `track` only groups of at most one frame are put |
| hang/src/cmaf/import.rs `init`, `init_video`, `init_h265`, `init_audio` | ImportCodec | the boxes of mp4_atom are records of the fields read; what `encode_body` returns is part of a box |
| moq/src/session/publisher.rs, subscriber.rs, model/track.rs together | Net | sessions other than their subscriptions (Sessions, SubscriberSys); a cancelled stream may still deliver what was written later; frames of the application have one writer |
| hang/src/model/track.rs on top of the sessions | Live | nobody else writes to the track; fewer than 2^64 groups; the readers' clocks (latency budgets only) |
| hang-wasm/src/watch/audio.rs, hang-wasm/src/worklet/index.ts | Audio | decoding; the rubato crate (an arbitrary function of all it was given); `post_message` succeeds; samples are bit patterns |
| announcements through several programs: moq/src/model/origin.rs, moq/src/session/{publisher,subscriber}.rs together | Spread | composed of OriginSys, Publisher, ReceiverSys; applications keep their producers of origins; a session is one announce stream; a failing session loses what is on its way; broadcasts are numbers with a closed flag (their tracks are in Net) |
| asking for a track through several programs: moq/src/session/subscriber.rs:126-162, publisher.rs:131-139 | SpreadAsk | on top of Spread: one request, in a state at rest; what the tracks then carry is Net (C127-C132) |
| moq-clock/src/clock.rs | Clock | the text of dates (an arbitrary function of the minute); `sequence` does not overflow (8000 years); the session between publisher and subscriber (Net) |
| hang-gst/src/sink/imp.rs L22-178 | Sink | GStreamer; gstreamer-rs is modelled by what it is known to do (it catches panics of `start`, `stop`, `render` and then no longer calls them; a panic in a property function aborts); the session after `publish` |
| hang-wasm/src/watch/index.ts, src/bridge.ts, src/publish/index.ts | Element | the DOM is modelled by its documented behaviour: `transferControlToOffscreen` throws the second time, `gain.value` throws if not finite, an `AudioContext` made before a gesture is refused or suspended (the choice is an argument); parsers of URLs and numbers are arguments; numbers are integers, infinities or NaN; getters; the preview of the publishing element |
| js/moq/src/wire, js/moq/src/connection.ts (handshake, `#runBidis`, `#runUnis`), runGroup in subscriber.ts and #runGroup in publisher.ts, js/hang/src/container/{frame,vint,position}.ts | JsWire | numbers are naturals, strings their UTF-8 bytes; the text a `TextDecoder` makes of bytes that are not UTF-8 and the rounding of a bigint are arguments; the session of publisher.ts and subscriber.ts (announcements, subscriptions, tracks), js/signals, js/hang/src/{watch,publish,catalog} |
| js/moq/src/track.ts, group.ts, util/watch.ts (next, update, close) | JsTrack | one call per reader at a time; group numbers below 2^53; a refused insertGroup's group is not followed; counting of consumers is JsHold |
| js/moq/src/publisher.ts (publish, #runPublish, runAnnounce, lookup of runSubscribe), announced.ts | JsPublish | broadcasts are numbers; the stream of announcements is JsWire; abort of the queue is left out |
| js/moq/src/util/watch.ts (consume, unsubscribe, unused), subscriber.ts (consume, #runSubscribe), broadcast.ts (subscribe, insertTrack, removeTrack) | JsHold | one track; the broadcast stays open meanwhile |
| moq-native/src/server.rs L140-161 (`accept`), moq-relay/src/main.rs L40-63 | Accept | the handshake is an event with a result; `validate` is a parameter, instantiated with Auth where it matters |
| js/hang/src/connection.ts | JsConnect | browsers without WebTransport; the attempt itself is JsWire; solid-js is modelled by its documented behaviour |
| js/hang/src/watch/video.ts (Video) | JsVideo | what decoders are fed (any frames may come out of them); VideoRenderer; rounding of doubles |
| js/hang/src/watch/audio.ts (Audio) | JsAudio | choice of track; suspended AudioContexts; reuse of buffers; `close`; rounding of doubles |
| js/hang/src/watch/audio.ts (AudioEmitter) | JsEmitter | the GainNode; `close`; other code that sets `source.enabled` |
| js/hang/src/publish/broadcast.ts (capture) | JsCapture | constraints; `#runCatalog` and publishing (58-80); the user ending the sharing of a screen; a stream with more than one track of a kind |
| js/hang/src/publish/audio.ts (70-149) | JsMic | the encoder, its groups and samples, which are never reached (C203) |
| js/hang/src/watch/broadcast.ts | JsWatch | the mode without `reload`; `close`; the `user` memo; announcements that a closed listener still yields |
| js/hang/src/publish/chat.ts | JsChat | `enabled` and the catalog; late timers |
| js/hang/src/publish/location.ts | JsPeers | the positions; `enabled` |
| js/hang/src/publish/video.ts:81-178 | JsEncode | errors of the encoder; when key frames are asked for; the choice itself; `#decoderConfig` and the catalog made of both |
| js/signals/src/index.ts:78-171 | JsSignals | values, batches, `nest`; making effects after `close`; solid-js itself is taken to run cleanups as it documents |
| js/hang/src/catalog/{root,video,audio,track,location}.ts | JsCatalog | zod is modelled from its documentation; escaped keys; numbers with sign or exponent count as not whole; user, chat, capabilities |
| hang-wasm/src/connect.rs | Pool | the attempt itself (TLS, certificate hash); URLs are byte strings |
| moq/src/session/subscriber.rs | ReceiverSys, SubscriberSys, TrackUse, Transfer | `run_track` streams are one step that succeeds or fails |

Simplifications are stated in the comment of the definition concerned.

## Where the code disagrees with what a user would expect

Every entry is a `_refuted` theorem with a witness in the model, beside the strongest positive statement found.

* C09: a session bitrate of `Some(0)` is received as `None`.
* C10: on 32-bit targets a `usize` is decoded modulo 2^32.
* C11: application error codes in the top 64 of `u32` wrap round to library codes (panic in debug builds).
* C18: on 32-bit targets a declared frame size of exactly 2^32 reads zero bytes for ever.
* C21: every clone of a frame producer counts the bytes written by itself only, so clones together can exceed the size.
* C29: a finished track reports its end in place of a newest group not yet read.
* C30: `append_group` by two clones can panic (the number is read and used in separate critical sections); debug
  builds panic at sequence 2^64-1, release builds wrap to 0 and panic.
* C36, C46: the cleanup of a broadcast that ended removes whatever is registered at its path, including its
  replacement; until its cleanup ran, an ended broadcast is still served.
* C37: an announcement between the two critical sections of `OriginConsumer::clone` never reaches the clone.
* C38: a client accepts whatever version the server answers.
* C39: a broadcast replaced before its end was noticed is announced twice and then reported ended while live.
* C40: a path announced again before the cleanup of its predecessor ran makes the receiver drop the announce stream
  with `Duplicate`.
* C41: the receiver registers announcements by suffix and then filters by the full prefix: with a non-empty prefix
  announcements do not reach the user, and subscriptions ask for the suffix only.
* C43: a group arriving between the end of a track and the removal of its entry trips `assert!(closed.is_none())`
  while the table of subscriptions is locked.
* C45: stream priority orders track priority and recency in opposite directions, ranks priorities from 128 lowest, and
  overflows in debug builds from sequence 2^24.
* C47: the cleanup task of a requested track holds a consumer until the track ends, so `unused` never fires and an
  upstream subscription nobody reads is never cancelled.
* C49: `Auth::validate` panics on every URL whose last component ends in `.jwt` when no key guards its directory.  It
  is called on the relay's main task (moq-relay/src/main.rs:43), so one such connection stops the relay.
* C50: the directory of the key, the token's path and its scopes are concatenated without separator and compared as
  string prefixes, so a token of the key of `demo` with an empty scope reaches `demo2/…`; a token of the root key can be
  used below any directory that has no key of its own.
* C54: the media writer does not refuse a first frame that is no keyframe; it is read back flagged as one.
* C55: `buffer_frames_until` takes the frames it buffered out of the buffer again: unless the first frame of a pending
  group already reaches the cutoff, it turns for ever without ever waiting, and the thread with it.  With a latency
  above zero this is ordinary playback.
* C58: H.265 names are printed with unpadded compatibility bytes (0x0106 comes back as 0x16 without an error) and with
  an empty part when all constraint or all compatibility flags are zero, which does not parse: a catalog received with
  `hev1.1.6.L93` cannot be published again.
* C60: AV1 profile 2 (Professional) is printed and then refused.
* C61: an `avc1` name is cut into pairs of bytes without looking at character boundaries: `avc1.€€` in a received
  catalog panics.
* C62: `Unknown("vp8")` and the like come back as the known codec.
* C63: a rendition is removed from the catalog by value: when one of two tracks with equal descriptions ends, both
  entries go although one track is live; a description with a floating point NaN (frame rate, rotation) never equals
  itself and stays listed after its track ended; after `finish` a reader is told of the end in place of the newest
  catalog.
* C64: only if the box decoder takes a box of size 0 to be all the bytes at hand (what `mp4_atom` does is not in the
  repository): then the result depends on the chunks.  Otherwise chunking never matters.
* C65: `base_data_offset` is a position in the file but is used as extra distance into the media data, and without a
  data offset a run starts at the media data rather than at the `moof`; in release builds an offset that wraps around
  is accepted, and a presentation time before zero becomes a huge one.
* C66: importing panics on a timescale of 0, on a data offset pointing into the header of the `mdat`, on audio whose
  time goes back, on times from 2^62 microseconds, and in debug builds on presentation times before zero and on sums
  that overflow.
* C79: `max_timestamp + latency` panics when it exceeds `Duration::MAX`.
* C80: after an error of the current group every later `read` fails the same way; newer groups are never played.
* C69: what a peer that dialled this relay announces counts as local and is announced to the peers this relay dialled,
  so two relays that dialled each other announce each other's broadcasts back.
* C75: `poll_frame` makes a new future on every poll and drops it, and with it the registered waker: a response polled
  while its group is being written is never woken by the writer (it continues only if something else polls it).
* C77: the tasks announcing to a session read from the relay's own origins and never look whether the session is still
  there: every session ever accepted with a subscribe scope leaves two tasks and an origin behind.
* C71: aborting a clone of a frame, group or track overwrites an earlier finish.
* C73: `consume` never enters the broadcast it makes in the table it looks in.
* C76: without a root key the URL `/demo` grants everything starting with `demo`, although `demo` has its own key (the
  last component of the path is never looked up as a directory).
* C78: the list of broadcasts is joined by newlines: a path containing a newline looks like two, and no broadcast looks
  like one at the prefix itself.
* C74: broadcasts announced on a stream stay open after that stream ends or fails, until the session closes.
* C67: pausing empties the queue but not the request for a callback: pause and resume (or pause and a change of latency)
  between two animation frames ends in the panic `rendered with no frames`.
* C82: `set_latency` sets the state to buffering, also when paused: frames are shown again.
* C83: the state starts as idle, not as playing: although `Paused` is documented to default to false, nothing is shown
  until the page sends `Paused(false)` or a latency.  A latency sent after the frames does not ask for a callback.
* C84: lowering the latency does not drop the frames that became too old until the next frame is decoded.
* C86: the error of a failed attempt stays in the table of sessions: that URL can never be connected to again.
* C87: the table holds a receiver of every session, so `tx.closed()` never fires and no session is ever closed.
* C89: the player compares tracks by name and priority only. After joining another broadcast that has such a track it
  goes on playing the old broadcast; a catalog that changes the description of the track is ignored.
* C90: `Connect(None)` does not stop playback, and `Live` is reported after `Disconnected`; after a broken catalog the
  status is `Error`, playback goes on and later catalogs are not read.
* C91: `strip_prefix("/").unwrap()` runs before the result of connecting is looked at: a URL such as `data:x` crashes the
  player.
* C92: frames are encoded as soon as there is an encoder, also before connecting.
* C93: the publisher joins the room named by the path and publishes under the same path again: `/a` gives `aa`, while
  the player of `/a` asks for `a`.
* C94: the broadcast made by connecting is not kept, so it ends at once if no encoder exists, and encoders made later
  write to a track that is in no broadcast.
* C95: an encoder's track stays in every broadcast it was ever added to; `Connect(None)` or another URL does not remove it.
* C97: `Room::publish` keeps a set of names: of two own broadcasts with one name the first one closed un-hides the
  other, and the echo of an own broadcast read after its close is shown.
* C98: rooms are string prefixes: room `a` contains everything published in room `ab`.
* C101: `run_remote` drops its session handle when the origin is withdrawn, but the session runs on in its own tasks; if
  the relay is announced again, a second session is opened.
* C102: `run_root` does nothing, although the note in `run_leaf` says that the root will connect to all other nodes, and
  a leaf only announces itself to the root: root and leaves never exchange broadcasts.
* C103: `run_leaf` returns when the root cannot be reached (and the task panics, unseen) or its session ends; nothing
  tries again, and relays announced later are never found.
* C104: `/certificate.sha256` serves only the first fingerprint (web.rs L38-43) but the server presents the certificate that
  matches the name the client sends (server.rs L286-300): with two certificates a client of the http URL of the second is
  refused.
* C105: certificates are only read as PEM when the server starts; one that webpki cannot parse panics the handshake of every
  client that sends a name not covered by an earlier certificate (server.rs L294, `expect`).
* C106: `moql://` URLs pass the check of the scheme (client.rs L156-161) but then the scheme is compared with
  `moq_lite::ALPN`, which is "moql-00" (L189-193): `unreachable!()`.
* C107: for plain QUIC the server rebuilds the URL from the server name alone (server.rs L198-202), so path and token are
  lost: nobody gets in where the root has a key, and where it has none everybody gets everything, including directories with
  a key of their own.
* C108: the first buffer of a track has the frame's own time, the following ones the time since the first
  (hang-gst/src/source/imp.rs L226-235, L319-328).
* C109: no EOS event is sent when a track ends, an error panics the task (L222, L315), a frame earlier than the first panics
  in the subtraction of durations, `cleanup` (L349-351) is empty and the tasks go on pushing.
* C110: codecs other than H.264, AAC and Opus panic (`unimplemented!`), also a name used by an audio and a video track.
* C111: `serde_json` writes `null` for a floating point number that is not finite: a frame rate (video/mod.rs) comes back as
  none, a position (location.rs) makes the whole catalog unreadable. Names of codecs as in C58-C62: an unknown codec called
  "vp8" is read as VP8.
* C113: a catalog or feedback from anybody with the codec name "avc1.0éabc" panics its reader (`H264::from_str` cuts the
  string at bytes 2 and 4).
* C114: as C111 for codecs.
* C118: `Validation::new` has a leeway of 60 seconds, which key.rs L94-95 keeps.
* C119: `moq-token sign` ends its output with a line break, `moq-token verify` reads all of its input as the token
  (bin.rs L95, L100): `sign | verify` always fails.

* C121: `LocationProducer` is `Clone`, but `update` appends the group and stores `latest` in separate steps (location.rs L82,
  L93): with two clones `latest()` may stay at the position that was overtaken.  Both may also take the same group number, and one
  panics (track.rs L101).
* C122: a `next` dropped after it has found a group, while the frame is not there yet, loses that position: the track's consumer
  has moved on (location.rs L41-L46).  A position published just before `finish` is not delivered: `next_group` looks at the end
  first (track.rs L167).

* C123: a header with a track that is refused leaves the tracks before it published (import.rs L78-L103).  The rate of AAC is
  taken from the 16 bits of the sample entry, not from the decoder configuration, so 96 and 88.2 kHz are never right (L305).
* C124: two tracks with one id, or a second `moov`, get one name twice; the first track is replaced in the broadcast.
* C125: the compatibility flags of H.265 are printed with their bytes reversed but not their bits, so no general profile gets its
  standard name: Main is `hvc1.1.60.L93.B0`, not `hvc1.1.6.L93.B0` (h265.rs Display).  AV1: the tier is always printed `M`
  (import.rs L218), and the bit depth is computed from the tier instead of `twelve_bit` (L207-L212).
* C126: without constraint flags an H.265 name ends in a dot (`hvc1.1.60.L93.`) and is refused by the parser, and with it the whole
  catalog; so is profile 2 of AV1, since the expression allows 0 and 1 only.  Bytes of flags below 16 are printed without their
  zero and read as others.

* C129: the publisher ends a subscription when the transport has acknowledged the streams of its groups, not when they have been
  read; the subscriber forgets the subscription as soon as it reads that end (subscriber.rs L144-L147, L180-L183), and a group stream
  whose header it reads afterwards is refused (L217).  So a finished track may lose its last groups with nothing having failed.  The error of an aborted track is
  replaced by `Cancel` at every session (subscriber.rs L172-L175).

* C132: a publisher that has two newer groups gives up the oldest one it is sending (publisher.rs, `run_track`), and the copy of
  that group ends with an error.  A media reader that is in this group gets the error from `read` (hang track.rs L83-L112) and keeps the
  group, so every later `read` fails as well: a viewer slower than two groups is stuck although the newest group is on its machine.

* C134: `Audio::resample` makes its resampler for the first frame it ever gets (audio.rs L124-L137) and neither `reinit` nor
  `set_worklet` drops it.  A later track or worklet with another rate is resampled with the first ratio, i.e. played at the wrong
  speed; what is left of the old track is played before the new one; a track with more channels loses them; with fewer, `append_to`
  fails, the track is given up and, since the first buffer has then been filled, the channels are out of step afterwards.
* C135: a resampled message has the time of the frame that completed its chunk, not of its first sample.
* C138, C139: the worklet copies channel to channel (a mono track is heard on the left only; an `AudioWorkletNode` made as in
  watch/index.ts has one output channel, so of a stereo track only the left is heard), and it ignores timestamps.
* C141, C142: an origin may be given a path twice: by an application, or through two ways.  The origin tells its consumers of both
  (origin.rs L80-L91).  A session then sends `Active` twice, and the receiving side takes the second for an error: its loop ends with
  `Duplicate` (subscriber.rs L86-L88) after the origin has already replaced the entry by a broadcast that is closed at once.  The
  session stays open.  So the path is gone at the peer although it is still published twice, nothing published later arrives there, and
  broadcasts that end later are still found there and not closed, since nobody reads `Ended` any more.
* C146: `publish` announces a path also when it is already there (origin.rs L14-L29), so two origins forwarding everything to each other
  pass one announcement round for ever, and each round adds a cleanup task that stays until the broadcast ends.
* C147: a session asked for a prefix is told suffixes and also asks its peer for the suffix, not for prefix and suffix
  (subscriber.rs L85-L92, L141-L162), so the peer looks up another path than the one it announced.  Mostly nothing is there; in
  `C147_refuted` it is another broadcast: "mmx" under "m" is announced as "mx", and "mx" is what is then delivered for it.
* C148, C150: `send_segment` compares minutes of the hour (clock.rs L61), so a group that goes on an hour later is continued under the
  old hour; the seconds printed may then go back.
* C149: `run` takes the ends of its sleeps for the time (clock.rs L39) and never reads the clock again: delays add up without bound.
* C152: `setup` keeps `settings` locked while it connects (sink/imp.rs L148) and panics without a URL or connection: the lock is
  poisoned, and the next `set_property` (for example to set the missing URL) panics outside of what gstreamer-rs catches.
* C144: a video keyframe makes the next audio frame a keyframe only for the audio tracks of the header in force (import.rs L463):
  with a header in between that lacks the audio track, audio cannot be joined at that video keyframe.
* C154: visibility of the canvas and of the page both set the one property `visible` (watch/index.ts L148-152, L171-173):
  an element scrolled away downloads video again after the tab was hidden and shown.
* C155: removing a slotted canvas displays the fallback, which was handed over when the element was made;
  `transferControlToOffscreen` throws (watch/index.ts L42-46) and the player goes on drawing on the canvas removed.
* C156: `initAudio` may be called again by the page; the worklet that loads last is fed, the volume is that of the context made
  last (watch/index.ts L52-76). Browsers that make a suspended context instead of throwing never resume it: the
  click listener is installed only after an exception (watch/index.ts L177-184).
* C157: `<hang-publish no-video>` publishes video, as `!""` is true (publish/index.ts L92-95); device, video and audio
  are never told to the worker.
* C158, C159, C163: the priority of a subscription and of its acceptance is one byte in Rust (rs/moq/src/message/subscribe.rs)
  and a variable-length number in JavaScript (js/moq/src/wire/subscribe.ts L11, L15, L63, L67). They agree below 64
  only. Rust subscribes to every catalog with priority 100 (rs/hang/src/catalog/root.rs L64): a JavaScript endpoint waits
  for one more byte, and as it reads the streams one by one (connection.ts L177-193) no later
  request of that session is looked at. A JavaScript subscription of priority 100 is read as 64 with a byte left over, on
  which the Rust publisher fails as it expects the end.
* C158: `TextDecoder` drops a byte order mark in front, so such a path or track is another one for JavaScript.
* C164: js `setVint53` refuses large numbers but not negative ones: a chunk with timestamp -1 is written as the byte 0xff
  with the payload run into its number. Rust timestamps above 2^53 are rounded by JavaScript.
* C165: JavaScript writes and reads positions as JSON (js/hang/src/container/position.ts), Rust as 12 bytes
  (rs/hang/src/model/location.rs): no position is understood by the other.

* C168: js/moq/src/util/watch.ts:165-176: `next` sets its epoch to the current one but returns the value it was woken with. If two groups are
  added in one turn, a waiting reader is given the first of them and regards the second as seen. It waits in the first one, although
  the second one has frames, until a third is added (`C168_refuted`).
* C169: a reader that is one group behind when the track is closed is told the end and never given the newest group: `close` makes the
  empty value the current one (track.ts:69-72), and only the current one is looked at (`C169_refuted`). Closing a reader while
  a frame is there for its pending `nextFrame` makes that call throw "impossible" (track.ts:176-178) (`C169_leave_refuted`).
* C171, C172: js/moq/src/publisher.ts:66-75: when a published broadcast is closed, whatever is published at its path is deleted from the
  lookup and announced as ended. A broadcast that took its place is then lost though it is open (`C171_refuted`). This happens even if
  the old one was closed first, because the cleanup runs later (js/hang/src/publish/broadcast.ts:75-76 closes and publishes anew
  in one turn when its effect reruns). Publishing twice announces `active` twice (`C172_refuted`); a Rust peer ends the session on that (C40).
* C173: `close` of a reader may be called twice and counts twice (js/moq/src/util/watch.ts:207-210). The reader of locations does so
  (js/hang/src/watch/location.ts:76, 79, 108: three times). When two of three readers leave, the third one's track ends (`C173_refuted`).
* C174: js/moq/src/subscriber.ts:98-100 says that the reader in the cache "doesn't count as an active consumer", but
  `track.consume()` counts it (watch.ts:105). A subscription whose readers are each closed once is never given up (`C174_refuted`); the data
  keeps flowing until the connection ends. The same holds of the cached broadcast (subscriber.ts:113).
* C176: with C49 above, one client of a relay with a public directory ends the relay for all (`C176_refuted`).
* C177: moq-native/src/server.rs:152 makes a new `ctrl_c()` in every round of the loop. A signal that comes between two rounds, or
  in the same moment as a client (the `select!` then takes either), is lost: the handler is installed, so the process is not killed,
  but the listener that heard of it is dropped (`C177_refuted`). On a busy relay ctrl-c has to be pressed several times.
* C179: js/hang/src/connection.ts:75-91 reconnects only in `catch`. When the peer closes the session in an orderly way `closed()` resolves: no
  reconnect, `established` keeps the dead connection and `status` stays "connected" (`C179_refuted`).
* C180: the timer of line 85 is not cleared when the URL changes; it then closes the new connection and connects again (`C180_refuted`).
* C181: an attempt that was under way when the URL changed goes on: if it succeeds it replaces the connection to the new URL
  (`C181_refuted`), if it fails it removes it from `established` without closing it (`C181_hidden_refuted`).
* C182: an attempt under way when `close` is called leaves an open connection that nothing closes (`C182_refuted`).
* C185: `!this.#ref` (js/hang/src/watch/video.ts:257) takes a reference of exactly zero for none; the next lag is 0 whatever it should be
  (`C185_refuted`).
* C186: `#ref` is kept when the track or broadcast changes. If the publisher starts again with smaller timestamps, the lag is the difference
  of the clocks for ever: the loading icon stays (video.ts:103) and every frame that can be is passed over (`C186_refuted`).
* C187, C188: `#init` returns its cleanup function (video.ts:245-248), which `effect` ignores with a warning (js/signals/src/index.ts:92-100).
  So decoders and subscriptions of earlier tracks go on until their tracks end: their frames are mixed with those of the new track
  (`C187_refuted`), a disabled player goes on downloading and showing (`C187_stopped_refuted`), and after `close` frames are kept and
  shown (`C188_refuted`).
* C189-C191: `!this.#ref` and `if (this.#ref)` (js/hang/src/watch/audio.ts:232, 304) take a reference of zero for none. It is then replaced by a
  smaller one: a pause (`C190_refuted`), samples played too late (`C189_refuted`) or twice (`C191_refuted`).
* C192: `#ref` never gets smaller (audio.ts:232-256) and is kept when the track or broadcast changes. If the publisher starts again with
  smaller timestamps every sample counts as late: silence until the player is made anew (`C192_refuted`).
* C193: disabling calls `stop()` (audio.ts:138-140), which runs `onended`, which schedules the sample again if its time has not come
  (304-311): it is played although the player is disabled (`C193_refuted`). `onended` removes the first active node instead of itself (301, the
  comment there doubts it): after a rescheduling a node may be missing from `#active` and is not stopped (`C193_missed_refuted`).
* C194: the effect that makes the AudioContext returns its cleanup function (audio.ts:164-168), which is ignored: one more AudioContext each
  time the player is enabled or the rate changes, and none is closed (`C194_refuted`).
* C196: the effect of js/hang/src/watch/audio.ts:46-56 runs in the constructor and sets the volume to 0.5, whatever `props.volume` is
  (`C196_new_refuted`). When a volume is set while muted, the effect of line 59 unmutes and that one sets the volume to the one kept from before
  (`C196_refuted`).
* C198: the same effect also sets `source.enabled`. Unmuting starts the download of what is paused (`C198_refuted`), which is so by default for
  what starts muted; muting stops it (`C198_muted_refuted`), against the comment in lines 27-28.
* C199: the `then` of js/hang/src/publish/broadcast.ts:100-103 (and 125-128, 170-175) sets the media whether or not the effect was cleaned up
  meanwhile. Permission given after `close()` turns the camera on, and no later call turns it off (`C199_refuted`); the same after the device is
  deselected (`C199_deselect_refuted`).
* C200: for the same reason, video that is disabled and enabled again while the browser asks leads to two recording cameras, of which closing
  stops one (`C200_refuted`).
* C201: a screen is asked for with picture and sound (broadcast.ts:158-160), and both are kept, whichever is enabled (`C201_refuted`).
* C203: js/hang/src/publish/audio.ts:81-82 leaves the effect that makes the worklet unless there is a worklet already. `#root` is set nowhere
  else, so that a web page never publishes audio (`C203_refuted`, `C203_never`).
* C204, C205: `#active` is not reset when the effect of js/hang/src/watch/broadcast.ts:71-104 is cleaned up (only the mode without `reload` does, in
  line 76). After a reconnect or a change of path, the page consumes at once what was not announced (`C204_refuted`, `C204_path_refuted`). When
  that fails, because the publisher is not back yet, a later announcement sets `#active` to what it was already and nothing runs: the page stays
  offline (`C205_refuted`).
* C207: the `finally` of an old catalog loop (broadcast.ts:146-149) runs after the effect has started the next one, and says offline while that
  is being loaded (`C207_refuted`). C208: until then the old catalog is shown for the new broadcast (`C208_refuted`).
* C209: a `ttl` of zero, which is "provided", keeps messages for ever (js/hang/src/publish/chat.ts:63, `C209_refuted`).
* C211: two peers with one handle share an entry of the record and a track, and closing either removes both
  (js/hang/src/publish/location.ts:112-119, `C211_refuted`). `memo` runs its function once outside of the effect (js/signals/src/index.ts:83), so the
  cleanups of that run wait until the peer is closed: a peer that has changed its handle, when closed, removes the entry of the peer that has its
  first handle by then (`C211_moved_refuted`).
* C213, C214, C215: a camera that is replaced while the configuration for it is being chosen (js/hang/src/publish/video.ts:153, up to some twenty
  asynchronous questions) still runs lines 154-177 afterwards. It sets `#encoderConfig` to its own (`C215_refuted`), calls the video inactive
  (`C214_refuted`), and ends the group of the new camera, whose frames are then lost with "no keyframe" until the next key frame (`C213_refuted`).
  Until then, a camera that was taken away counts as active (`C214_off_refuted`).
* C216: `memo` calls its function twice when it is made (js/signals/src/index.ts:83 and 85). What the first call takes is held until the whole
  group is closed (`C216_refuted`, `C216_memo_exact`): for instance a second subscription, if the function subscribes
  (js/hang/src/watch/chat.ts:45-57).
* C218: a web page refuses the whole catalog of a Rust publisher if the frame rate is not whole (`z.uint32` in js/hang/src/catalog/video.ts:26,
  `f64` in rs/hang/src/catalog/video/mod.rs; `C218_refuted` with 29.97), if a bitrate is 2^32 or more (`C218_bitrate_refuted`), or, if
  `skip_serializing_none` has no effect on the location, if that has no initial position or no updates (`C218_null_refuted`). The importer of movies sets none of
  these, so its catalogs are accepted (`C218_import`).
* C219: the Rust library refuses the whole catalog of a web page that shares the locations of its peers, whose names are no numbers
  (js/hang/src/catalog/location.ts:38 against the `HashMap<u32, Track>` of rs/hang/src/catalog/location.rs; `C219_refuted`), or that has a
  priority above 255 (`C219_priority_refuted`). Also, what JavaScript calls `scale` and `peering` is unknown to Rust, and what Rust calls
  `zoom` and `handle` is unknown to JavaScript; each ignores the other's.
Smaller observations, not counted as properties: a frame aborted after all its bytes were written is received as
finished; `Reader::finished` would take an empty piece for data (the transport never yields one); the session stream
is decoded as `SubscribeOk` although `SessionInfo` exists (same shape on the wire is not guaranteed; C72 covers every
byte sequence); a session that may both publish and subscribe is told of its own broadcasts; the errors of control streams reach the peer as code 0 when the stream type itself is unknown.

## Trusted base

* Coq's kernel.  `Print Assumptions` follows every theorem in `Properties/*.v` and prints `Closed under the global
  context` for each of them: no axiom is used, of the standard library or otherwise.
* The reading of the Rust source; citations accompany every definition.
* Runtime behaviour taken as given: `tokio::sync::watch` (value/version/closed semantics), `mpsc`, `async_channel`,
  mutex atomicity, `tokio::select!`, `web_transport` (ordered reliable streams; `write` writes everything), HashMap as
  a finite map with arbitrary iteration order, JWT verification as an arbitrary oracle.

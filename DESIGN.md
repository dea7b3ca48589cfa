# Design of the Rocq model of funkiben/Rust-HTTP

The plan per property was written before the proofs and has been extended as properties were added.

## Modelling approach

* Bytes are `ascii` (exactly the 256 byte values); Rust `String`/`&str` are byte lists that are valid UTF-8 (a computable predicate; C56 proves it is the UTF-8 of RFC 3629; `String::pop` pops a whole character).
* The input side of a connection is a list of *read events*: a non-empty piece of data, end of stream, or an error of some kind (would-block, interrupted, ...). An exhausted list reads as would-block. Every theorem quantifies over all such lists, so the sizes of the pieces are covered by nondeterminism; the read buffers themselves are in `Model/Buffered.v`, and C71 proves that a connection with them behaves as one without them.
* `error_take` is a stack of remaining limits on top of the event list.
* Every parser is a Gallina function of its state, the limit stack and the events, with outcomes `PDone | PIo state kind | PErr error | PPanic`. Loops run on fuel computed from the stream; running out would show as the error kind `ModelFuel`, which C05 proves unreachable. The build profile (debug: subtraction underflow panics; release: wraps) is an explicit argument `dbg`, and theorems quantify over it.
* The output side is a list of *write events* (accept up to n bytes, fail with some kind).
* Concurrency (thread pool, per-connection mutex, edge-triggered polling, client connection pool, file cache) is modelled as labelled transition systems; theorems are about all runs, by induction.
* Specifications live in `Spec/*.v` and do not mention the stateful parsers, sockets or locks.
* `Properties/*.v` hold the theorems named after the properties (`Cnn_...`), each followed by `Print Assumptions`, with an `Example` that a non-trivial case meets the hypotheses. `Proofs/*.v` hold the lemmas.

Where the code does not have a property one would expect, this is proved as a `..._refuted` theorem about the model (for whole families of inputs where possible), next to the strongest positive statement that does hold, and the statement in properties.jsonl says both.

## Layers

| files | what |
|---|---|
| `Model/Bytes, Io, Common, Parse` | bytes, streams and limits, header tables and maps, all parsers |
| `Model/Encode, Writer, Server` | writing messages, the non-blocking writer, one server connection |
| `Model/Generic, Buffered` | the parsers over any reader; readers with a buffer, and the server's and client's connections on them |
| `Model/Slab, Poll, Pool, Handlers, Whole, Full` | slab, poll loop, thread pool, handlers on workers, all connections with their contents, and these with the poll loop |
| `Model/Router, Files` | routers; the example program |
| `Model/Client, Locks` | the client; threads sharing a client |
| `Spec/Batch, Grammar, Numerals, Names, Unicode, Wire` | reference parser, message grammar, numerals, multimaps, UTF-8, writable messages |
| `Spec/Stream, Drive, Output, Session, Exchange, Dialogue, Buffering, World` | streams, drivers, written bytes, server sessions, client exchanges, client with server, clients with the whole server |
| `Spec/Slots, Routes, Jobs, Traces, Sharing, Tree, Arrivals` | histories of slab, routers, pool, handlers, client threads, file trees, whole server |


## Plan per property

* **C01** Request parsing does not depend on how the bytes arrive. `Spec/Batch.v` gives a one-shot parser on a flat byte list (`Complete v rest | Incomplete waiting | Bad e`). The stateful parsers are modelled call by call over an event stream. Per-call simulation lemma: for a state st, Done/Err agree with the batch parser continued from st, and a blocked call shifts the continuation by the consumed bytes. Multi-call theorem by induction on the event list.
* **C02** Response parsing does not depend on how the bytes arrive. Same development, instantiated with the status-line parser and the until-EOF body.
* **C03** A finished parse consumes exactly its own message. Part of the same simulation: `Complete v rest` with `rest` = bytes left in the stream.
* **C04** Accepted requests are exactly the HTTP/1.x grammar the library documents. Inductive wire grammar in `Spec/Grammar.v`; batch parser sound and complete w.r.t. it; combined with C01.
* **C05** Parsing always terminates. All loops are modelled with fuel computed from the stream; theorem: the out-of-fuel outcome is unreachable.
* **C06** No line longer than 512 bytes is ever accepted. Invariant |held line| <= 512 over all call histories; bound on the returned line. For all reachable parser states: invariants in `Proofs/ReachedFacts.v`, theorems in `Properties/Reached.v`.
* **C07** Messages within the size limits are never refused for size. Budget predicate on flat bytes; invariant relating remaining budget of the state to remaining bytes. For all reachable parser states: invariants in `Proofs/ReachedFacts.v`, theorems in `Properties/Reached.v`.
* **C08** The header block is limited to 4096 bytes. Single-call theorem, plus refutation by a concrete drip-feed schedule (debug) and by a wrapping budget (release).
* **C09** Parsing never panics. Exact characterisation of the panicking states; no-panic theorems for single calls and within budget; refutation by a concrete schedule.
* **C10** No accepted body exceeds 3 MiB. Invariants for sized / until-EOF; single-call for chunked; refutation for drip-fed chunked.
* **C100** An https client and the https server: every send gets what the application answered to its own request. `Spec/Https.v`: a record sent and the same record received; what arrived is a front part of what was sent. `Proofs/HttpsFacts.v`: sends that return responses without a new connection, on a stream with any input, by induction over the sends; what a TLS stream gives is, whatever its socket does, a front part of the data in the records that arrive. `Properties/Https.v`: C94 and C71 carry the sends over to such a stream; C95 gives what the server did with a front part of the requests; since both are functions of front parts of the same bytes, counting shows that nothing is missing.
* **C101** Once everything has arrived, every send of an https client has returned its answer. `Proofs/HttpsLive.v`: an invariant over all calls on the client's TLS stream: it gives the data of all records that arrive, and blocks only after the last byte. On such a stream (C94, C71), whatever the sends return, what was transmitted on the first connection is a number of whole requests; by C95 the server has answered exactly these, so there are as many responses, hence none of the sends failed, hence all requests were transmitted on the first connection.
* **C102** A line that is too long ends the connection with a 400, after the requests before it were answered. `Spec/TooLong.v`: bytes at which the reference is in a line of 512 bytes. `Proofs/LongFacts.v`: the read limit is looked at before the stream, so a line parser that holds 512 bytes without a line feed reports the limit and never a pause; this goes up through the header loop and the message parser (induction over the header lines), the response loop, and any number of visits: each visit that keeps the connection uses up a pause before the limit. `Properties/LongLines.v`: with C69 and C89 this holds for the whole server.
* **C103** A message that was received can be passed on. `Spec/Forward.v`: what headers say about the body. `Proofs/ForwardFacts.v`: an invariant of all reachable parser states says that the header map has one entry per name, names in lower case, and lines without newlines; with the sizes known from C06 and C07 every message a parser yields is one that C13 or C14 speak of. Written chunked bodies are read as chunked, and the coding is longer than what it codes (`Properties/Forward.v`). The hidden request is put after an empty last chunk in the body.
* **C104** No peer can put the workers of a server out of action. `Proofs/UnwindFacts.v`: an invariant of parser and input under which no visit unwinds (in release builds: the parser state is reachable, as C09 says that only debug builds panic; in both: the bytes are within the limits), lifted by C69 to runs of the whole server, where a worker dies only by a panic or at a poisoned mutex. `Properties/Stopped.v`: the attack is a run built by induction over the number of workers: two pieces overdraw the header budget of a connection; while the third visit holds the mutex, every other worker is made to wait for it. With all workers dead only arrivals are possible, so nothing changes any more.
* **C105** Headers made by hand are read by their names. `Spec/Handmade.v`: what headers in any spelling say of the length; names with capitals. `Properties/Handmade.v`: the written bytes are a message of the grammar (C21) whatever the variants, so the completeness of the parser (C07, C08) gives the values by name; keys of the reader's map are an invariant of adding header lines (each is what its name converts to). For the order: both orders of two headers with one name.
* **C106** The limits refuse, and change nothing else. `Spec/Oversize.v`: answers before a request that is over the limits; input without bounds. `Proofs/OversizeFacts.v`: as for C26, but the invariant of the connection (`tame`) does not bound the input; a call then does what the reference says, or reports the limit after a first part that is over the limits, or panics there. `Properties/Oversize.v`: induction over pauses for the parsers; for the server as for C90, with the additional outcome carried through C69 and C89, and C104 to exclude panics in release builds.
* **C107** Headers and responses built with the library's conversions arrive as they were written. `Model/Convert.v`: the conversions and the macro. `Spec/Building.v`: what the program wrote, and its sizes. `Properties/Building.v`: the map is the one the parser builds from the same lines (names converted), so lookups follow from the facts about header lines; the lines that are written are a permutation of those the program wrote, with names in lower case, so sizes and syntax carry over, and C13 and C14 for any order of the map give the reader's message.
* **C108** Messages in forms of the HTTP standard are read. `Spec/Standard.v`: the grammar of RFC 7230 for header lines, chunked bodies and first lines, written from the standard, with the header lines and the extensions and trailers that a message uses as indices; `plain_forms`. `Proofs/StandardFacts.v`: lines of the standard are whole lines; a message that is read as the standard says has header lines that are those of its headers (by induction over the lines and the values of each name), a chunked body with extensions or trailers is refused (induction over the chunks). `Properties/Standard.v`: exactness in both directions from the soundness and completeness of the grammar (C04); what becomes of the other forms, on the parsers and, with C28, on a server.
* **C109** A response that ends with its header lines is read. `Spec/HeadOnly.v`: responses without anything after the header lines. `Properties/HeadOnly.v`: by cases on what the headers say, with the completeness lemmas for the framing (C20) and the drive lemmas (C02); the client part as for C45.
* **C11** Exactly which sized bodies can be received in one call. Exact characterisation, both directions. For all reachable parser states: invariants in `Proofs/ReachedFacts.v`, theorems in `Properties/Reached.v`.
* **C110** A server that listens with TLS holds against any peer. `Properties/SecureLimits.v`: every connection of an execution is what calls of the handler made of a new one (invariant), so by C92 and C71 it is a connection on a socket without buffers with some input; then release builds by the invariant of C104, and bytes of any size by C106. The debug build: the attack of C104 in records, with the calls computed for any router, way of sealing and number of loop iterations, and induction over the workers.
* **C111** No peer can end the server. `Properties/Felled.v`: the invariant of C78 carries that of C69 through the end of the server, so each connection is what the reference makes of its input; an execution in which no such connection is poisoned has no panic (induction), and without panics C78's invariant excludes the abort and the panic of the main thread, and C78_ends gives the return. The debug build: the attack of C104 with the event loop, by induction over the workers, then one event on another connection.
* **C112** Responses reach clients while the handler still works. `Spec/Early.v`: what a connection shows, in a call that of a call which has read the same so far; histories in which clients hear that. This takes back the simplification of `Model/Whole.v` that a call's output shows at its end. `Proofs/AppendFacts.v`: every parser that is done with its input does the same, and leaves the rest, when more follows. `Proofs/EarlyFacts.v`: so a call that reads more only adds to its output; the invariant of C69 gives the running call as a call of the reference; then as for C72.
* **C113** At every moment a peer has been told nothing but answers to its own requests. From C112_reference (every moment of a connection is a moment of the connection alone) and C106_connection (what the connection alone does with bytes of any size); Spec/Spoken.v says what may be said without reference to the model's steps: `C113_always`, `C113_silent`; with TLS from C110_served and C93: `C113_https`, `C113_https_close_is_last`.
* **C114** A panic of a listener costs its own request and what follows it, and no answer before it. Spec/Panics.v says what a connection does up to a panic; Proofs/PanicFacts.v repeats the induction of C106 without the assumption that no listener panics, and uses a router that passes where the other panics for release builds: `C114_connection`; with C112_reference for every moment of the whole server: `C114_always`, `C114_last`. With TLS: `C114_https`. At rest: `C114_rest`. With TLS, when nothing is left to do: `C114_https_quiet`.
* **C115** Panics cost no more workers than there are jobs for the connections they break. Spec/Cost.v adds up what is due at each panic (jobs and unread events of the connection). Properties/Cost.v: the sum over broken connections of what is still due, plus the dead workers, never exceeds the bill (`C115_cost`); `C115_left`, `C115_once`; the executions outside the hypothesis by `C115_no_more_later_refuted`.
* **C116** One send makes a listener panic no more than twice, with its own request only, but does so twice. Properties/Retried.v: C41 (what a send puts on its streams) with C114_connection (what a server does with it, also if listeners panic) in place of the theorem without panics that C73 uses: `C116_at_most_twice`; a plain request is never over the limits, so a server with all of it cannot avoid the listener: `C116_panics_once_refuted`. Properties/Halved.v: an execution of the whole server by induction over the workers: `C116_workers_refuted`.
* **C12** No received byte is silently dropped. Refutation; lossless theorem when blocks fall on valid prefixes.
* **C13** Writing then parsing a request gives the same request. Encoder modelled on write_request with an arbitrary entry order; parse of encode.
* **C14** Writing then parsing a response gives the same response. Same for responses.
* **C15** Header lookups do not depend on hash-map order, and repeated headers keep their order. Map equality as lookup equality; permutation theorem.
* **C16** A message written by the library is one message. Refutation (`injected request`), positive part is C13.
* **C17** Header names are case-insensitive. Decision by lower-casing; table lookup.
* **C18** The header map is an ordered multimap. Lookup after a fold of additions.
* **C19** Method, version and status tables are exact. Tables modelled entry by entry; exhaustive plus rejection theorems.
* **C20** Body framing is decided by the headers alone, content-length first. Case theorem on BodyParser::new plus numeral grammar.
* **C21** Chunked decoding inverts chunked encoding. Encoder for chunk lists; decode of encode via the batch parser.
* **C22** First-line errors are classified in a fixed order. Split specification by existence of words.
* **C23** Numbers are read exactly. Numeral value function; print/parse inverse.
* **C24** Pipelined requests are read in order, each exactly once. Iterated read_request, induction over requests and events using C01.
* **C25** A clean close is told apart from a truncated request. EOF cases of read_request; refutation with one character.
* **C26** One response per request, in order. Server loop over readiness events, with the writer abstracted to the sequence of written pieces and then composed with the writer model.
* **C27** Nothing happens on a connection after it is closed. Handler on an empty slot is the identity; closing outcomes.
* **C28** Malformed input gets exactly one 400 response. Server loop theorem, Bad branch.
* **C29** A response is delivered in full before the connection is dropped. Refutation; positive theorem for a non-blocking socket.
* **C30** The non-blocking writer neither loses, duplicates nor reorders bytes. Conservation invariant sent ++ buffered = written.
* **C31** Bytes are never reordered by the non-blocking writer (unconditionally). Refutation by schedule.
* **C32** Would-block never surfaces from the non-blocking writer, and flush drains what it can. Outcome theorems on write/flush.
* **C33** A failed write does not make bytes be sent twice. Refutation by schedule with an error event.
* **C34** The slab is a finite map with stable keys. Refinement to a partial map nat -> option T with an invariant on the free list.
* **C35** The slab does not grow beyond the largest number of elements alive at once. High-water-mark invariant.
* **C36** A readiness event reaches the connection it belongs to. Transition system of poll events over the slab.
* **C37** Closed connections free their slot. Refutation: unbounded growth theorem (for every n a history with n slots and no live connection).
* **C38** The router answers with the first matching listener that does not pass. Router evaluated in a call-trace monad; characterisation of trace and result.
* **C39** Nested routers equal one flat router. Flattening function and equivalence by induction on the tree.
* **C40** An exact route fires only for its own uri. Corollary with `on`.
* **C41** A client send transmits the request at most twice and connects at most twice. Client send in a trace model over arbitrary stream behaviour.
* **C42** The client returns the response to its own request. Refutation; positive theorem under one-response-per-request.
* **C43** Client and server compose. Composition of C13, C14, C26 and C42: `Spec/Dialogue.v` joins a client's stream and a server's connection by a network that may cut and delay in both directions.
* **C44** Concurrent sends never share a connection. Transition system of try_lock.
* **C45** The client can read the server's own 404 response. Refutation/positive timeout theorem on the fixed bytes.
* **C46** Every job runs exactly once, started in submission order. Small-step transition system of pool, workers, channel (`Model/Pool.v`); invariants. Weak bisimulation with a first-come-first-served queue with several servers (`Spec/Queue.v`, `Proofs/QueueFacts.v`), which justifies that `Model/Handlers.v`, `Model/Whole.v`, `Model/Full.v` and `Model/Life.v` have the channel as a queue read by free workers.
* **C47** At most size jobs run at the same time, and dropping the pool never deadlocks. Counting invariant; progress + decreasing measure.
* **C48** A panicking job does not disable the pool. Refutation: after size panics nothing runs.
* **C49** A connection is handled by one thread at a time. Mutex transition system invariant.
* **C50** No wakeup is lost. Edge-trigger transition system invariant.
* **C51** The file router serves only files inside its directory. Refutation with a traversal uri.
* **C52** The file router's answers are stable and correctly described. Cache invariant over request histories.
* **C53** Response conversions state the right length. Direct plus C14.
* **C54** Limited reads never exceed the limit and fail exactly when it is exhausted. Laws of the limit stack.
* **C55** A signal during a read is harmless outside body data only. `Properties/Limits.v`, `Properties/Failures.v`. Streams may contain `RErr Interrupted`; the line loops absorb it (part of the C01 simulation), body reads do not: a run on s followed by a failure simulates the run on s up to the point where s is used up (`Proofs/FailFacts.v`), and the parser state is then inside data exactly if the reference parser is (`data_of_cont`). For all reachable parser states: invariants in `Proofs/ReachedFacts.v`, theorems in `Properties/Reached.v`.
* **C56** Accepted text is exactly UTF-8. The byte-level validity test of the model against the encoding function of RFC 3629 (`Spec/Unicode.v`), both directions. For all reachable parser states: invariants in `Proofs/ReachedFacts.v`, theorems in `Properties/Reached.v`.
* **C57** Memory of the non-blocking writer. Invariant on the writer's buffer; schedule family for the unbounded growth.
* **C58** Accepting takes every connection, and starves everything else while accept fails. Accept loop as a function of the results of accept (finite list or infinite stream).
* **C59** The event loop dispatches every event once and stops only on a poll error. Event loop as a function of the poll results.
* **C60** Held output is not forgotten. Write-side analogue of C50: invariant on the last write event.
* **C61** A slow request delays only its own connection. Refutation: family of executions of `Model/Handlers.v`, one per number of workers.
* **C62** A panic while serving a request affects one connection. Refutation: family of executions; positive part is an invariant.
* **C63** A read time-out of zero panics. Case theorem on `Connection::send` with set_read_timeout failing.
* **C64** A failed send is forgotten. Refutation by a concrete pair of sends and the server's parser run on the resulting bytes.
* **C65** A panic in a send costs a connection, and the last one costs the client. Invariants of `Model/Locks.v`.
* **C66** Changes to a served file are noticed. Once stored, always served: invariant of `Model/Files.v`, hence the refutation.
* **C67** The file cache holds one response per path and does not grow without bound. Invariant cache keys = stored paths; family for growth.
* **C68** The example program answers every request as its routes say. Router tree of main.rs evaluated for every uri.
* **C69** Connections do not interfere. `Model/Whole.v` puts the contents of the connections back into the concurrent model; invariant: the state of each connection is that of a sequential server run over what it received (frame lemmas of `Proofs/FrameFacts.v`). `Model/Full.v` adds the event loop; simulation of its runs by runs of `Model/Whole.v`, in which a misdirected event is a spurious one.
* **C70** Every request is answered. Projection of `Model/Whole.v` to `Model/Handlers.v` (C50) composed with C69 and C24/C26. With the event loop: C36 gives who is removed, an invariant that what is in the slab and not dropped is registered, and a measure over kernel events, events of the batch and jobs; a concrete run with a reused token and an invariant of removed connections for the refutation.
* **C71** Buffering is invisible. The parsers over an abstract reader (`Model/Generic.v`), equal to those of `Model/Parse.v` on event lists. Backward simulation: a run on a buffered socket is a run on the event list that the buffer makes of the socket's events; with fuel independence (`Proofs/FuelFacts.v`). `recut` keeps all hypotheses of the C24-C28 and C42 theorems, which are then restated for buffered connections.
* **C72** Every client gets its own responses. `Spec/World.v` joins the whole server (`Model/Full.v`) to clients (`put_request` and the response parser of `Model/Client.v`) by in-order networks. Invariant per client over histories: what was heard is a prefix of what the server sent (monotonicity of `sk_sent` through every layer) and splits into complete responses, one per successful send; C69 and C26 give that what was sent is a prefix of the answers; a prefix of readable responses never parses as anything else (a response so far lasting until the end of the stream stays so under extension). Liveness from C70. The retry of a failed attempt (client.rs:110-123) is on a new connection and so is another client here; C42 is about retrying.
* **C73** A send has its request processed at most once. C41 (on each stream a prefix of the request is transmitted) with C26 on any prefix of a sequence of plain requests; the refutation runs both attempts for an arbitrary request and router.
* **C74** A client survives the server closing its connection. `Spec/Reconnect.v`: turns of a client connection and the server, each either on the held stream or, after the server has dropped it, by reconnecting. Invariant `together`; one turn by `server_turn` (C26, C29) and `send_reads`; induction over the conversation. `C74_possible` shows that the conversations exist.
* **C75** A connection is closed when the request asks for it. `Properties/Smuggling.v`. The reference parser drops the version after checking it, so both versions give the same outcome; C26 for the connection. For other values: C26 for an arbitrary plain request.
* **C76** The body of a request is not taken for another request. `Properties/Smuggling.v`. Each message followed by w is the concatenation of two plain requests as written by the library, so C26 applies; `C76_one_chunked_body` shows that the grammar reads the third as one chunked body.
* **C77** A read failure costs only the unfinished request. `Properties/Failures.v`. The same simulation lifted through `read_request`, the response loop, the handler and any number of visits (`Proofs/FailConnFacts.v`); the reference is `served` on the input before the failure.
* **C78** An error of the poll ends the server in order. `Model/Life.v` adds to `Model/Full.v` the main thread after a failed poll (sending Terminate, joining, returning or panicking) and the abort. Invariant: the number of dead workers is the number of workers that returned plus the number of panics; all messages sent are taken or in the channel; the single-connection invariant of C69 still holds. A measure (work of C50/C70, living workers, messages, phase) decreases; a state without steps is final.
* **C79** What arrived before a hang-up is processed. `Properties/Peers.v`. The execution in `Model/Full.v`, for arbitrary bytes; that the connection is never read is the invariant `forgotten` (in no slab entry, no job, no registration) of `Proofs/FullFacts.v`.
* **C80** Idle connections are closed. `Properties/Peers.v`. Induction on the number of connections for the execution; C70_event_loop_keeps on all continuations.
* **C81** A busy peer delays only itself. `Properties/Peers.v`. A call for such a peer cannot end before its socket is empty, since ending would contradict C70_event_loop_keeps; so one more request can always arrive and be read; induction over the workers and over the rounds. That everything was answered comes from C70 on the run in which the call then ends.
* **C82** Interim responses are skipped. `Properties/Interim.v`. No code below 200 is in the status table; the drive theorem C01 gives the failure of each attempt; `conn_send`.
* **C83** Nothing is done before a request is complete. `Properties/Interim.v`. C70's per-connection invariant with a reference run on the prefix; the reference parser is incomplete on every proper prefix of a plain request.
* **C84** Routing looks at the path of a uri. `Properties/Query.v`. Relational semantics of routers (`Spec/Routes.v`).
* **C85** A send ends in bounded time. `Properties/Patience.v`, `Proofs/FrugalFacts.v`. For every parser in bottom-up order: a call takes bytes w with the limits going down by w (also when it fails), and then at most one more event; the limits bound len w. Summed over the two attempts of `conn_send`. Refutation: C42 on a stream of single bytes.
* **C86** What the server holds for a peer is bounded. `Properties/Backlog.v`, `Proofs/HeldFacts.v`. On a socket that takes nothing every operation of the writer succeeds, appends its data and sends nothing; through response loop, handler and visits. C70_event_loop_answers for the first part; executions by rounds (arrive, poll, dispatch, one call), whose calls cannot end early by C70_event_loop_keeps.
* **C87** The memory held for a peer is in proportion to what it has still to read. `Properties/Backlog.v`. The same rounds, with a socket that takes n bytes at the beginning of each call, n below what is held: the position moves by n and the buffer only grows.
* **C88** Threads sharing a client get their own responses. `Spec/Clients.v`, `Proofs/ClientsFacts.v`, `Properties/Clients.v`. A transition system of one client's threads (call, try_lock, connect, write, read as separate steps) over the whole server and in-order networks. Invariant: locks, streams and threads agree, a stream belongs to one connection, and on a clean connection the stream is between two sends or waits for exactly its thread's request. Then each stream alone is a client of `Spec/World.v` (simulation, until it is dropped), and C72 applies. The refutation is a history built from the rounds of C86.
* **C89** The server ends the stream when it is done with a connection. `Properties/Closing.v`. Invariant of the whole server: no registration for a slot that is not open. At rest an open connection in the slab has everything read (FullFacts); a kept connection that has read all of the input contradicts the reference session; the end of the stream is not passed over by a call that keeps the connection (so what would be read after it does not matter).
* **C90** What the server does for a peer depends only on what that peer sent. `Properties/Reference.v`. Isolation (C69) gives one connection's visits over the items read; at rest everything was read, or the connection was dropped earlier, and what the reference dropped stays dropped whatever follows. The end of the stream as in C89; failing reads by the lemmas of C77. C28 for the whole server follows by uniqueness of the reference. `Properties/Blocks.v` has the execution in which pauses inside a character change the request.
* **C91** A client gets the files of the example program. `Spec/Site.v`, `Properties/Site.v`. C68 and C52 give that the program's answers are those of `serves`; these are readable responses if the file has at most 1.5 MiB; C72 then gives the rest. C72 now asks for readable answers only to the requests that the client sends. For larger files: the parts of a response read in one call (LimitFacts).
* **C92** The server works the same on every stream. `Model/Streams.v` has the connection over an abstract stream (state type and three functions). Backward simulation (`Proofs/StreamsFacts.v`): from the end of a run to its beginning, the events of a socket are built that does the same; the loops have fuel there, and a run that did not run out is the same with any larger fuel (`Proofs/MonoFacts.v`). C71 then gives the rest. `Proofs/BlockedFacts.v`: a parser that stops because of a would-block stops right after the read that said so.
* **C93** Connections over TLS are answered like plain ones, and end properly. `Model/Tls.v`: rustls's StreamOwned and Session as the sources of version 0.18 have them (order of socket calls, what is buffered, what is returned), over arbitrary records and socket outcomes. `Proofs/TlsFacts.v`: such a stream keeps the promises of C92 (`tls_honest`); if the handshake goes well and the socket only takes or blocks, its writes fail only by blocking, and after that none succeeds before the call ends (`tls_foresees`); so C92 applies. The rest by forward invariants of all reads, writes and flushes.
* **C94** Clients behave the same on every stream, and over TLS get their responses in order. `Model/ClientStreams.v`: the client of `Model/Client.v` over any type of streams with any read, write and flush (std's BufWriter and BufReader on top of them); a fuel stands for streams on which std's loops do not end, and theorems are about runs in which it is not used up. Backward simulation: from how each stream ends, a socket is built that did the same (`k_conn_sends_ok`, with a relation between stream and socket that each call of read, write and flush extends at the front); then C42 and C71 apply. For TLS `tls_honest` of C93 and: a stream that gets stuck stays stuck until its end (`tls_way_stuck`), so one that works at the end never refused a write.
* **C95** A server that listens with TLS does for each peer what the reference says, whatever the other peers do. `Model/Secure.v`: the connections, the queue, the workers and the events of the server over the streams of `Model/Tls.v`. Invariant of all executions (`whole_inv`): the calls of the handler on one connection are a sequence of calls as in C93, around which the socket only takes or blocks; all that reached the connection is read, in its stream or still to be handed to it; and an open connection for which something is left to do has an event or a job, or a full socket. C93 then gives the rest; the reference is deterministic (`served_unique`).
* **C96** Which addresses servers and clients accept, and the https client checks the host it connects to. `Model/Addr.v`: the standard library's parser of socket addresses (IPv4; that of IPv6 is a parameter, which `Model/Addr6.v` fills), its splitting of host and port, and webpki's check of host names, as loops over characters, with what differs between versions as parameters. `Spec/Addr.v`: the texts as concatenations of numerals and as a grammar of labels. Induction over the text for both (`parse_v4_iff`, `dns_loop_iff`); an IPv4 address is no host name since its last label is a number. `Spec/Addr6.v` has the grammar of addresses of version 6; the parser is greedy and keeps a position to go back to, so each run of groups is shown to stop exactly where the grammar's does (`Proofs/Addr6Facts.v`, `Properties/Addr6.v`).
* **C97** A server that cannot start says so and leaves nothing behind. `listen_start` in `Model/Addr.v` with the pool of `Model/Pool.v`: case analysis, and C46 and C47 for the drop of a pool that no job was submitted to.
* **C98** Every call of the handler returns, on every stream that has only finitely much to give. `Spec/Finite.v`: a measure of what a stream has left, which reads use up. `Proofs/EndsFacts.v`: every parser loop over such a reader, given more iterations than the measure, does not run out, and a parser that starts afresh and finishes has used something up. `Proofs/ReturnFacts.v`: the same for the writer's loops (lengths plus measure), more iterations change nothing, and so by induction on the measure the handler returns. `Proofs/TlsEndsFacts.v`: the measure for TLS: decrypted bytes, what has arrived, and what the socket has left to do.
* **C99** Every send of a client returns on every stream, and takes only so much. `Proofs/BoundFacts.v`: every parser loop over any reader, with a counter that reads may raise by what they give: at most the limits of the three parts of a message, and more iterations than interruptions and bytes are enough. `Proofs/ClientBoundFacts.v`: the BufReader as such a reader (what it holds counts as not yet counted), the loops of the BufWriter, then one attempt, a send, and sends by induction. The two bounds are two choices of the counter.

## Trusted base

* The kernel of Coq 8.16.1 (and coqchk, which rechecks the compiled files; `vm_compute` is used for some concrete cases).
* Axioms: none. `Print Assumptions` after every theorem of `Properties/*.v` prints "Closed under the global context". (A listing of all axioms in all loaded modules also shows the seven fields `Coq.ssr.ssrunder.Under_rel.*`: they belong to a module signature of the standard library that the tactics of `Lia`/`Zify` import; no theorem depends on them.)
* That the definitions in `Model/*.v` describe the code. Each carries the file and lines it models and what it leaves out. The code was read, not run.
* That the definitions in `Spec/*.v` and the statements in `Properties/*.v` say what properties.jsonl says.
* The behaviour of the Rust standard library, mio, and the operating system as described in the model's comments (see below).

The theorems were tested against wrong programs: `seeded/LOG.jsonl` records edits of the model in a scratch copy, and which theorems failed.

## What is modelled

| source (without its tests) | model |
|---|---|
| common/header.rs, method.rs, version.rs, status.rs, request.rs, response.rs | `Model/Common.v`, in full; a HashMap is a list of entries with distinct keys, in arbitrary order |
| parse/error.rs, error_take.rs, crlf_line.rs, deframe/*.rs, headers.rs, body.rs, message.rs, request.rs, response.rs, parse.rs | `Model/Io.v`, `Model/Parse.v`, in full |
| server/nonblocking_buf_writer.rs | `Model/Writer.v`, in full, with std's write_all and write_fmt |
| server/connection.rs | `Model/Server.v`, in full |
| server/server.rs | lines 61-66, 82-99 and 100-160 (handling one connection, responding) in `Model/Server.v`; dispatch in `Model/Poll.v`, `Model/Handlers.v`, `Model/Whole.v`, `Model/Full.v`; the end of `listen_abstract` in `Model/Life.v` |
| server/slab.rs | `Model/Slab.v`, in full |
| server/poll.rs | `Model/Poll.v`, the failing poll in `Model/Life.v`; mio's readiness as transitions of the operating system |
| server/router.rs | `Model/Router.v`, in full |
| util/stream.rs | `Model/Buffered.v`, with std's BufReader; `Model/Streams.v` over any stream |
| util/tls_stream.rs | `Model/Tls.v`, with rustls's StreamOwned assumed; `Model/Secure.v` for all connections of a server that listens with TLS (a call of the handler is one step there, and sockets fail only by blocking) |
| util/thread_pool.rs | `Model/Pool.v`; the channel is a queue that no error occurs on unless its other end is gone |
| client/client.rs | `Model/Client.v` (one connection, std's BufWriter), `Model/ClientStreams.v` (over any stream), `Model/Locks.v` (threads) |
| server/config.rs, client/config.rs, and what is done with addresses and counts at the start (server.rs:46-49, poll.rs:25-28, stream_factory.rs:32, 54-58, client.rs:66-77) | `Model/Addr.v` and `Model/Addr6.v`, with the parsers of std and webpki |
| client/stream_factory.rs | `Model/Client.v`: connecting succeeds with some stream or fails; `Model/Tls.v` for the TLS session |
| main.rs | `Model/Files.v`: the file listener with its cache and read-write lock, the routes |

Standard library parts modelled because the code depends on their exact behaviour: `read_until`, `read_line` (with its UTF-8 guard), `read_to_end`, `write_all`, `write_fmt`, `BufWriter`, `BufReader` (`Model/Buffered.v`), `str::parse` for integers, `u64::from_str_radix`, `str::split`, `splitn`, `strip_prefix`, `to_lowercase`-free ASCII comparison, `Mutex` poisoning, `mpsc`, `fs::read` on a tree of files and directories.

## Not modelled

* Inside rustls (it is not part of the repository): `Model/Tls.v` has the behaviour of its `StreamOwned` and `Session` at the level of records as an assumption taken from the documented sources of version 0.18; keys, certificates, encryption and what they protect are not modelled. Outside C93 a TLS stream counts as a stream with arbitrary read and write events (C92). For connections over TLS, C50, C69, C70, C72, C78 and C81 also assume that a read would block only if no decrypted bytes are left and nothing is left on the socket (`rustls` reports a would-block of its own pending write from a read: `C93_back_pressure`; the event loop polls for readable and writable, so that such a connection is woken when its socket takes bytes again).
* DNS: what a host name resolves to, and how often each of its addresses is tried. The TLS configurations.
* util/mock.rs, parse/test_util.rs and all `#[cfg(test)]` parts: tests.
* Time (time-outs show as read errors at arbitrary places), memory exhaustion, the limits of `usize` for slab keys and of stack depth, `println!`, the hash function.
* Fairness of the operating system: liveness theorems are about states in which nothing more can happen and about bounds on the number of steps.
* File systems: symbolic links, permissions, special files, limits on names.

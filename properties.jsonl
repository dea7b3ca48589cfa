{"id": "C01", "title": "Request parsing does not depend on how the bytes arrive", "statement": "Driving the request parser over a byte stream that is delivered in arbitrary pieces, with would-block results and signals between the pieces, and resuming it each time it blocks, produces the outcome of a one-shot reference parser run on the concatenated bytes: the same request, the same parsing error, or 'not ready', as long as the size limits are not hit, no block falls inside a partly received line whose bytes so far are not valid UTF-8 (see C12), and no signal falls inside body data (see C55).", "quantifier": "all byte sequences, all segmentations into reads, all placements of WouldBlock / Interrupted, both build profiles", "why_tests_cant": "the number of ways to cut a message into reads and to place would-block results is unbounded; the tests try a handful of hand-picked cuts", "anchors": ["src/parse/request.rs: RequestParser", "src/parse/message.rs: MessageParser", "src/parse/headers.rs: HeadersParser", "src/parse/body.rs: BodyParser, ChunksParser", "src/parse/crlf_line.rs: CrlfLineParser", "src/parse/deframe/line.rs: LineDeframer", "src/parse/deframe/bytes.rs: BytesDeframer"]}
{"id": "C02", "title": "Response parsing does not depend on how the bytes arrive", "statement": "The same as C01 for the response parser, including bodies that extend to end of stream.", "quantifier": "all byte sequences, all segmentations, all placements of WouldBlock / Interrupted and of the final EOF", "why_tests_cant": "the number of ways to cut a message into reads and to place would-block results is unbounded; the tests try a handful of hand-picked cuts", "anchors": ["src/parse/response.rs: ResponseParser", "src/parse/message.rs", "src/parse/deframe/bytes.rs: BytesUntilEofDeframer"]}
{"id": "C03", "title": "A finished parse consumes exactly its own message", "statement": "When the request parser returns a request, the bytes still unread in the stream are exactly the bytes following that message; no byte of the next pipelined message is consumed and none of the current one is left.", "quantifier": "all byte sequences, segmentations and block placements", "why_tests_cant": "the number of ways to cut a message into reads and to place would-block results is unbounded; the tests try a handful of hand-picked cuts", "anchors": ["src/parse/message.rs: MessageParser::parse", "src/parse/error_take.rs: ErrorTake", "src/server/connection.rs: Connection::read_request"]}
{"id": "C04", "title": "Accepted requests are exactly the HTTP/1.x grammar the library documents", "statement": "A byte string is accepted as a request, with method m, uri u, headers h and body b, exactly if it is: 'm u version' (then optionally a space and anything) CRLF, header lines 'name: value' CRLF, an empty line, and the body framed by content-length, else by chunked encoding, else empty; names are compared ignoring ASCII case.", "quantifier": "all byte strings, both directions (soundness and completeness)", "why_tests_cant": "soundness is a statement about every accepted string and completeness about every string of the grammar", "anchors": ["src/parse/request.rs: parse_first_line, parse_method", "src/parse/headers.rs: parse_header", "src/parse/body.rs: BodyParser::new"]}
{"id": "C05", "title": "Parsing always terminates", "statement": "A parse call on a stream that delivers finitely many bytes before blocking, failing or ending returns after finitely many reads.", "quantifier": "all parser states, streams and nested limits", "why_tests_cant": "termination for every input is not observable by running examples", "anchors": ["src/parse/message.rs: MessageParser::parse", "src/parse/headers.rs: HeadersParser::parse", "src/parse/body.rs: ChunksParser::parse", "src/parse/deframe/bytes.rs"]}
{"id": "C06", "title": "No line longer than 512 bytes is ever accepted", "statement": "Whatever the fragmentation, a line that is handed out (of the head of a request or response, or of a chunk) has at most 510 bytes besides its CRLF, the parser never holds more than 512 bytes of an unfinished line, and the subtraction 512 - held never underflows.", "quantifier": "all streams, all sequences of resumed calls, both build profiles", "why_tests_cant": "holds over unbounded histories of blocked and resumed calls", "anchors": ["src/parse/crlf_line.rs: MAX_LINE_SIZE, CrlfLineParser::parse"]}
{"id": "C07", "title": "Messages within the size limits are never refused for size", "statement": "If every line of the head has at most 512 bytes including CRLF, the head is ASCII, the header block has at most 4096 bytes including its CRLFs, and the body is empty, or has a content-length of at most 1572864, or is chunked with at most 3145728 encoded bytes, then no fragmentation makes the parser report 'read limit reached' or panic, wherever it blocks or is interrupted, whether all of the message has arrived or not, and whatever follows it; without signals inside the body it is accepted.", "quantifier": "all messages within the limits and all fragmentations", "why_tests_cant": "the number of ways to cut a message into reads and to place would-block results is unbounded; the tests try a handful of hand-picked cuts", "anchors": ["src/parse/crlf_line.rs", "src/parse/headers.rs: MAX_HEADERS_SIZE", "src/parse/body.rs: MAX_BODY_SIZE", "src/parse/error_take.rs"]}
{"id": "C08", "title": "The header block is limited to 4096 bytes", "statement": "A request whose head arrives without a block has a header block of at most 4096 bytes. With blocks the limit is not kept: there are deliveries of larger header blocks that are accepted (CRLFs and partly received lines are not charged to later calls), and in release builds the budget can wrap around so that blocks of more than 8192 bytes are accepted.", "quantifier": "all header blocks and fragmentations", "why_tests_cant": "the violation needs a particular unbounded family of schedules that the tests do not contain", "anchors": ["src/parse/headers.rs: HeadersParser::parse (read, error_take)"]}
{"id": "C09", "title": "Parsing never panics", "statement": "A parse call panics exactly in a debug build with an overdrawn budget: more than 4096 bytes of complete header lines, or more than 3145728 bytes of complete chunks, received in earlier calls. So a message read in one call never panics, nor one within the size limits under any fragmentation; but there is a request of less than 4200 bytes that, delivered in pieces, panics.", "quantifier": "all streams, all histories of resumed calls, both build profiles", "why_tests_cant": "the failing histories are long and need exact segmentations", "anchors": ["src/parse/headers.rs:33", "src/parse/body.rs:70"]}
{"id": "C10", "title": "No accepted body exceeds 3 MiB", "statement": "Under every fragmentation the body of a parsed request has fewer than 3145728 bytes and that of a response at most 3145728, unless it is chunked; a body read in one call has at most 3145728 bytes, chunked or not; a chunked body delivered in pieces can exceed the limit (3145729 bytes are accepted), but not 6291456 bytes in a debug build.", "quantifier": "all messages and fragmentations", "why_tests_cant": "needs inputs of millions of bytes and particular schedules", "anchors": ["src/parse/body.rs: MAX_BODY_SIZE, BodyParser::parse, parse_chunk_size"]}
{"id": "C100", "title": "An https client and the https server: every send gets what the application answered to its own request", "statement": "A client sends requests with TLS, one after the other, to a server that listens with TLS and serves any number of other peers at the same time. If all the sends return responses and no second connection was made, then the server has routed exactly these requests on that connection, each once and in order; what each send returns is what the application answered to that very request, given the earlier ones; and the connection is open. This holds for every way the two sides cut what they send into records and the sockets cut those, whatever the other peers do and whatever happens to the workers, and whatever fails, blocks or is interrupted on the client's socket. For any server: if all sends return responses without a second connection, it can decrypt exactly the requests; and if what arrives is a front part of well-formed responses, the sends return the first of them in order.", "quantifier": "all executions of the server with any number of connections and workers, all record cuts of both sides, all socket behaviours of the client, all sequences of requests, all routers whose answers a client can read", "why_tests_cant": "quantifies over all schedules, record boundaries and socket outcomes of two programs at once", "anchors": ["src/client/client.rs: Connection::send", "src/client/stream_factory.rs", "src/server/server.rs", "src/server/connection.rs", "src/util/tls_stream.rs"]}
{"id": "C101", "title": "Once everything has arrived, every send of an https client has returned its answer", "statement": "A client sends requests with TLS to a server that listens with TLS and serves any number of other peers. If all that the client sent on its first connection has reached the server, all that the server sent has reached the client (in any pieces), the handshake went well, the client's socket still takes what is written, and the server has nothing left to do for that connection, then every send has returned a response, no second connection was made, the server has routed exactly the client's requests, each once and in order, and each send returned what the application answered to its request. So a send that fails although both sides work is the network's doing: something has not arrived.", "quantifier": "all executions of the server with any number of connections and workers, all record cuts of both sides, all pieces in which records arrive, all sequences of requests and all routers whose answers a client can read", "why_tests_cant": "absence of lost or stuck exchanges over all schedules and record boundaries of two programs cannot be shown by examples", "anchors": ["src/client/client.rs: Connection::send", "src/client/stream_factory.rs", "src/server/server.rs", "src/server/connection.rs", "src/util/tls_stream.rs"]}
{"id": "C102", "title": "A line that is too long ends the connection with a 400, after the requests before it were answered", "statement": "A peer sends complete requests and then a request whose head has a line of which the first 512 bytes contain no line feed (the request line, or a header line within the first 4096 bytes of the headers), and after that anything at all: more bytes, the end of its stream, an error, or nothing. In every execution of the whole server, with any number of workers and other peers and however the bytes arrive, once the server has nothing more to do and a worker is left: the complete requests have been routed and answered, nothing of the request with the long line has been routed, one 400 response has been written after the answers (unless a request asked to close), the connection is closed, and it does not matter what followed the 512 bytes. The server does not wait for the end of the line.", "quantifier": "all executions, numbers of peers and workers, fragmentations, complete requests before the long line and positions of the long line, all that may follow, listeners without panics, sockets that do not fail on writing", "why_tests_cant": "quantifies over all schedules, all ways of cutting the line into pieces, and everything that may follow; tests read one long line from one buffer", "anchors": ["src/parse/crlf_line.rs", "src/parse/headers.rs", "src/parse/deframe/line.rs", "src/parse/error_take.rs", "src/server/connection.rs", "src/server/server.rs", "src/util/thread_pool.rs"]}
{"id": "C103", "title": "A message that was received can be passed on", "statement": "An application that receives a request and sends the same request value on with a client (a gateway), or receives a response with a client and returns it from a listener, passes on the same message: the next reader gets an equal request or response and stops where it ends, with the header lines in any order. This holds for every request without a chunked body and every response with a content-length that any parser ever yields, however it arrived, if the header block is at most 4096 bytes and the body at most 1.5 MiB (single lines are never longer than they were received). Also, the uri and every header value of a received request can be put into a header of a response without changing where the response ends or what else it contains. Expected for every message; for chunked messages it is violated: the announcement of chunks is kept while the body is written without them, so that no chunked request or response is ever read back as it was sent, and for every request q there is a chunked request, received as one, which the next server takes for two requests, the second being q. It is also violated for responses that ended with their connection: over a kept connection the next client never gets them.", "quantifier": "all ways in which a message may arrive, all messages, all deliveries of what is passed on, all requests that may be hidden", "why_tests_cant": "ranges over every message a parser can yield after any sequence of calls and over every delivery to the next reader; the tests never write what was parsed", "anchors": ["src/parse/request.rs", "src/parse/response.rs", "src/parse/headers.rs", "src/parse/body.rs", "src/client/client.rs", "src/server/server.rs"]}
{"id": "C104", "title": "No peer can put the workers of a server out of action", "statement": "In a release build whose listeners do not panic, every worker thread goes on taking jobs and no connection is lost to a panic, whatever any number of peers send and in whatever pieces (requests, parts of requests, nonsense, errors, ends), however their sockets take the answers, and however threads are scheduled. In either build this holds if every peer sends requests within the limits or a first part of them. Expected in debug builds too; there it is violated: a single peer that sends 4624 bytes of an unfinished request in two pieces, and then one byte for each worker, kills all workers of the server, however many there are, without any listener being called; from then on no request of any other peer is ever routed and nothing is written to them, whatever they send.", "quantifier": "all executions of the whole server, all numbers of workers and peers, all inputs, all routers without panics; for the violation all numbers of workers and peers and all routers, and all continuations", "why_tests_cant": "absence of panics under every input and schedule, and the permanence of the outage, cannot be tested", "anchors": ["src/parse/headers.rs", "src/parse/body.rs", "src/server/server.rs: handle_io_ready_connection", "src/util/thread_pool.rs"]}
{"id": "C105", "title": "Headers made by hand are read by their names", "statement": "A program makes headers with the public variants of the header type, in any spelling, also several with one name. Whatever variants and spellings and whatever order the map gives: if the first value named content-length is the length of the body (or a request without body names no length), the reader gets the message, and under each name in any spelling the values of all lines with that name, in the order written. A header is found by the reader under the header value the sender used exactly if that is the one its name converts to. Expected and violated: (1) a header made with the variant for other headers under a name with a capital letter, or under a standard name, is not found by its name in the sender's own map, and the reader finds it only by name; (2) the meaning of a message does not depend on the order of the map: for any bytes b there is one header map of which two orders make the reader of one and the same request get the body b, or no body and then b as what follows.", "quantifier": "all requests and responses with headers of any variant and spelling, all orders of the map, all fragmentations without pauses inside multi-byte characters or signals inside bodies, all names with capitals or in the standard table, all bodies", "why_tests_cant": "the variants, spellings and orders of a hash map are unbounded, and the order changes from run to run", "anchors": ["src/common/header.rs", "src/parse/headers.rs", "src/parse/body.rs", "src/client/client.rs", "src/server/server.rs"]}
{"id": "C106", "title": "The limits refuse, and change nothing else", "statement": "A peer sends any amount of bytes, within the limits or not, in any pieces. In a release build, in every execution of the whole server with any number of workers and other peers, once the server has nothing more to do and a worker is left: either the requests routed, the bytes written and whether the connection is kept are those a small reference without limits computes from all the bytes the peer sent; or these bytes contain a request that is over the limits (a line of 512 bytes or more, a header block of 4096 or more, a body above the body limit), and then the complete requests before it were routed and answered, one 400 response was written, and the connection was closed. In either build and at all times the requests routed are the first of those that the reference reads, each once and in order: no request is cut, merged or made up because of a limit. The parsers alone: the outcome is that of the reference, or, only for messages over the limits, an error for the size (in debug builds possibly a panic).", "quantifier": "all bytes of any length whose lines have no multi-byte characters split by a pause (all ASCII bytes), all fragmentations, executions, numbers of peers and workers, listeners without panics", "why_tests_cant": "That a limit never distorts is a claim about all inputs around and above the limits in all fragmentations and interleavings with other peers; tests try some sizes and some cuts.", "anchors": ["src/parse/crlf_line.rs", "src/parse/headers.rs", "src/parse/body.rs", "src/parse/error_take.rs", "src/parse/message.rs", "src/server/connection.rs", "src/server/server.rs"]}
{"id": "C107", "title": "Headers and responses built with the library's conversions arrive as they were written", "statement": "A program builds a header map with header_map!, naming headers by texts in any spelling or by the library's constants. Looking up a name in any spelling gives exactly the values the program wrote under that name, in its order. When the map is sent in a request or response (whatever order the hash map yields), the reader finds under each name in any spelling the same values in the same order, and the same method, uri or status, and body. A text returned from a listener reaches the client as a 200 response with that text and its length as only header. A header displays its name, and converting that back gives the same header exactly if the header came from a conversion. Methods are recognised by their bytes exactly as by their text. (In contrast to headers made with the variants by hand, C105.)", "quantifier": "all names, spellings, constants, values, bodies within the limits, all orders of the hash map, all fragmentations", "why_tests_cant": "Spellings, repetitions, orders of a hash map and cuts of the stream combine without end; a test fixes one of each.", "anchors": ["src/common/header.rs", "src/common/method.rs", "src/common/response.rs", "src/common/request.rs", "src/parse/headers.rs"]}
{"id": "C108", "title": "Messages in forms of the HTTP standard are read", "statement": "RFC 7230 lets a sender put any blanks or none around the value of a header, spell the coding chunked in any case, give chunks extensions and end a chunked body with trailer lines. A message in these forms is read as the standard says, however it is delivered. Violated in each of these: a message of the standard (within the limits) is read with its method, uri or status, headers and body exactly if there is one space after each colon and none at the end of the line, chunked is in lower case, and there are no extensions and no trailer lines. Otherwise: a header without a space after its colon (and no colon and space later) makes the message malformed; so do extensions and trailer lines; with another spelling of chunked a request is read with an empty body and its coded body is taken for the next request, and a response is not finished before the connection ends and then has the coded bytes and all that follows as its body. A server answers the refused requests with 400 and routes nothing; a request with another spelling is routed with an empty body, and its body then gets a 400 and closes the connection.", "quantifier": "all requests and final responses of the standard's grammar (methods, versions and statuses of the library, ASCII text, no line folding), all fragmentations within the limits, all handlers without panics", "why_tests_cant": "The forms of the standard are an unbounded grammar; a test shows one message and one form, not that the forms accepted are exactly these.", "anchors": ["src/parse/headers.rs", "src/parse/body.rs", "src/parse/request.rs", "src/parse/response.rs", "src/server/connection.rs"]}
{"id": "C109", "title": "A response that ends with its header lines is read", "statement": "By the standard a 204 and a 304 response end with their header lines, also if a content-length is among them that says how long the file would be. Such a response is read as it comes. Violated: on a connection that stays open, in any fragmentation, a response that ends with its header lines is read (with its status, its headers and an empty body, and nothing after it taken) exactly if its first content-length is zero; else the parser waits for more. If the connection then ends, a response that names a length is an error, and one that names none is read. If more follows, as many bytes of it as the content-length says are taken for the body, be they the next response. A client's send that is answered so waits until its time-out, sends the request again on a new connection, and fails.", "quantifier": "all statuses, header lists in order, fragmentations within the limits, requests and states of the client's connection", "why_tests_cant": "All headers, lengths and fragmentations; and a test would have to wait for something that never comes.", "anchors": ["src/parse/response.rs", "src/parse/body.rs", "src/parse/message.rs", "src/client/client.rs"]}
{"id": "C11", "title": "Exactly which sized bodies can be received in one call", "statement": "A message with a content-length n that arrives without a block is refused with 'read limit reached' if 2n > 3145728, although content-lengths up to 3145728 pass the header check (and with 2n <= 3145728 it is accepted, C07). So the blocking client can never receive a sized body larger than 1.5 MiB, and a content-length of exactly 3145728 is never received under any delivery.", "quantifier": "all n up to 3145728, all contents and all segmentations without a block", "why_tests_cant": "the boundary lies at 1572864 bytes for every content and segmentation", "anchors": ["src/parse/deframe/bytes.rs: BytesDeframer::read_so_far", "src/parse/body.rs: BodyParser::parse"]}
{"id": "C110", "title": "A server that listens with TLS holds against any peer", "statement": "In a release build whose listeners do not panic, no worker of a server that listens with TLS is ever lost and no connection is lost to a panic, whatever records any number of peers send, good or bad. For a peer whose handshake goes well, bytes of any size are handled as the reference says, or, if they go over the limits, the requests before are answered, then one 400 response is written and the connection is dropped; at any time what the peer can decrypt is a front part of that, and when nothing is left to do and the connection is open it has all of it. Violated in debug builds: one peer, after a good handshake, kills every worker with 4624 bytes and one more for each worker; from then on no other peer's request is routed and nothing is written to any other peer.", "quantifier": "all executions of the server with TLS: numbers of peers and workers, records, orders, fragmentations, what sockets take, schedules, routers, ways of sealing", "why_tests_cant": "Quantified over all interleavings of all peers' records with the workers, and over all bytes a hostile peer may send; a test shows one hostile peer and one schedule.", "anchors": ["src/server/server.rs", "src/server/connection.rs", "src/util/tls_stream.rs", "src/parse/error_take.rs", "src/parse/crlf_line.rs", "src/util/thread_pool.rs"]}
{"id": "C111", "title": "No peer can end the server", "statement": "In a release build whose listeners do not panic, whatever any number of peers send, in any pieces and at any time, the process is not aborted, the call that runs the server does not panic, and while it serves every worker does; once the poll has failed, the call returns that error after finitely many steps (unless input arrives all the time) with all threads ended. In either build this holds if every peer sends requests within the limits or a first part of them. Before and after the poll has failed, each connection is served as the reference says, whatever the other peers send. Expected in debug builds too; there it is violated: a single peer that sends 4624 bytes of an unfinished request and then one byte for each worker, and after that anything at all on a second connection, has the whole process aborted, however many workers there are and whatever the listeners are; no listener is called and nothing is written.", "quantifier": "all executions of the whole server up to and after its end: all numbers of peers and workers, inputs, schedules, failures of the poll, routers; for the violation all numbers of workers, all routers and all bytes on the second connection", "why_tests_cant": "ranges over every input and every schedule up to the end of the process; a test that aborts its own process cannot report", "anchors": ["src/server/server.rs", "src/server/poll.rs", "src/util/thread_pool.rs", "src/parse/headers.rs"]}
{"id": "C112", "title": "Responses reach clients while the handler still works", "statement": "What the socket of a connection has taken and the requests routed for it are determined at every moment, also while the handler's call runs, and only grow: nothing that the call reads later changes what it did before. For clients that hear responses during the call that writes them, and send their next requests to that same call, the results of the sends still are, in order, the answers of their own listeners to their own requests, whole and unchanged; only the last may be a failure. At every moment the requests routed for a client's connection are the first of those that it asked, in order, each once; and what is shown is what a server with this connection only would have sent for the bytes read. A client gets its response without waiting for the end of the call: once the call has read what the client sent and the socket has taken what was written, and the network has delivered it, the send succeeds.", "quantifier": "All builds, listeners, numbers of workers, clients and other peers, schedules, fragmentations and moments of hearing and sending.", "why_tests_cant": "The moments at which a client can hear bytes inside a call are unboundedly many, and each reaction changes what the same call reads next.", "anchors": ["src/server/server.rs:82-138", "src/server/nonblocking_buf_writer.rs:1-100", "src/util/thread_pool.rs:79-86", "src/client/client.rs:132-141"]}
{"id": "C113", "title": "At every moment a peer has been told nothing but answers to its own requests", "statement": "Whatever a peer sends (bytes of which every first part can be followed by a pause; ASCII for one), and whatever the other peers do: at every moment of every execution, also in the middle of a call of the handler, and in either build, the bytes that its socket has taken are a first part of the answers that the listeners gave to its own requests, in order, or of these followed by one 400; the latter only if what follows those requests in its bytes is no request, is over the limits, or lacks its end. Before its first request is complete or known to be wrong, it has been sent nothing and nothing was routed for it. With TLS the same holds after every step of the server; and whatever records a peer sends, a request that asks for the connection to be closed is the last that is routed for it.", "quantifier": "for all peers, bytes, routers whose listeners do not panic, interleavings of all peers, worker threads and the event loop, pool sizes, moments (also in calls), and both builds", "why_tests_cant": "It speaks of every moment of every interleaving and of every input.", "anchors": ["src/server/connection.rs:52-90", "src/server/server.rs:82-138", "src/server/nonblocking_buf_writer.rs:16-80"]}
{"id": "C114", "title": "A panic of a listener costs its own request and what follows it, and no answer before it", "statement": "Listeners may panic at any requests. At every moment of every execution, also in the middle of a call of the handler and in either build, the requests routed for a peer are the first of its own; as long as no listener has panicked on them, the peer has been sent a first part of their answers and of at most one 400 after them; when one has, that request is the last that is ever routed for the connection, it gets no answer, and the peer has been sent a first part of the answers to the requests before it. A connection is kept, or dropped in order, only if no listener has panicked on it; if the socket takes everything, all the answers before the panic have been sent. With TLS the same holds after every step of the server. When the server has nothing more to do and a worker is left, a connection is either kept, with no panic on it and every complete request routed and answered, or closed, after it was served as the reference says or up to the request at which a listener panicked or one over the limits. With TLS that is so, in either build, of every connection for which nothing is left to do and whose socket is not full.", "quantifier": "for all listeners (also those that panic), peers, bytes of which every first part can be followed by a pause, interleavings, pool sizes, moments (also in calls), and both builds", "why_tests_cant": "It speaks of every moment of every interleaving, of every input and of every point at which a listener may panic.", "anchors": ["src/server/server.rs:82-138", "src/server/connection.rs:52-90", "src/util/thread_pool.rs:79-86"]}
{"id": "C115", "title": "Panics cost no more workers than there are jobs for the connections they break", "statement": "In every execution a handler panics at most once on each connection. If no connection is removed from the event loop while there is a job for it, the worker threads lost are at least one for each panic and at most the sum, over the panics, of the jobs that were there for the connection at that moment (queued, waiting or running) and of its readiness events that the last poll had returned and that were not looked at yet; so with more workers than that one is left. Expected in all executions; in others it is violated: when a connection is removed while a worker has it, its token is given to a new connection, and if a listener panics on that one, later events about the old socket cost further workers although no job or event for the broken connection was there.", "quantifier": "for all listeners, peers, inputs, interleavings of peers, event loop and workers, pool sizes, and both builds; the last sentence by an execution", "why_tests_cant": "It bounds the threads lost in every interleaving by what was outstanding at each panic; tests see single schedules.", "anchors": ["src/server/server.rs:48-99", "src/server/poll.rs:34-75", "src/util/thread_pool.rs:79-86"]}
{"id": "C116", "title": "One send makes a listener panic no more than twice, with its own request only, but does so twice", "statement": "A program sends a request with a client to a server whose listeners may panic. The send puts the request on at most two streams: a server given what is on the first, or a part of it, in any pieces, routes the first of the requests put there in order, each once; one given the second routes this request once or nothing. Expected: a listener panics at most once for one send. Violated for every request at which a listener panics: since it is not answered, the send puts the request on a new connection too and then fails, and the server that gets all of it panics on both connections, with this request as the last routed on each. So half as many sends as the server has workers can end all of them: as many connections as there are workers, each with this one request, lose every worker, after which nothing that any peer sends is routed or answered.", "quantifier": "all requests within the limits and earlier requests on the connection, all listeners (also those that panic), fragmentations, sockets that take any amounts at a time, both builds; for the violation all states of a held connection on which nothing is answered and all requests at which the listeners panic", "why_tests_cant": "Panics, retries, fragmentations and earlier requests combine without end; a test fixes one of each.", "anchors": ["src/client/client.rs:105-141", "src/server/server.rs:82-138", "src/server/connection.rs:52-90"]}
{"id": "C12", "title": "No received byte is silently dropped", "statement": "If all bytes are ASCII, no byte is lost wherever the stream blocks: the outcome is that of the reference parser on all bytes. If a block falls inside a multi-byte character of a line, bytes received before the block can vanish silently (a request is returned that is not a prefix of what was sent), a correct request can be refused, and a correct request can be returned as a different one (with a 'host' header that it does not have).", "quantifier": "all streams with blocks", "why_tests_cant": "depends on the position of a block relative to character boundaries", "anchors": ["src/parse/deframe/line.rs: LineDeframer::read"]}
{"id": "C13", "title": "Writing then parsing a request gives the same request", "statement": "write_request followed by the request parser, under any fragmentation, yields a request with equal method, uri, headers and body, leaving the following bytes unread, for every request whose uri has no space or line break, whose header names and values have no line break (and names no ': '), whose lines fit, and whose content-length header, if any, states the body length (empty body if none).", "quantifier": "all such requests, all header iteration orders, all fragmentations, any following bytes", "why_tests_cant": "round trip over all requests and all hash-map orders", "anchors": ["src/client/client.rs: write_request", "src/parse/request.rs"]}
{"id": "C14", "title": "Writing then parsing a response gives the same response", "statement": "write_response followed by the response parser, under any fragmentation, yields an equal response, for every response with a known status, well-formed headers and a correct content-length (or, without content-length, when the stream ends after the body).", "quantifier": "all such responses, header iteration orders and fragmentations", "why_tests_cant": "round trip over all responses", "anchors": ["src/server/server.rs: write_response", "src/parse/response.rs"]}
{"id": "C15", "title": "Header lookups do not depend on hash-map order, and repeated headers keep their order", "statement": "Parsing the header lines in any order that keeps the relative order of equal names gives an equal header map; the values of one name are listed in order of appearance.", "quantifier": "all header lists and permutations preserving per-name order", "why_tests_cant": "hash-map iteration order is random per process; tests see one order", "anchors": ["src/common/header.rs: HeaderMap, add_header, from_pairs", "src/parse/headers.rs"]}
{"id": "C16", "title": "A message written by the library is one message", "statement": "write_request emits bytes that read back, as exactly one message, as that request, if and only if the uri has no space or line break, no name or value has a line break, no name contains ': ', and the body agrees with the framing headers. For other uris and values it does not: a uri with CRLF makes any attacker-chosen bytes be read as further requests, and a value with CRLF adds headers.", "quantifier": "all requests", "why_tests_cant": "needs an adversarial choice of field contents", "anchors": ["src/client/client.rs: write_request", "src/server/server.rs: write_response"]}
{"id": "C17", "title": "Header names are case-insensitive", "statement": "Two names convert to equal headers exactly if they are equal ignoring ASCII case; conversion is idempotent; a converted header never is a Custom header with a standard name.", "quantifier": "all strings", "why_tests_cant": "ranges over all pairs of names", "anchors": ["src/common/header.rs: From<String> for Header, as_str"]}
{"id": "C18", "title": "The header map is an ordered multimap", "statement": "After adding pairs in order, the values of k are exactly the values added under k, in order; first value and containment agree with that list; other names are unaffected.", "quantifier": "all sequences of additions and all keys", "why_tests_cant": "all histories of additions", "anchors": ["src/common/header.rs: HeaderMapOps"]}
{"id": "C19", "title": "Method, version and status tables are exact", "statement": "Printing then parsing a method gives it back, and only the four upper-case names parse; only HTTP/1.0 and HTTP/1.1 are supported; a status code parses exactly if it is in the table, and gives back the status with that code, whose reason is, ignoring case, the phrase registered for it.", "quantifier": "all strings and all 16-bit codes", "why_tests_cant": "rejection ranges over all other strings and codes", "anchors": ["src/common/method.rs", "src/common/version.rs", "src/common/status.rs", "src/parse/response.rs: parse_status"]}
{"id": "C20", "title": "Body framing is decided by the headers alone, content-length first", "statement": "If a content-length header exists its first value decides: invalid gives InvalidHeaderValue, above 3145728 gives ContentLengthTooLarge, otherwise exactly that many bytes are the body, even if transfer-encoding: chunked is present; else a first transfer-encoding value containing 'chunked' selects chunked; else requests have no body and responses extend to EOF. A content-length value is valid exactly if it is an optional '+' and at least one decimal digit and fits in 64 bits.", "quantifier": "all header maps and values", "why_tests_cant": "ranges over all header maps", "anchors": ["src/parse/body.rs: BodyParser::new, get_content_length, is_chunked_transfer_encoding"]}
{"id": "C21", "title": "Chunked decoding inverts chunked encoding", "statement": "For every list of non-empty chunks and either case of hex digits, decoding the chunked encoding, under any fragmentation and within the size limits, gives the concatenation of the chunks and stops right after the final CRLF.", "quantifier": "all chunk lists and fragmentations", "why_tests_cant": "the number of ways to cut a message into reads and to place would-block results is unbounded; the tests try a handful of hand-picked cuts", "anchors": ["src/parse/body.rs: mod chunked"]}
{"id": "C22", "title": "First-line errors are classified in a fixed order", "statement": "A request line with fewer than three space-separated words is BadSyntax; otherwise an unsupported version is InvalidHttpVersion; otherwise an unknown method is UnrecognizedMethod; otherwise it is accepted with its second word as uri, verbatim. Likewise for status lines.", "quantifier": "all lines", "why_tests_cant": "ranges over all lines", "anchors": ["src/parse/request.rs: parse_first_line", "src/parse/response.rs: parse_first_line"]}
{"id": "C23", "title": "Numbers are read exactly", "statement": "Decimal and hexadecimal size fields denote exactly the value of their digits; printing a size in decimal and reading it back gives the size; overflow is an error, never a wrapped value.", "quantifier": "all digit strings and all 64-bit values", "why_tests_cant": "all strings", "anchors": ["src/parse/body.rs: get_content_length, parse_chunk_size", "src/parse/response.rs: parse_status"]}
{"id": "C24", "title": "Pipelined requests are read in order, each exactly once", "statement": "Calling read_request repeatedly on a connection, over any fragmentation of the concatenation of n well-formed requests, returns those n requests in order, each once, with NotReady in between exactly when the stream blocked, and then NotReady.", "quantifier": "all lists of requests, all fragmentations, all interleavings of calls", "why_tests_cant": "the number of ways to cut a message into reads and to place would-block results is unbounded; the tests try a handful of hand-picked cuts", "anchors": ["src/server/connection.rs: Connection::read_request"]}
{"id": "C25", "title": "A clean close is told apart from a truncated request", "statement": "End of stream between requests is reported as Closed, with nothing written; end of stream inside a request of which more than one character arrived is reported as an error and answered with 400. A request of which exactly one character arrived before the end of the stream is, contrary to what one would expect, reported as Closed.", "quantifier": "all positions of the end of stream, all fragmentations", "why_tests_cant": "the failing case is one specific truncation point", "anchors": ["src/server/connection.rs: is_closed", "src/parse/deframe/line.rs: LineDeframer::read (pop at EOF)", "src/parse/request.rs: has_data"]}
{"id": "C26", "title": "One response per request, in order", "statement": "For every router and every fragmentation of a request stream, what the server writes on a connection is the concatenation, in request order, of the encoding of the router's result for each request (the fixed 404 response if the router returns Next), and nothing else.", "quantifier": "all routers, request lists, fragmentations, numbers of readiness events", "why_tests_cant": "the number of ways to cut a message into reads and to place would-block results is unbounded; the tests try a handful of hand-picked cuts", "anchors": ["src/server/server.rs: handle_io_ready_connection, respond_to_requests, write_response_from_router"]}
{"id": "C27", "title": "Nothing happens on a connection after it is closed", "statement": "After a request with a 'connection: close' header value is answered, after a parsing error, an I/O error or end of stream, the connection is dropped: no later readiness event reads or writes it, and at most one 400 response was written, as the last thing.", "quantifier": "all histories of readiness events", "why_tests_cant": "all histories", "anchors": ["src/server/server.rs: respond_to_requests, should_close_after_response, write_error_response"]}
{"id": "C28", "title": "Malformed input gets exactly one 400 response", "statement": "If the bytes of a connection are n well-formed requests followed by bytes the grammar rejects, the server writes the n responses, then the fixed 400 response, then closes; the router is not called for the malformed part.", "quantifier": "all request lists, malformed suffixes and fragmentations", "why_tests_cant": "the number of ways to cut a message into reads and to place would-block results is unbounded; the tests try a handful of hand-picked cuts", "anchors": ["src/server/server.rs: respond_to_requests, write_error_response"]}
{"id": "C29", "title": "A response is delivered in full before the connection is dropped", "statement": "On any input, if the socket takes the bytes without blocking (however few at a time), everything the server wrote is on the socket when it drops the connection. If the socket blocks while the last answer (a response to a request that asks to close, or the 400 response) is written, the rest of it is lost, contrary to what one would expect.", "quantifier": "all response sizes and socket schedules", "why_tests_cant": "needs a socket that blocks at the right moment", "anchors": ["src/server/server.rs: handle_io_ready_connection, respond_to_requests", "src/server/nonblocking_buf_writer.rs"]}
{"id": "C30", "title": "The non-blocking writer neither loses, duplicates nor reorders bytes", "statement": "At all times the bytes accepted by the socket followed by the unsent buffered bytes equal the bytes written so far, for every sequence of writes and flushes on a socket that accepts arbitrary amounts and blocks at arbitrary times, provided no write larger than the buffer capacity is made while the buffer holds data none of which could be sent.", "quantifier": "all write/flush sequences, all socket schedules without errors, all capacities", "why_tests_cant": "all schedules of partial writes and blocks", "anchors": ["src/server/nonblocking_buf_writer.rs: NonBlockingBufWriter"]}
{"id": "C31", "title": "Bytes are never reordered by the non-blocking writer (unconditionally)", "statement": "On a socket that does not fail, nothing written is lost or duplicated: what the socket took plus what is still held is always a permutation of what was written. The order is not kept: for all buffered bytes a and all b larger than the capacity there is a schedule (flush blocked from the start, socket writable again for the following direct write) in which all operations succeed and b is sent before a.", "quantifier": "all socket schedules", "why_tests_cant": "a race between flush and write", "anchors": ["src/server/nonblocking_buf_writer.rs: write (pos == 0 test)"]}
{"id": "C32", "title": "Would-block never surfaces from the non-blocking writer, and flush drains what it can", "statement": "write and flush never return WouldBlock; write reports the full length; a flush with a socket that accepts everything leaves the buffer empty; repeated flushes on a socket that accepts at least one byte per attempt eventually deliver everything.", "quantifier": "all buffers and socket schedules", "why_tests_cant": "all schedules", "anchors": ["src/server/nonblocking_buf_writer.rs: write, flush, write_until_blocked"]}
{"id": "C33", "title": "A failed write does not make bytes be sent twice", "statement": "A flush whose write fails part-way leaves the writer unchanged although the socket took some bytes, so a later flush sends them again; and one successful write_all can do this unnoticed, since it retries after Interrupted. For every split of the buffered bytes such a schedule exists.", "quantifier": "all socket schedules with errors", "why_tests_cant": "needs an error in the middle of a flush", "anchors": ["src/server/nonblocking_buf_writer.rs: flush_buf"]}
{"id": "C34", "title": "The slab is a finite map with stable keys", "statement": "insert returns the key next_key announced, which is not in use; get returns the element last inserted under a key and not removed; remove returns it once and frees the key; operations on one key do not affect others; no operation panics.", "quantifier": "all sequences of insert, get and remove", "why_tests_cant": "all histories", "anchors": ["src/server/slab.rs"]}
{"id": "C35", "title": "The slab does not grow beyond the largest number of elements alive at once", "statement": "The number of slots ever allocated equals the maximum number of simultaneously stored elements.", "quantifier": "all histories", "why_tests_cant": "all histories", "anchors": ["src/server/slab.rs: insert, remove"]}
{"id": "C36", "title": "A readiness event reaches the connection it belongs to", "statement": "In every history, an event about a connection that is still held reaches that connection; tokens of held connections are distinct and never the listener's. If no connection is removed while a handler for it is queued or running, every event reaches its own connection. Otherwise, contrary to what one would expect, it need not: the removed connection's socket stays registered under its token, the token is given to a new connection, and an event about the old socket has the new connection handled, or removed and its socket closed although nothing happened on it.", "quantifier": "all histories of poll events", "why_tests_cant": "all histories, with key reuse", "anchors": ["src/server/poll.rs: listen"]}
{"id": "C37", "title": "Closed connections free their slot", "statement": "A write-closed event about a connection frees its slot. A connection that the server closes itself, contrary to what one would expect, never frees its slot, in any continuation; for every n there is a history after which n slots are taken for good although no socket is open.", "quantifier": "all histories of connections", "why_tests_cant": "unbounded growth is a property of unbounded histories", "anchors": ["src/server/poll.rs: listen", "src/server/server.rs: handle_io_ready_connection"]}
{"id": "C38", "title": "The router answers with the first matching listener that does not pass", "statement": "The result is that of the first listener, in order of registration, whose prefix matches the uri and whose result is not Next, or Next if there is none; exactly the matching listeners up to that one are called, in order, once each.", "quantifier": "all routers, uris and listener behaviours", "why_tests_cant": "all routers", "anchors": ["src/server/router.rs: result_internal"]}
{"id": "C39", "title": "Nested routers equal one flat router", "statement": "Mounting a router under a prefix is equivalent, for results and calls, to registering its listeners with the prefix prepended and stripped, to any nesting depth; stripping never panics.", "quantifier": "all router trees and uris", "why_tests_cant": "unbounded nesting", "anchors": ["src/server/router.rs: route, on_prefix"]}
{"id": "C40", "title": "An exact route fires only for its own uri", "statement": "A listener registered with on is called exactly if the router-local uri equals the given uri (and no earlier listener answered).", "quantifier": "all uris and routers", "why_tests_cant": "all uris", "anchors": ["src/server/router.rs: on"]}
{"id": "C41", "title": "A client send transmits the request at most twice and connects at most twice", "statement": "One send makes one attempt on the current stream; only if that fails does it reconnect and make exactly one more; it returns the first attempt's response when that succeeded, otherwise the second's outcome.", "quantifier": "all stream behaviours", "why_tests_cant": "all failure combinations", "anchors": ["src/client/client.rs: Connection::send, connect"]}
{"id": "C42", "title": "The client returns the response to its own request", "statement": "On a connection whose attempts have all succeeded so far, the i-th send is given the i-th response of the stream, complete and unaltered, under any fragmentation. (The stronger property, that a send always gets the answer to its own request, is refuted: after a send that timed out twice, or timed out once and could not reconnect, the stream is kept and the late answer to the first request is given to the next send.)", "quantifier": "all histories of sends and server timings", "why_tests_cant": "depends on response timing across calls", "anchors": ["src/client/client.rs: Connection::send, send_request"]}
{"id": "C43", "title": "Client and server compose", "statement": "For well-formed requests and a router returning well-formed responses, the response the client gets for each of a sequence of sends on one connection is what the router returns for that request, under any fragmentation in either direction.", "quantifier": "all request sequences, routers and fragmentations", "why_tests_cant": "the number of ways to cut a message into reads and to place would-block results is unbounded; the tests try a handful of hand-picked cuts", "anchors": ["src/client/client.rs: send_request", "src/server/server.rs: respond_to_requests"]}
{"id": "C44", "title": "Concurrent sends never share a connection", "statement": "At any time each connection is used by at most one send, and the sends on a connection take effect one after the other. A send goes round again only after finding each connection in use (or lost to a panic) at some time in the round, and gets one within two rounds if one is available and the other threads pause. (That it waits only while all connections are in use at once is refuted: it can go round any number of times although at every moment some connection is free.)", "quantifier": "all interleavings of any number of threads", "why_tests_cant": "all schedules", "anchors": ["src/client/client.rs: Client::send"]}
{"id": "C45", "title": "The client can read the server's own 404 response", "statement": "The answer that the server gives for a request without a route is reported to the client as a response with status 404 if the connection is closed after it. (While the connection stays open, which is the normal case, this is refuted: the answer has no content-length, so the client waits for the end of the stream, times out, repeats the request on a new stream, times out again and reports an error although the answer has arrived. The same holds of every response with neither a content-length nor a chunked coding, such as a 204 or 304 response, which has no body.)", "quantifier": "all requests without a route", "why_tests_cant": "an interaction between both ends and timing", "anchors": ["src/server/server.rs: NOT_FOUND_RESPONSE", "src/parse/response.rs: ResponseParser::new"]}
{"id": "C46", "title": "Every job runs exactly once, started in submission order", "statement": "For every schedule, a submitted job is started at most once, jobs are started in the order of submission, and when the pool has been dropped every submitted job that did not panic has run to completion. Until it is dropped, what a user sees of the pool is exactly what a first-come-first-served queue with that many servers shows, no more and no less; it never gets stuck where such a queue would not.", "quantifier": "all schedules, pool sizes and job sequences", "why_tests_cant": "all interleavings", "anchors": ["src/util/thread_pool.rs"]}
{"id": "C47", "title": "At most size jobs run at the same time, and dropping the pool never deadlocks", "statement": "At most size jobs are in progress at once; once drop has been called every maximal execution (with terminating, non-panicking jobs) ends with all workers finished.", "quantifier": "all schedules", "why_tests_cant": "all interleavings", "anchors": ["src/util/thread_pool.rs: Drop, new_worker"]}
{"id": "C48", "title": "A panicking job does not disable the pool", "statement": "A worker ends only by the pool being dropped or by a panic of the job it runs, one per panic; with fewer panics than workers the pool goes on accepting and running jobs. After as many panics as workers, contrary to what one would expect, the pool is disabled: jobs already accepted never run and submitting a job panics.", "quantifier": "all job sequences", "why_tests_cant": "all histories", "anchors": ["src/util/thread_pool.rs: new_worker, execute"]}
{"id": "C49", "title": "A connection is handled by one thread at a time", "statement": "Two handlers for the same connection never overlap, whatever the order in which readiness events are dispatched to the pool.", "quantifier": "all interleavings", "why_tests_cant": "all interleavings", "anchors": ["src/server/server.rs: handle_io_ready_connection (Mutex)", "src/util/thread_pool.rs"]}
{"id": "C50", "title": "No wakeup is lost", "statement": "Under edge-triggered notification, whenever a connection the server has not dropped has unread bytes, an event is pending, a job for it is queued, or a worker is on its way to reading them; between arrivals the server makes only finitely many steps, and when it can make no more (and a worker is left) every byte that arrived has been read. A handler keeps its connection only after a read that would block.", "quantifier": "all interleavings of arrivals, events and handlers", "why_tests_cant": "all interleavings", "anchors": ["src/server/server.rs: handle_io_ready_connection, respond_to_requests", "src/server/poll.rs"]}
{"id": "C51", "title": "The file router serves only files inside its directory", "statement": "A request whose uri has no '..' segment is answered with a file inside the served directory or with 404. (That this holds for all uris is refuted: '..' segments are not removed, so every file of the machine the process may read is served, also when the request arrives over the network, at the server and routes of the example program.)", "quantifier": "all uris", "why_tests_cant": "an adversarial uri", "anchors": ["src/main.rs: file_router"]}
{"id": "C52", "title": "The file router's answers are stable and correctly described", "statement": "Every response describes its file: a 200 response has a content-length equal to its body length and the content type of the path's suffix, a missing file gives 404 with content-length 0, and the content was that of the file at some earlier time. If calls do not overlap a path is read at most once and all calls get the same response; once a response is cached and no call is about to store another, every call gets it and the file is not read again. (That the answers are stable in general is refuted: with two overlapping first calls the answer can change after it has been given out.)", "quantifier": "all request sequences and file-system histories", "why_tests_cant": "all histories", "anchors": ["src/main.rs: file_router, file_response, get_content_type"]}
{"id": "C53", "title": "Response conversions state the right length", "statement": "Responses built from a status, a string or bytes carry a content-length equal to the body's length and survive a round trip to the client.", "quantifier": "all bodies", "why_tests_cant": "all bodies", "anchors": ["src/common/response.rs"]}
{"id": "C54", "title": "Limited reads never exceed the limit and fail exactly when it is exhausted", "statement": "Through any nesting of limited readers, at most limit bytes are taken from the stream, exactly the bytes returned are taken, and a read with an exhausted limit fails instead of reporting end of stream.", "quantifier": "all streams and nestings", "why_tests_cant": "all nestings and amounts", "anchors": ["src/parse/error_take.rs"]}
{"id": "C55", "title": "A signal during a read is harmless outside body data only", "statement": "A read interrupted by a signal (ErrorKind::Interrupted) never surfaces from the parser while it is reading lines, in any of its states and whatever was received in earlier calls; inside the bytes of a sized body or of a chunk it always does, whatever was and is delivered, so that a complete and correct message fails (on a server: the request is not routed, a 400 is sent, and the connection is dropped; see C77). Unless that happens, signals do not change the outcome.", "quantifier": "all streams and placements of Interrupted", "why_tests_cant": "signals arrive at arbitrary points; no test injects EINTR", "anchors": ["src/parse/deframe/bytes.rs: BytesDeframer::read", "src/parse/deframe/line.rs"]}
{"id": "C56", "title": "Accepted text is exactly UTF-8", "statement": "The lines of a message are accepted as text exactly if they are the UTF-8 encoding of a sequence of Unicode scalar values (shortest form, no surrogates, nothing above 10FFFF): all text of an accepted request or response is, whatever the delivery, and a line of the head that is not is refused with 'invalid UTF-8', whatever else is wrong with it.", "quantifier": "all byte strings", "why_tests_cant": "the set of invalid byte strings is unbounded (overlong, surrogate, truncated forms at any place)", "anchors": ["src/parse/deframe/line.rs", "src/parse/crlf_line.rs"]}
{"id": "C57", "title": "Memory of the non-blocking writer", "statement": "When everything written has been sent the buffer is empty; but while anything is left to send it also keeps the bytes already sent, so that it can grow beyond any bound with only one byte left to send.", "quantifier": "all capacities, all bounds", "why_tests_cant": "unbounded growth is a property of unbounded histories", "anchors": ["src/server/nonblocking_buf_writer.rs: flush_buf, write"]}
{"id": "C58", "title": "Accepting takes every connection, and starves everything else while accept fails", "statement": "On a listener event every connection accept returns, up to the first would-block, is handed on exactly once and in order, whatever other failures occur between. If accept never reports would-block (for instance it keeps failing for lack of descriptors) the loop never ends and no event about any connection is dispatched again.", "quantifier": "all sequences of accept results", "why_tests_cant": "the sequence of accept results is unbounded and outside the control of tests", "anchors": ["src/server/poll.rs: listen_until_blocked"]}
{"id": "C59", "title": "The event loop dispatches every event once and stops only on a poll error", "statement": "All events of all polls before the first failing one are dispatched exactly once, in order; the server function returns exactly when a poll fails, with that error, also if the failure is only an interruption by a signal.", "quantifier": "all sequences of poll results", "why_tests_cant": "unbounded runs of an endless loop", "anchors": ["src/server/poll.rs: poll_events", "src/server/poll.rs: listen"]}
{"id": "C60", "title": "Held output is not forgotten", "statement": "If a handler keeps its connection with output still held, its last write on the socket would have blocked, so that the socket becoming writable is reported as an event; and every call of the handler first gives the socket as much of the held output as it takes.", "quantifier": "all inputs, routers, socket behaviours and histories of handler calls", "why_tests_cant": "all histories of partial writes", "anchors": ["src/server/server.rs: handle_io_ready_connection, respond_to_requests", "src/server/nonblocking_buf_writer.rs: flush"]}
{"id": "C61", "title": "A slow request delays only its own connection", "statement": "Contrary to what one would expect it can delay all: for every number of workers there is an execution, without any panic, in which further events about the connection being served occupy all other workers (they wait for its mutex), and another connection with bytes to read is not served until the one handler in progress ends.", "quantifier": "all pool sizes, all continuations", "why_tests_cant": "needs a schedule that depends on the pool size; unbounded waiting", "anchors": ["src/server/server.rs: handle_io_ready_connection (lock)", "src/util/thread_pool.rs"]}
{"id": "C62", "title": "A panic while serving a request affects one connection", "statement": "Without a panic no worker is ever lost. Contrary to what one would expect one panic in one handler can end every worker, however many there are: the jobs that wait for the mutex of that connection find it poisoned and panic too; after that no connection is ever served again.", "quantifier": "all pool sizes, all continuations", "why_tests_cant": "needs a schedule that depends on the pool size; 'never again' is about all continuations", "anchors": ["src/server/server.rs: handle_io_ready_connection (lock().unwrap())", "src/util/thread_pool.rs"]}
{"id": "C63", "title": "A read time-out of zero panics", "statement": "With a read time-out of zero every send that reaches the server panics, before anything of the request is sent (and so poisons its connection).", "quantifier": "all requests and connection attempts", "why_tests_cant": "the configuration is not validated; the panic is in another module than the configuration", "anchors": ["src/client/stream_factory.rs: TcpStreamFactory::create"]}
{"id": "C64", "title": "A failed send is forgotten", "statement": "A request whose sending failed has no influence on the following ones. (Refuted: when writing a large body fails and reconnecting fails too, the stream with the truncated request is kept; the next request is written after it, and the server takes it for the rest of the first one's body.)", "quantifier": "all requests and failures", "why_tests_cant": "needs a partial write, a refused connection and a second send", "anchors": ["src/client/client.rs: Connection::send, connect"]}
{"id": "C65", "title": "A panic in a send costs a connection, and the last one costs the client", "statement": "A connection on which a send panicked is never used again; once that has happened to all connections no send ever returns (it does not fail either). With a read time-out of zero this takes as many sends as there are connections.", "quantifier": "all interleavings, all continuations", "why_tests_cant": "'never returns' is about all continuations; tests would hang", "anchors": ["src/client/client.rs: Client::send", "src/client/stream_factory.rs: TcpStreamFactory::create"]}
{"id": "C66", "title": "Changes to a served file are noticed", "statement": "(Refuted: after one call has stored its response, every later call for the path gets it, whatever happens to the file.)", "quantifier": "all file-system histories and call sequences", "why_tests_cant": "'never again' is about all continuations", "anchors": ["src/main.rs: file_router"]}
{"id": "C67", "title": "The file cache holds one response per path and does not grow without bound", "statement": "The cache has exactly one entry for each path that a call stored. (That it is bounded is refuted: for every n, n requests for files that do not exist leave n entries.)", "quantifier": "all histories", "why_tests_cant": "unbounded growth is a property of unbounded histories", "anchors": ["src/main.rs: file_router"]}
{"id": "C68", "title": "The example program answers every request as its routes say", "statement": "The secret path is answered with the secret message; a uri under /my/middleton/website/ with the file of that site's directory; every other uri that starts with '/' with the file of the game's directory; files as they were when first asked for; any other uri has no answer and gets the server's 404.", "quantifier": "all requests, all histories of earlier calls", "why_tests_cant": "all uris and all histories of the cache", "anchors": ["src/main.rs: main"]}
{"id": "C69", "title": "Connections do not interfere", "statement": "For any number of connections and workers, any schedule, any arrivals (bytes, ends, errors), any events and tokens, and any answers of the listeners, the requests routed for a connection, the bytes sent on it, and whether a handler drops it, are those of a server that has only this connection and reads from it the same items in the same order. So every statement about one connection (C24 to C29) holds of each connection of the whole server, whatever the others do -- except that the event loop may remove it (C36).", "quantifier": "all numbers of connections and workers, all interleavings, all inputs", "why_tests_cant": "the interleavings of handlers, arrivals and events are unbounded; tests exercise a few schedules", "anchors": ["src/server/server.rs: listen_abstract, handle_io_ready_connection, respond_to_requests", "src/util/thread_pool.rs", "src/server/poll.rs"]}
{"id": "C70", "title": "Every request is answered", "statement": "A peer whose requests are complete and well formed and do not ask to close is not cut off while its socket works, whatever other peers send and even if other listeners panic, unless an event removes its connection; if no connection is removed while a handler for it is queued or running, only an event about its own hang-up does. From every reachable state the server can make only a bounded number of steps before something else comes from outside; and when it can make no more, and a worker is left, every request that has arrived on such a connection has been routed exactly once, in order, and answered, in order (and the answers are on the socket if the socket takes them). (That a peer that does not hang up is always answered is refuted: after a hang-up of another peer while its handler is queued or running, a second event about that other socket removes a connection that got the same token; its request is never answered.)", "quantifier": "all numbers of connections and workers, all interleavings, all fragmentations, all routers", "why_tests_cant": "needs all schedules, all ways the bytes arrive while a handler is at work, and all behaviours of the other connections", "anchors": ["src/server/server.rs: listen_abstract, handle_io_ready_connection, respond_to_requests", "src/server/connection.rs: read_request", "src/util/thread_pool.rs", "src/server/poll.rs"]}
{"id": "C71", "title": "Buffering is invisible", "statement": "A server connection with its 4096-byte read buffer in front of the socket, and a client connection with its 8192-byte buffers, behave exactly as if they read the socket directly: same requests and responses, same bytes sent, same connections kept or dropped, nothing of the input lost, repeated or read before it is needed for any other purpose than being kept; only the pieces in which the input is seen change. This holds for every capacity, every way the socket delivers, and every size read_to_end reads by; reading never disturbs what is being written through the same stream.", "quantifier": "all sockets, capacities, parser states, histories of handler calls and of sends", "why_tests_cant": "the interaction of a partly consumed buffer with resumable parsers and with reads that bypass the buffer needs all cuts at all places", "anchors": ["src/util/stream.rs: with_buf_reader_and_writer, ReadableWriter, WriteableReader", "src/server/server.rs: new_buffered_stream", "src/client/client.rs: Connection::connect"]}
{"id": "C72", "title": "Every client gets its own responses", "statement": "Take any number of clients, each sending well-formed requests that do not ask to close over a connection of its own to one server, with listeners whose answers a client can read. However the server's threads, its event loop, the networks and the other peers (which may send anything) are scheduled: the results of a client's sends are, in order, its own listeners' answers to its own requests, whole and unchanged, up to at most one failure (time-out, end of stream, failed write), which is the last; no client ever gets a response to another request, of another client, or part of one. When the server has nothing more to do, has a worker left and has not removed the connection, and everything sent has been delivered, a client that waits gets its response.", "quantifier": "all numbers of clients, connections and workers, all interleavings, all fragmentations, all listeners", "why_tests_cant": "joins unbounded interleavings of all clients, the networks, the event loop and the workers", "anchors": ["src/client/client.rs: Connection::send, send_request", "src/server/server.rs: listen_abstract, handle_io_ready_connection, respond_to_requests", "src/server/connection.rs: read_request", "src/server/poll.rs", "src/util/thread_pool.rs"]}
{"id": "C73", "title": "A send has its request processed at most once", "statement": "Whatever the result of a send, its request is routed at most once per stream and at most twice in all, and the requests sent before on the connection are not routed again. (That it is routed at most once is refuted: for every request that does not ask to close, if the first answer is late the request is sent and routed again on a second stream, also if it is a POST; the send then succeeds and the caller cannot tell.)", "quantifier": "all requests, routers, connection attempts, fragmentations and prefixes of the delivery", "why_tests_cant": "counting over all outcomes of both attempts and all prefixes of delivery; the duplicate needs a particular delay", "anchors": ["src/client/client.rs: Connection::send", "src/server/server.rs"]}
{"id": "C74", "title": "A client survives the server closing its connection", "statement": "For every sequence of requests, of which any may ask to close, over any number of consecutive connections: every send succeeds with the router's response to its own request, and every request is routed exactly once, in order, even though the client only notices at its next send that a connection was closed, and whatever writing to the closed connection does.", "quantifier": "all request sequences, routers with readable responses, fragmentations, short writes, and behaviours of a closed connection's socket", "why_tests_cant": "all interleavings of closing and sending; the failing first attempt must not have had an effect", "anchors": ["src/client/client.rs: Connection::send", "src/server/server.rs: handle_io_ready_connection"]}
{"id": "C75", "title": "A connection is closed when the request asks for it", "statement": "Contrary to what one would expect only the exact value 'close' closes a connection. The version of a request has no effect on anything (a request of version 1.0 is read, answered and its connection kept exactly like one of version 1.1), and for every request whose connection header has any other value, such as 'Close' or 'close, te', the connection is kept.", "quantifier": "all requests, routers, deliveries and behaviours of the socket", "why_tests_cant": "all requests and values; a test shows one value", "anchors": ["src/server/server.rs: respond_to_requests", "src/parse/request.rs: parse_first_line", "src/common/version.rs"]}
{"id": "C76", "title": "The body of a request is not taken for another request", "statement": "(Refuted for the messages whose framing RFC 7230 has a server refuse or read otherwise: with two different content-lengths, with a space between the name content-length and the colon, and with a chunked coding as well as a content-length. In each case, for every request put in the body, the server routes and answers it as a second request, under any delivery.)", "quantifier": "all smuggled requests, routers, deliveries and behaviours of the socket", "why_tests_cant": "all smuggled requests and all deliveries; the reading that a proxy in front of the server has must be compared", "anchors": ["src/parse/body.rs: BodyParser::new", "src/parse/headers.rs: parse_header", "src/server/server.rs: respond_to_requests"]}
{"id": "C77", "title": "A read failure costs only the unfinished request", "statement": "If reading from a connection fails (such as by a reset) after some input, the parser reports exactly that failure, wherever the message is unfinished. A server connection then has routed exactly the complete requests before the failure, in order, has written their answers and then a 400 response (nothing if the failure says that the connection was closed), is dropped for good, and has read nothing after the failure.", "quantifier": "all inputs before and after the failure, fragmentations, blocks, kinds of failure, routers without panics, and behaviours of the socket's output", "why_tests_cant": "failures can occur at every point of every delivery", "anchors": ["src/server/connection.rs: read_request", "src/server/server.rs: respond_to_requests", "src/parse/parse.rs"]}
{"id": "C78", "title": "An error of the poll ends the server in order", "statement": "When polling fails (also when a signal interrupts it), the sockets without a job are closed at once; every job that waits or runs is run to its end, exactly once; and, unless input keeps arriving, after finitely many steps all threads have ended and the call that started the server returns the error, with every socket closed and nothing going on. (That the call returns the error is refuted if any handler ever panicked: then it panics instead. And after as many panics as there are workers, the next event about a connection aborts the process, since the pool panics again while it is dropped.)", "quantifier": "all numbers of connections and workers, all interleavings, all histories before the failure, all routers", "why_tests_cant": "termination over all interleavings; the outcome depends on a panic at any time before", "anchors": ["src/server/poll.rs: poll_events, listen", "src/server/server.rs: listen_abstract", "src/util/thread_pool.rs: drop, execute, new_worker"]}
{"id": "C79", "title": "What arrived before a hang-up is processed", "statement": "(Refuted: for any bytes, so also for any complete requests, that a peer sends before it closes the connection in both directions (or resets it), if one poll tells of both, the server removes the connection without reading; nothing of what arrived is ever read, in any continuation.)", "quantifier": "all bytes, pool sizes, listeners and continuations", "why_tests_cant": "'never' is about all continuations; the outcome depends on which events one poll reports together", "anchors": ["src/server/poll.rs: listen (write-closed events before others)"]}
{"id": "C80", "title": "Idle connections are closed", "statement": "(Refuted: for every n there is an execution after which n connections, silent ones or ones on which a request was begun and not finished, are open, and stay open in every continuation, however long, in which nothing more arrives on them and no event removes them: there is no time-out and no limit on connections.)", "quantifier": "all numbers of connections, unfinished requests, pool sizes, listeners and continuations", "why_tests_cant": "'never' is about all continuations; needs unboundedly many connections", "anchors": ["src/server/server.rs: listen_abstract, handle_io_ready_connection", "src/server/poll.rs"]}
{"id": "C81", "title": "A busy peer delays only itself", "statement": "(Refuted: a handler ends its call only when a read would block. From every state in which all workers are in calls for peers that keep sending well-formed requests, and for every n, there is a continuation in which each of these peers has n more requests read and answered, all workers are still in the same calls and no waiting job was started; the reached state is again such a state, so this can go on for ever.)", "quantifier": "all pool sizes, reachable states, requests, listeners and numbers of rounds", "why_tests_cant": "starvation is a property of unbounded executions", "anchors": ["src/server/server.rs: handle_io_ready_connection, respond_to_requests", "src/util/thread_pool.rs"]}
{"id": "C82", "title": "Interim responses are skipped", "statement": "(Refuted: whatever follows it and however it is delivered, a status line with a code from 100 to 199 before the final response makes the send fail with an invalid status code, after the request was sent twice on two streams.)", "quantifier": "all requests, interim status lines, continuations and deliveries", "why_tests_cant": "all status lines with such codes, all reason phrases, all deliveries", "anchors": ["src/parse/response.rs", "src/common/status.rs", "src/client/client.rs: Connection::send"]}
{"id": "C83", "title": "Nothing is done before a request is complete", "statement": "In every execution of the whole server, while only a proper beginning of a well-formed request has arrived on a connection, nothing is routed for it, nothing is written on it, and it is kept. (So the answer 100 Continue that a client with the header 'expect: 100-continue' waits for never comes: such an exchange waits for ever in every execution in which the client sends the body only after that answer.)", "quantifier": "all requests, proper prefixes, executions, and other peers", "why_tests_cant": "all executions; 'never' is about all continuations", "anchors": ["src/server/connection.rs: read_request", "src/server/server.rs: respond_to_requests"]}
{"id": "C84", "title": "Routing looks at the path of a uri", "statement": "(Refuted in three ways: a listener registered for an exact uri is never called for that uri with a query; a listener registered for a prefix is called also when the prefix ends in the middle of a segment; and a file router answers 404 to every uri with a query although the file exists.)", "quantifier": "all routers, uris, queries, file systems", "why_tests_cant": "all uris and queries", "anchors": ["src/server/router.rs: Router::result", "src/main.rs: file_router"]}
{"id": "C85", "title": "A send ends in bounded time", "statement": "Whatever the servers do, one send takes at most 2 x 3150336 bytes from its streams and waits for at most 2 x 3150337 reads (unless signals interrupt them), each limited by the read time-out; so it returns. (That it returns within one time-out, or two for the two attempts, is refuted: an answer sent byte by byte is waited for once for each byte; for every n up to 1572864 there is an answer for which a successful send waits n times.)", "quantifier": "all requests, answers, connection attempts, deliveries and failures", "why_tests_cant": "the bound is over all inputs of unbounded length and all fragmentations", "anchors": ["src/client/client.rs: Connection::send, send_request", "src/client/stream_factory.rs", "src/parse/"]}
{"id": "C86", "title": "What the server holds for a peer is bounded", "statement": "(Refuted: a peer that sends requests and reads nothing has all of them routed, and when the server has nothing more to do it holds all the answers; so for every n there is an execution after which n requests of such a peer were routed, not a byte was taken by its socket, the connection is open and at least 9n bytes are held. There is no limit, and nothing makes the server stop reading from a peer that does not read.)", "quantifier": "all numbers of requests, requests, listeners, pool sizes; for the first part all executions", "why_tests_cant": "unbounded growth is a property of unbounded executions", "anchors": ["src/server/server.rs: handle_io_ready_connection, respond_to_requests", "src/server/nonblocking_buf_writer.rs"]}
{"id": "C87", "title": "The memory held for a peer is in proportion to what it has still to read", "statement": "(Refuted: the write buffer gives back nothing before it has been sent whole. For every way of reading in which a peer never quite catches up, the buffer holds everything ever written for the connection; for every n there is an execution after which the peer has still one answer and one byte to read and the buffer holds n bytes.)", "quantifier": "all answers, requests, pool sizes, and reading schedules that never catch up", "why_tests_cant": "unbounded growth is a property of unbounded executions", "anchors": ["src/server/nonblocking_buf_writer.rs: flush_buf, write"]}
{"id": "C88", "title": "Threads sharing a client get their own responses", "statement": "However threads share a client, whatever its connections, the networks, the server and other peers do between the steps of a send: a send returns to the thread that called it, for the request it was called with; and as long as no send over a connection has failed, every send over it that returns a response returns what the server answered to that same request, also when it was the second attempt that succeeded; a thread whose response has arrived can return with it. (After a failure it does not hold: for any two requests there is an execution in which the first send ends with a time-out and the next one is given the answer to the first, while the server has never seen the second request.)", "quantifier": "all numbers of threads, connections and workers, requests, applications, interleavings, fragmentations, retries, failures", "why_tests_cant": "races between threads, retries, late answers and the server's workers cannot be enumerated by tests", "anchors": ["src/client/client.rs: Client::send, Connection::send, connect, send_request", "src/server/"]}
{"id": "C89", "title": "The server ends the stream when it is done with a connection", "statement": "In every execution, a connection that a handler has dropped, or that went down with a panic, has its socket closed. So when the server has nothing more to do and has a worker left: a peer that has sent well-formed requests one of which asks to close has had exactly the requests up to that one routed, once and in order, and its socket is closed; and a peer that has sent such requests and then ended its half of the stream has had all of them routed and its socket closed. In both cases what was sent is a first part of the answers, and all of them if the socket took that much.", "quantifier": "all numbers of connections and workers, all interleavings, fragmentations, routers without panics, other peers, and requests after the closing one", "why_tests_cant": "needs all schedules and all cuts of the input, among them those in which the end arrives while a handler is at work", "anchors": ["src/server/server.rs: handle_io_ready_connection, respond_to_requests", "src/server/poll.rs", "src/server/connection.rs: read_request"]}
{"id": "C90", "title": "What the server does for a peer depends only on what that peer sent", "statement": "In every execution of the whole server, with any number of workers and other peers: once the server has nothing more to do and has a worker left, the requests routed for a peer, the bytes written for it and whether its connection is kept or closed are those a small reference computes from the bytes that peer sent, whether it ended its stream, and the listeners' answers. So two executions in which a peer sent the same, with listeners that are functions of the request, end the same for it. In particular: requests followed by bytes that no request begins with, or by a request cut short, have those requests answered, then one 400 response, then the end of the connection; and a connection that fails is closed after what arrived before has been answered. This holds for inputs within the limits whose lines have no character of several bytes. (With such characters it is refuted: two peers of one server send the same correct request, for the one it is routed as sent, for the other, whose bytes arrived with pauses, a request with a 'host' header that it did not send.)", "quantifier": "all executions, numbers of peers and workers, fragmentations, inputs that stay within the limits and have no multi-byte characters in their lines (well-formed or not), listeners without panics, sockets that do not fail on writing", "why_tests_cant": "quantifies over all schedules and all byte strings; tests see a few of both", "anchors": ["src/server/server.rs", "src/server/poll.rs", "src/server/connection.rs", "src/parse/", "src/util/thread_pool.rs"]}
{"id": "C91", "title": "A client gets the files of the example program", "statement": "Take the example program as the server's router, any number of clients and other peers, and files that may change at any time. Every response that a client gets for a well-formed request whose uri starts with '/' is the secret message if it asked for that, and otherwise the file that the uri names, byte for byte as it was at some time, with the content type of its name, or a 404 with an empty body if there was no such file; and a client whose connection was not removed gets it once the server has nothing more to do and everything was delivered. This holds for files of at most 1.5 MiB. (For every larger file it is refuted: the server sends it, but no send of a client ever returns it, however the bytes arrive.)", "quantifier": "all file systems and histories of them, uris, numbers of clients, peers and workers, interleavings, fragmentations", "why_tests_cant": "composes routing, the file cache, encoding, the event loop, networks and the client's parser over all schedules and contents", "anchors": ["src/main.rs", "src/server/", "src/client/client.rs", "src/parse/"]}
{"id": "C92", "title": "The server works the same on every stream", "statement": "Take any stream that keeps the promises of Read and Write (a read gives at most what fits, a write takes a first part of the bytes, a failing call takes nothing), whatever its state and whatever happens around it between two calls of the handler. A server connection on it routes the same requests, hands over the same bytes and is kept or dropped alike as one on a plain socket that delivers what was read from the stream. So the requests in what was read are answered, in order, as the reference says; whatever is read, the output is the answers to the requests routed and then a 400 response or nothing; a request that asks to close is the last; and a call that keeps the connection has used everything it has read and has seen the stream say that there is no more. (That a call always ends is refuted for streams whose write takes nothing without an error: such a write is repeated for ever.)", "quantifier": "all streams (any type of states and any functions for read, write and flush that keep the promises), all inputs, routers, numbers of handler calls", "why_tests_cant": "quantifies over all implementations of the stream; a test has one", "anchors": ["src/util/stream.rs: Stream, with_buf_reader_and_writer", "src/server/server.rs: listen_abstract, handle_io_ready_connection", "src/server/connection.rs", "src/server/nonblocking_buf_writer.rs"]}
{"id": "C93", "title": "Connections over TLS are answered like plain ones, and end properly", "statement": "On a server that listens with TLS: once a peer's handshake goes well, and as long as its socket only takes bytes or blocks, the requests it sends encrypted are answered as the reference says, and what it can decrypt is at all times the first part of those answers, in order; all of them when nothing is left to send. Whatever the peer and the socket do: before the handshake is over nothing is read as a request and nothing is accepted for sending; a request that asks to close is the last; a flush that succeeds has sent everything; the peer is never told that the connection is closed before it is dropped, and if it is told then after everything that was handed to the stream, which it is if the socket takes everything. A call of the handler that keeps the connection has used everything that has arrived, or there is something to send and the socket takes nothing, so it waits only for what the event loop reports. While the socket takes nothing of what there is to send, further requests are neither read nor routed, and nothing more is held for that peer (unlike on plain connections, C86). (That a peer that was told so has been sent every answer is refuted: an answer still in the connection's own write buffer is dropped, and the peer gets a proper end without it.)", "quantifier": "all sequences of records and arrivals, outcomes of socket reads and writes, ways of cutting bytes into records, routers, numbers of handler calls", "why_tests_cant": "needs TLS peers with every timing of handshake, records, blocking and close; the tests use in-memory streams", "anchors": ["src/util/tls_stream.rs", "src/server/server.rs: listen_https, listen_abstract", "src/server/connection.rs", "src/server/nonblocking_buf_writer.rs"]}
{"id": "C94", "title": "Clients behave the same on every stream, and over TLS get their responses in order", "statement": "A connection of the client on any stream that reads and writes as Read and Write promise (the stream of http requests or of https requests) returns what it returns on sockets that deliver what was read from those streams and take what they took, over any sequence of sends, failed connects and reconnects. Each send transmits its request at most twice, the second time on a new stream, and completely on the stream its response came from. If the stream gives the responses in any pieces and its writes go through, each send returns its response, in order, and the stream got the requests one after the other. Over TLS: if the handshake goes well and the socket never refuses a write, the same holds with what the server can decrypt, and nothing of a request is held back when its send returns. (Two claims are refuted: that a response without a length that a TLS server ends by closing properly is returned: the client takes the proper close for an error, transmits the request a second time and fails; and that a response cut off over TLS without the closing notice is noticed: it is returned as if whole.)", "quantifier": "all streams, all outcomes of connecting, reading, writing and flushing, all sequences of requests and all TLS records, fragmentations and cuttings into records", "why_tests_cant": "quantifies over all implementations and behaviours of the stream; tests use mocks, and none has a TLS peer that closes", "anchors": ["src/client/client.rs", "src/client/stream_factory.rs", "src/util/stream.rs", "src/util/tls_stream.rs"]}
{"id": "C95", "title": "A server that listens with TLS does for each peer what the reference says, whatever the other peers do", "statement": "On a server that listens with TLS, with any number of connections and of worker threads: for each peer whose handshake goes well and who then sends requests and has not closed, the requests routed on its connection, what it can decrypt and whether its connection is open are at all times what the reference says of a first part of the bytes that this peer sent, except that the last part of the answers may still be to come. When no event and no job is left for the connection, and its socket is not full, it is what the reference says of all the bytes that peer sent, and if the connection is open every answer has been delivered. So two runs of servers, with different other peers, numbers of workers, timings, ways of cutting bytes into records and socket capacities, end the same for a peer that sent the same bytes. Without anything new from peers and sockets the server stops after a number of steps known beforehand, and if a worker is alive it stops only when no event and no job is left for any connection; when all peers are as above and no listener panics, all workers stay alive.", "quantifier": "all numbers of connections and workers, all executions (interleavings of arrivals, room on sockets, spurious events, dispatches, jobs), all records and their cutting, all socket capacities, all routers that do not panic for the connection in question, all bytes within the limits without multi-byte characters in lines (as for C90)", "why_tests_cant": "needs every interleaving of several TLS peers with partial writes and worker threads", "anchors": ["src/server/server.rs: listen_https, listen_abstract", "src/server/connection.rs", "src/util/tls_stream.rs", "src/util/thread_pool.rs", "src/server/poll.rs"]}
{"id": "C96", "title": "Which addresses servers and clients accept, and the https client checks the host it connects to", "statement": "A server accepts as address exactly the IPv4 addresses with a port and the IPv6 addresses in brackets with a port (eight groups of hexadecimal digits, or fewer with one '::', the last two perhaps as an IPv4 address), and binds to the numbers written; any other text makes it panic. A client given such an address connects to the same numbers. An https client can be created exactly for addresses that are a host name, or a host name and a colon and anything; it checks certificates against that name. For a host name and a port number, clients connect to a host of that name at that port and the https client checks the certificate against the same name; a server panics on it. An https client never connects to a bare address, and the host it looks up is the one whose certificate it checks if there is no colon in it. (Two claims are refuted: that an https client can be created for the address a server listens on: it panics on every one of them; and that the host looked up is always the one checked: for fe80::1:443 the host is fe80::1 and the name checked is fe80.)", "quantifier": "all texts as addresses, all numbers of threads and connections, all versions of the standard library and of webpki that differ in leading zeros, digits of ports and underscores", "why_tests_cant": "quantifies over all texts; the tests use one address of each kind", "anchors": ["src/server/server.rs: listen_abstract", "src/client/stream_factory.rs", "src/client/client.rs: Client::new", "src/server/config.rs", "src/client/config.rs"]}
{"id": "C97", "title": "A server that cannot start says so and leaves nothing behind", "statement": "Starting a server panics exactly if its address is not a socket address or it is to have no threads, and then no thread has been started and nothing bound. If the operating system refuses to bind, to create the poll or to register the listener, the first such error is returned, nothing is waited for or served, and before it is returned all threads of the server have ended, in whatever order they run: dropping the pool takes a bounded number of steps and goes through. Otherwise the server listens on its address with exactly as many threads as configured.", "quantifier": "all addresses, thread counts, outcomes of the three system calls, and interleavings of the threads while the pool is dropped", "why_tests_cant": "needs failing system calls and every interleaving of the ending threads", "anchors": ["src/server/server.rs: listen_abstract", "src/server/poll.rs: listen", "src/util/thread_pool.rs"]}
{"id": "C98", "title": "Every call of the handler returns, on every stream that has only finitely much to give", "statement": "Whatever a stream gives and takes, and whatever the listeners answer: if it has only finitely much to give before it blocks, ends or fails, is not interrupted for ever and does not for ever take nothing without blocking, then each call of the handler for its connection returns. This holds with TLS for whatever the peer sends and whatever the socket does. So a server that listens with TLS stops only when no event and no job is left for any connection, if a worker is alive. (The claim that calls always return is refuted: a peer who has always sent another request by the time the server reads again is answered for ever in one call, and the worker does nothing else.)", "quantifier": "all streams (any state, any read, write and flush) that are finite in that sense, all listeners, all sequences of calls, all TLS records and socket outcomes", "why_tests_cant": "termination for all streams cannot be tested; a test that does not end says nothing", "anchors": ["src/server/server.rs: handle_io_ready_connection, respond_to_requests", "src/server/connection.rs", "src/server/nonblocking_buf_writer.rs", "src/util/tls_stream.rs", "src/parse"]}
{"id": "C99", "title": "Every send of a client returns on every stream, and takes only so much", "statement": "Whatever streams a client is given, for http or https, also streams that never end: if they are not interrupted for ever and a read gives no more than was asked for, every send returns. Over all the streams of its connection a send takes at most 2 x (512 + 4096 + 3145728 + 8192) bytes, and reads at most 2 x (512 + 4096 + 3145728 + 2) times and once for each interruption; so if every read ends in bounded time (read_timeout) the send does. With TLS it returns whatever the server sends and whatever the socket does. (Unlike the server's calls, C98, which such a peer can keep going for ever.)", "quantifier": "all streams (any state, any read, write and flush) with finitely many interruptions, all sequences of requests, failed connects and reconnects, all TLS records and socket outcomes", "why_tests_cant": "termination and bounds over all behaviours of a server, also endless ones, cannot be tested", "anchors": ["src/client/client.rs: Connection::send, connect, send_request", "src/client/stream_factory.rs", "src/util/stream.rs", "src/util/tls_stream.rs", "src/parse"]}

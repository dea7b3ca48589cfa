-Q theories Verif
theories/Model/Addr.v
theories/Model/Addr6.v
theories/Model/Buffered.v
theories/Model/Bytes.v
theories/Model/Client.v
theories/Model/ClientStreams.v
theories/Model/Common.v
theories/Model/Convert.v
theories/Model/Encode.v
theories/Model/Files.v
theories/Model/Full.v
theories/Model/Generic.v
theories/Model/Handlers.v
theories/Model/Io.v
theories/Model/Life.v
theories/Model/Locks.v
theories/Model/Parse.v
theories/Model/Poll.v
theories/Model/Pool.v
theories/Model/Router.v
theories/Model/Secure.v
theories/Model/Server.v
theories/Model/Slab.v
theories/Model/Streams.v
theories/Model/Tls.v
theories/Model/Whole.v
theories/Model/Writer.v
theories/Proofs/Addr6Facts.v
theories/Proofs/AddrFacts.v
theories/Proofs/AppendFacts.v
theories/Proofs/BatchFacts.v
theories/Proofs/BlockedFacts.v
theories/Proofs/BoundFacts.v
theories/Proofs/BufferedConnFacts.v
theories/Proofs/BufferedFacts.v
theories/Proofs/BytesFacts.v
theories/Proofs/CallFacts.v
theories/Proofs/Checks.v
theories/Proofs/ClientBoundFacts.v
theories/Proofs/ClientFacts.v
theories/Proofs/ClientStreamsFacts.v
theories/Proofs/ClientsFacts.v
theories/Proofs/CommonFacts.v
theories/Proofs/ConnFacts.v
theories/Proofs/DriveFacts.v
theories/Proofs/EarlyFacts.v
theories/Proofs/EncodeFacts.v
theories/Proofs/EndsFacts.v
theories/Proofs/FailConnFacts.v
theories/Proofs/FailFacts.v
theories/Proofs/FilesFacts.v
theories/Proofs/ForwardFacts.v
theories/Proofs/FrameFacts.v
theories/Proofs/FrugalFacts.v
theories/Proofs/FuelFacts.v
theories/Proofs/FullFacts.v
theories/Proofs/GenericFacts.v
theories/Proofs/GrammarFacts.v
theories/Proofs/HandlersFacts.v
theories/Proofs/HeldFacts.v
theories/Proofs/HttpsFacts.v
theories/Proofs/HttpsLive.v
theories/Proofs/IoFacts.v
theories/Proofs/LifeFacts.v
theories/Proofs/LimitFacts.v
theories/Proofs/LimitGrammar.v
theories/Proofs/LocksFacts.v
theories/Proofs/LongFacts.v
theories/Proofs/MonoFacts.v
theories/Proofs/OpsFacts.v
theories/Proofs/OversizeFacts.v
theories/Proofs/PanicFacts.v
theories/Proofs/ParseFacts.v
theories/Proofs/PollFacts.v
theories/Proofs/PoolFacts.v
theories/Proofs/QueueFacts.v
theories/Proofs/ReachedFacts.v
theories/Proofs/RecutFacts.v
theories/Proofs/ReturnFacts.v
theories/Proofs/RouterFacts.v
theories/Proofs/SecureFacts.v
theories/Proofs/ServerFacts.v
theories/Proofs/SlabFacts.v
theories/Proofs/StandardFacts.v
theories/Proofs/StreamsFacts.v
theories/Proofs/TlsEndsFacts.v
theories/Proofs/TlsFacts.v
theories/Proofs/UnwindFacts.v
theories/Proofs/WakeFacts.v
theories/Proofs/WholeFacts.v
theories/Proofs/WorldFacts.v
theories/Proofs/WriterFacts.v
theories/Properties/Addr.v
theories/Properties/Addr6.v
theories/Properties/Arrives.v
theories/Properties/Backlog.v
theories/Properties/Blocks.v
theories/Properties/Bounds.v
theories/Properties/Buffered.v
theories/Properties/Building.v
theories/Properties/Client.v
theories/Properties/ClientStreams.v
theories/Properties/Clients.v
theories/Properties/Closing.v
theories/Properties/Compose.v
theories/Properties/Cost.v
theories/Properties/Delivery.v
theories/Properties/Early.v
theories/Properties/Failures.v
theories/Properties/Felled.v
theories/Properties/Files.v
theories/Properties/Forward.v
theories/Properties/Full.v
theories/Properties/Halved.v
theories/Properties/Handlers.v
theories/Properties/Handmade.v
theories/Properties/HeadOnly.v
theories/Properties/Https.v
theories/Properties/Interim.v
theories/Properties/Life.v
theories/Properties/Limits.v
theories/Properties/LongLines.v
theories/Properties/Oversize.v
theories/Properties/Panics.v
theories/Properties/PanicsTls.v
theories/Properties/Patience.v
theories/Properties/Peers.v
theories/Properties/Poll.v
theories/Properties/Pool.v
theories/Properties/Query.v
theories/Properties/Queue.v
theories/Properties/Reached.v
theories/Properties/Reconnect.v
theories/Properties/Reference.v
theories/Properties/Retried.v
theories/Properties/Returns.v
theories/Properties/RoundTrip.v
theories/Properties/Router.v
theories/Properties/Secure.v
theories/Properties/SecureLimits.v
theories/Properties/Server.v
theories/Properties/Sharing.v
theories/Properties/Site.v
theories/Properties/Slab.v
theories/Properties/Smuggling.v
theories/Properties/Spoken.v
theories/Properties/SpokenTls.v
theories/Properties/Standard.v
theories/Properties/Stopped.v
theories/Properties/Streaming.v
theories/Properties/Streams.v
theories/Properties/Syntax.v
theories/Properties/Tables.v
theories/Properties/Text.v
theories/Properties/Tls.v
theories/Properties/Whole.v
theories/Properties/World.v
theories/Properties/Writer.v
theories/Spec/Addr.v
theories/Spec/Addr6.v
theories/Spec/Arrivals.v
theories/Spec/Batch.v
theories/Spec/Buffering.v
theories/Spec/Building.v
theories/Spec/ClientStreams.v
theories/Spec/Clients.v
theories/Spec/Cost.v
theories/Spec/Dialogue.v
theories/Spec/Drive.v
theories/Spec/Early.v
theories/Spec/Ending.v
theories/Spec/Events.v
theories/Spec/Exchange.v
theories/Spec/Finite.v
theories/Spec/Forward.v
theories/Spec/Grammar.v
theories/Spec/Handmade.v
theories/Spec/HeadOnly.v
theories/Spec/Https.v
theories/Spec/Jobs.v
theories/Spec/Names.v
theories/Spec/Numerals.v
theories/Spec/Output.v
theories/Spec/Oversize.v
theories/Spec/Panics.v
theories/Spec/Queue.v
theories/Spec/Reconnect.v
theories/Spec/Routes.v
theories/Spec/Secure.v
theories/Spec/Session.v
theories/Spec/Sharing.v
theories/Spec/Site.v
theories/Spec/Slots.v
theories/Spec/Spoken.v
theories/Spec/Standard.v
theories/Spec/Stream.v
theories/Spec/Streams.v
theories/Spec/Tls.v
theories/Spec/TooLong.v
theories/Spec/Traces.v
theories/Spec/Tree.v
theories/Spec/Unicode.v
theories/Spec/Wire.v
theories/Spec/World.v

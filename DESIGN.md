# Formal model of interlockledger/rust-il2-iltags in Rocq

This file says what is modelled, how, what each property in
`properties.jsonl` is proved from, and what the result rests on.

## 1. Shape of the model

The model is executable Gallina over the standard library only
(`List`, `NArith`, `ZArith`, `Permutation`, `Sorted`). Each function of
`/repo/src` that matters is one definition with a comment citing its file and
lines. Files under `rocq/theories/`:

| file | contents |
| --- | --- |
| `Base.v`, `BaseFacts.v` | result type, monad, list helpers indexed by `N`, build parameters `cfg`, checked and wrapping machine arithmetic |
| `Types.v` | error enums, tag structs as one inductive type, constants |
| `Spec.v`, `SpecFacts.v` | independent specification: big-endian, ILInt wire form, sign folding, UTF-8, tag layout `enc`, wire grammar `wire`, well-formedness |
| `IO.v` | `src/io/mod.rs`, `src/io/array`, `src/io/std_io`: readers and writers as state machines |
| `IOSpec.v` | independent vocabulary for streams: `pending`, `delivers`, `puts`, `accepts` |
| `IOFacts.v`, `WriterFacts.v`, `Logic.v`, `WLogic.v` | facts about single reads and writes; small program logics (`safe`, `sound`, `complete`, `emits`) |
| `Hist.v`, `HistFacts.v` | arbitrary histories of operations on a reader or writer |
| `ILInt.v`, `ILIntFacts.v` | `src/ilint/mod.rs` |
| `Data.v`, `DataFacts.v` | `src/io/data/mod.rs` and `src/tags/serialization/mod.rs` |
| `Tags.v` | `src/tags/mod.rs`, `standard/implicit`, `standard/explicit`: sizes, serialization, defaults, downcasts |
| `SortFacts.v`, `TagsFacts.v`, `SameFacts.v`, `CallFacts.v` | sorting and maps, layout of serialized tags, independence of hash order, the calls a serializer makes |
| `Factory.v` | creator engine, standard factory, deserialization, `src/tags/util` |
| `FactoryFacts.v`, `DecodeFacts.v`, `DeserFacts.v`, `IntoFacts.v`, `EngineFacts.v`, `WireFacts.v`, `StableFacts.v`, `FromFacts.v` | the deserializer against the wire grammar |
| `MonoFacts.v` | two runs of the deserializer, on a reader and on one with more data |
| `ParseSpec.v` | a reference parser of the format over byte lists, with the kind and place of every flaw |
| `ParseFacts.v` | the deserializer computes that parser, or ends with an error of the reader |
| `ClosedFacts.v`, `ConsumeFacts.v` | anything preserved by the ways readers are used holds of the deserializer; bytes taken by any call, failed ones included |
| `DepthFacts.v` | an upper bound on nested calls of `deserialize` |
| `SettleFacts.v` | the reference parser with more steps and with more data |
| `Scanner.v`, `ScannerFacts.v` | `src/tags/raw/mod.rs` |
| `Payload.v` | `src/tags/payload/mod.rs` |
| `Open.v`, `OpenFacts.v` | `ILTag` as an open trait: user types inside the containers of the library |
| `OpenUtil.v` | `src/tags/util` on any object, and `ILTagFactory` as an open trait |
| `World.v` | the writing side over user objects and writers that share state, in machine arithmetic |
| `AsAny.v` | downcasts of any objects: `as_any`, `as_mut_any` and `id` of user types are any code over shared state |
| `WorldRead.v` | the reading side over user readers, creators and tags that share state |
| `WorldReadFacts.v`, `WorldReadSim.v`, `WorldReadRuns.v`, `WorldLog.v`, `WorldStack.v` | limits and termination; related states; bounds on the depth and code without state; the order of the calls; readers kept on a stack in the state |
| `WorldUtil.v` | `from_bytes` and the clones over user code that shares state |
| `KinFacts.v` | the reader an object works on stays the same object |
| `Prog.v`, `ProgFacts.v`, `ProgWire.v` | user types whose `deserialize_value` is a program over `Reader` and `ILTagFactory`; the grammar of what they accept |
| `IntoProg.v`, `IntoProgFacts.v`, `IntoCallFacts.v` | programs that also call `deserialize_into`; that call written as a program |
| `OtherProg.v`, `OtherProgFacts.v` | programs that also call the factory on readers they make; the same with the answers written in |
| `FullProg.v`, `FullProgFacts.v` | programs that call both methods of the factory, on their own reader and on readers they make |
| `SerProg.v`, `SerProgFacts.v` | user types whose serialize is a program, on any writer |
| `AnyFull.v`, `AnyFullFacts.v`, `AnyFullRuns.v` | the programs of `FullProg.v` over arbitrary implementations of Reader |
| `Panic.v`, `PanicFacts.v` | user code with something else in place of its panics |
| `AnyProg.v`, `AnyProgFacts.v` | these programs run over any implementation of `Reader`, and the relation to their runs over the library's readers |
| `Machine.v`, `OpenMachine.v` | sizes and serialization with `u64` arithmetic, for the tags of the library and for trees with user tags |
| `Ctors.v` | constructors, setters, accessors, dictionary interface |
| `Cost.v`, `CostFacts.v` | `size()`, `serialize()`, `to_bytes()` counting the calls they make |
| `Trace.v`, `TraceFacts.v` | `deserialize` recording tag creations and memory requests |
| `Work.v`, `WorkFacts.v`, `WorkCost.v` | `deserialize` over any reader counting the calls of `read` and `read_all`, those between LimitedReaders included |
| `Canon.v`, `CanonFacts.v` | independent grammar of canonical encodings |
| `Alloc.v`, `AllocFacts.v` | `deserialize` on a target, with the capacity checks of its vectors |
| `Any.v`, `AnyFacts.v` | the reading code over any implementation of `Reader`, and its relation to the code over the library's readers |
| `AnyScan.v` | the default skips and the scanner over any implementation of `Reader` |
| `AnyWriter.v`, `AnyWriterFacts.v` | the writing code over any implementation of `Writer`, and the calls it makes |
| `PILInt.v` (C01-C07), `PReaders.v` (C10-C18, C58), `PLimited.v` (C13, C58), `PWriters.v` (C19-C22), `PData.v` (C08, C09), `PTags.v` (C23, C24, C30, C43, C44, C46, C56), `PDecode.v` (C25-C29, C45), `PErrors.v` (C09, C45, C60), `PParse.v` (C61, C62), `PStream.v` (C65-C67), `PForeign.v` (C68), `PAny.v` (C69-C71), `PAnyScan.v` (C74, C75), `PAnyWriter.v` (C72), `PEngine.v` (C37, C38), `PDict.v` (C31-C34), `PLimits.v` (C35, C36, C39, C40), `PUtil.v` (C41, C42), `PScanner.v`, `PScanLimits.v` (C48-C52), `PScanParse.v` (C73), `PPayload.v`, `PPayloadOpen.v` (C47), `POpen.v` (C63, C76), `PInto.v` (C77), `PMachine.v` (C64), `POpenMachine.v` (C78), `PCost.v` (C53), `PTrace.v` (C54, C55), `PAlloc.v` (C79), `PCanon.v` (C80), `PProg.v` (C81), `PAnyProg.v` (C82), `PIntoProg.v` (C83), `POther.v` (C84), `PFull.v` (C85), `PSerProg.v` (C86), `PAnyFull.v` (C87), `PPanic.v`, `PPanicWorld.v` (C88), `POpenUtil.v` (C89), `PWorld.v` (C90), `PAsAny.v` (C91), `PWorldRead.v`, `PWorldStack.v` (C92), `PWorldUtil.v` (C93), `PWork.v` (C94), `PCtors.v` (C57, C59) | the property theorems, with `Print Assumptions` and examples beside them |

### Conventions

* A byte, `u16`..`u64`, a `usize` and a length are `N`; `i8`..`i64` are `Z`.
  Range facts are explicit predicates. `f32`/`f64` are their bit patterns.
* `&mut self` methods are functions returning the new state, also on failure.
* `Result` is `res E A` with two more outcomes: `Panic` (failed assertion,
  index out of range, arithmetic overflow with overflow checks on) and
  `OutOfFuel` (a loop of the model ran out of its iteration bound; theorems
  show it never happens).
* `cfg` holds the two build parameters behaviour depends on: whether overflow
  checks are on, and the largest `usize`.
* `Reader` trait objects are values of one inductive type: slice reader,
  vector reader, `LimitedReader` over any reader, `ReadReader` over a
  `std::io::Read` with an arbitrary schedule of short reads, interruptions and
  failures (its `read_exact` being std's, or one that takes all or nothing),
  the blanket `Read + Seek` reader over a seekable source with the
  same schedule and failing seeks, and a user reader that implements only
  `read` (an arbitrary script of results). Writers likewise.
* A `HashMap` is an association list in arbitrary order with distinct keys.
* A `String` is its bytes; validity is UTF-8 validity.

### Not modelled

* Memory: allocation failure, stack depth, `Arc`/`Box` identity. Capacity
  overflow (a request above `isize::MAX` bytes) is left out of `Factory.v`;
  `Alloc.v` has it for the requests deserialization makes, and C79 says exactly
  when it makes a difference (never with 64-bit pointers).
  Sizes are mathematical in `Tags.v`, so `u64` additions in
  `size()`/`value_size()` are exact there; `Machine.v` has them with overflow
  and C64 shows that it makes no difference for tags that fit in memory.
* Threads (`Send`/`Sync` bounds): the library has no shared mutable state.
* User code is arbitrary where it meets the library: readers with any `read`,
  `read_all`, `skip` and `skip_u64` (`Any.v`, `AnyScan.v`), writers
  (`AnyWriter.v`), tag types with any `id`, `size`, `serialize`, `to_bytes` and
  `deserialize_value` (`Open.v`; as programs over the traits they are given,
  `Prog.v`; over any reader, `AnyProg.v`), the factory given to a container
  (C68). `create_tag` is a function of the factory, so a program that calls it
  is one of the programs of `Prog.v` with the answer put in. Programs that also
  call the factory's `deserialize_into`, maybe on objects of their own types, are
  in `IntoProg.v`; programs that call `deserialize` on readers they make
  themselves are in `OtherProg.v`, where nothing bounds the depth of the calls;
  programs that call both methods, on any reader, are in `FullProg.v`.
  These over the readers of `Any.v` are in `AnyFull.v`; the readers that a
  program makes itself are those of the library there.
  Programs as the body of serialize, on any implementation of `Writer`, are in
  `SerProg.v`; they do not change the object (`&self`, no interior mutability).
  Objects and writers that change shared state when asked for their size or
  serialized are in `World.v`; readers, creators and tags that share state while
  reading are in `WorldRead.v`, and `from_bytes` and the clones with both in
  `WorldUtil.v`; an `as_any` that returns another object is in
  `AsAny.v`. Sums of the sizes user tags say beyond 64 bits are
  excluded by `fits` in C76 and covered by C78.
* The contents of boxed errors and of `std::io::Error` beyond its kind.
* `std` itself: `read_exact`, `write_all`, `Cursor`-like seeking,
  `str::from_utf8`, `sort_unstable`, `HashMap` are modelled from their
  documentation. Newer versions of std override `read_exact` for slices and
  `Cursor` so that a failing call consumes everything but stores nothing; the
  model has sources that take and store what there is, and sources that take
  nothing. The difference is in the contents of the buffer after a failure
  (C40, C77); the readers of `Any.v` include all of these.

## 2. Trusted base

* Coq 8.16.1's kernel (and `coqchk`).
* `Print Assumptions` under each property theorem prints "Closed under the
  global context" for all of them: no theorem uses an axiom.
* A checker that lists the axioms of every *loaded* library reports seven,
  all from the standard library module type instance
  `Coq.ssr.ssrunder.Under_rel` (`Under_rel`, `Under_relE`, `under_rel_done`,
  `Over_rel`, `over_rel`, `over_rel_done`, `Under_rel_from_rel`), which the
  standard library's own arithmetic tactics pull in. No theorem here depends
  on them.
* The reading of `/repo/src` recorded in the comments of the model files.
  As evidence for it, `ConfIO.v` and `ConfTags.v` run the vectors of the
  project's own unit tests on the model and find the results those tests
  assert. They are tests of the model, not proofs; the properties do not use
  them.

## 3. How each property is proved

* **C01 ILInt round trip.** Model encode/decode/decode_from_bytes; prove encode writes `ilint_spec v`, decode on any reader delivering it returns v.
* **C02 ILInt size is exact and minimal.** Case analysis on the nine widths against base-256 arithmetic; minimality from the grammar of C03.
* **C03 ILInt decoder accepts exactly the wire format.** Grammar `ilint_repr v bs`; soundness for every reader, completeness for every reader with those bytes pending.
* **C04 ILInt encodings are prefix free.** From determinism of the grammar.
* **C05 Canonical ILInt is not enforced.** Refutation with a witness, plus the exact set of accepted encodings as a theorem.
* **C06 Sign folding is a bijection.** Bit operations on 64-bit words rewritten to arithmetic, then linear arithmetic.
* **C07 Signed ILInt round trip and compactness.** C01 composed with C06; monotonicity of size in magnitude.
* **C08 Fixed-width values are big-endian and round trip.** Big-endian spec by base-256 digits; two's complement by mod 2^w.
* **C09 Strings are accepted exactly when valid UTF-8.** Table-driven validator proved equal to 'is the encoding of some scalar values'.
* **C10 ByteArrayReader is a positional stream.** Invariant offset <= length by induction over operation lists, refinement to (bytes, position).
* **C11 VecReader equals ByteArrayReader.** Simulation by induction over operation lists.
* **C12 Memory readers are all-or-nothing.** Direct case analysis over all states satisfying the invariant.
* **C13 LimitedReader never over-reads.** Refinement by induction over operation lists over an arbitrary good source that holds the limit; over memory sources and good sources of any length (`PLimited.v`); for failing sources only the calls' own account is exact (C58).
* **C14 LimitedReader failed attempts consume nothing.** Theorem for read/read_all; refutation for skip with a witness of 600 bytes.
* **C15 Default skip and skip_u64 discard exactly count bytes.** Loop lemma: skip equals reading count bytes, for every reader using the default; fuel never runs out.
* **C16 ReadReader does not depend on fragmentation.** Induction over the schedule. A source whose `read_exact` takes all or nothing: simulation with the vector reader.
* **C17 Seekable skip.** Theorem for the in-range case; three refutations with witnesses.
* **C18 SizedSeek reports length without moving.** Direct; refutation for past-the-end positions.
* **C19 VecWriter overwrites then extends.** Refinement to overwrite-then-extend, induction over histories.
* **C20 BorrowedVecWriter keeps the prefix and never shrinks.** Invariant over histories; refutation with a witness for bytes_written.
* **C21 ByteArrayWriter stays inside its slice.** Invariant over histories.
* **C22 WriteWriter success means everything was written.** Induction over the sink's schedule; refutation with a witness.
* **C23 size() is the number of bytes serialized.** Mutual induction over tags.
* **C24 Tag layout.** Independent TLV encoder `enc`; serialize puts exactly `enc t` (mutual induction).
* **C25 Tag round trip.** From the grammar: enc t is in the grammar (C24), decoder complete (C26).
* **C26 The deserializer accepts exactly the wire grammar.** Grammar `wire`; soundness for all readers by induction on fuel, completeness for all good readers by induction on the derivation.
* **C27 No tag is a prefix of another; truncation is always detected.** Unique parsing of the grammar.
* **C28 Deserialization always terminates and never panics.** Measure: bytes left; every recursive call consumes at least one.
* **C29 Decode, encode, decode is stable.** Induction over the grammar.
* **C30 Dictionary serialization does not depend on hash order.** Sorting a permutation gives the same list; lexicographic order on UTF-8 equals code point order.
* **C31 Dictionary duplicate keys.** Fold of inserts; refutation with a witness.
* **C32 String dictionary is binary compatible with dictionary.** Translation of string maps into tag maps commutes with encoding and with the grammar.
* **C33 Same-format types share bytes.** Direct from the model of delegation.
* **C34 String tag shortcuts agree with ILStringTag.** Equality of functions on all readers/writers.
* **C35 512 MB limit.** Direct; refutation for an oversized raw tag.
* **C36 Unknown tags.** Direct from the factory model plus C24.
* **C37 Creator engine is a map.** Induction over registration histories against a functional map.
* **C38 Standard engine.** Finite table plus the default case.
* **C39 deserialize_into agrees with deserialize.** Two runs compared through the grammar.
* **C40 What a failed deserialize_into does to the target.** Case analysis per type; refutation with a witness.
* **C41 iltag_are_equal.** Injectivity of enc up to dictionary order.
* **C42 Cloning.** Corollary of C25 and C27.
* **C43 A failed serialize leaves a prefix.** Writer relation `puts` with prefixes, mutual induction; the list of `write_all` calls is a function of the tag (`CallFacts.v`), so the error is that of the first failing call.
* **C44 Serialization does not depend on the writer.** Corollary of C24 with a capacity predicate per writer.
* **C45 Deserialization does not depend on the reader.** Successes are a corollary of C26; errors by comparing two runs (C60).
* **C46 Downcasts.** Direct over the type enumeration.
* **C47 Generic payload tags inherit round trip.** Section over an abstract payload with its contract as explicit hypotheses; inside containers from C63, payloads that hold payload tags by induction on their nesting.
* **C48 Scanner walks tag sequences.** Induction over the list of tags.
* **C49 Scanner offsets with non-minimal headers.** Refutation with a witness, plus the exact drift.
* **C50 Scanner arithmetic.** Refutations with witnesses for both build modes.
* **C51 Scanner agrees with the factory.** From the grammar.
* **C52 Mapping to parent space.** Arithmetic on slices.
* **C53 Cost of size().** Instrumented size function; count is at least 2^depth.
* **C54 How deep deserialize nests.** Lower bound: family of inputs indexed by depth, with their exact lengths. Upper bound: a potential function on the bytes a reader can still give, which drops by one level with every header.
* **C55 Allocation before data.** `Trace.v` runs `deserialize` and records requests; the trace erases to the model; a weighted count bounds requests per tag; refutation by a nested family.
* **C56 Implicit and reserved ids.** Direct.
* **C57 Constructors and accessors.** Case analysis over all constructor and setter calls; induction over setter histories; every tag the interface can build is well formed.
* **C58 A limit over a failing source.** Refutation with a source that loses two bytes in a failed read.
* **C59 Dictionaries behave as maps.** Induction over insertion histories against the list of entries inserted; independence of the history from C30's permutation argument.
* **C60 Results are final unless data is missing.** Relational logic for two runs on readers of which one has more data, under equal limits; induction on fuel.
* **C61 Deserialization computes a reference parser.** Refinement rules for readers and for methods with a limit; induction on fuel and parser steps, both shown to suffice.
* **C62 Readers that fail.** The same refinement rules, parametric in the set of errors the reader can raise: a run either ends with one of them or follows the parser; C61 is the case of readers that fail only for lack of data.
* **C63 User tags inside the library's containers.** Trees over an arbitrary user type; the layout is that of the tree with raw tags in place of user tags; induction over the tree for writing and reading, over fuel for termination, framing and equality with the standard factory.
* **C64 Machine arithmetic in sizes.** A lower bound of the memory of a tag; the size is at most twice that, by induction over the tag; hence no sum reaches 2^64.
* **C65 The extent of a call.** A relation between a reader before and after any call, closed under everything the deserializer does with readers; the header is read by bounded reads, the rest under a limit.
* **C66 A complete envelope settles the outcome.** Through C61: the reference parser looks at the header and at the declared bytes only, and more steps do not change it.
* **C67 Several tags on one stream.** Induction over the list of tags from C25, C26 and C27; the refutation by C61 and C66 on every reader.
* **C68 Containers with a factory of the user.** The loops of the containers over an arbitrary function in place of `factory.deserialize`; induction over the iterations, extents through the relation of C65.
* **C69-C71 Readers with arbitrary code.** `Any.v` repeats the reading functions over an arbitrary implementation of `Reader`. Each function is shown to return after a run of calls with a bounded cost, and to do the same as the function over the library's readers on any of those giving the same answers.
* **C72 Writers with arbitrary code.** `AnyWriter.v` repeats the writing functions over an arbitrary implementation of `Writer`. A function of the tag lists the calls; mutual induction shows that serialization makes them one by one up to the first failure, and that their bytes are the encoding.
* **C73 The scanner computes a reference scanner.** `headP`, a parser over byte lists; the refinement relation of C61 for the header, and the errors of a skip are errors of the reader.
* **C74, C75 Skipping and scanning with arbitrary code.** `AnyScan.v` has the default `skip` and `skip_u64` over any `read_all` and `skip`, and the scanner over any reader. Induction on the pieces for the first; the second reuses the relation of C69 for the header and then has one call left.
* **C76 User types that override the provided methods.** Two functions of the tree, what it says its size is and what it writes, for user tags that say and write anything; induction over the tree; the difference summed over the user tags; the run of a container up to the first item that fails.
* **C77 What a failed deserialize_into leaves.** A relation between the contents before, the declared size, the bytes taken and the contents after; a rule per construct of the methods (sequence, assignment, limit, loop) that carries what holds after a failure at each point; validity of every related value; C39 for the retry.
* **C78 Sizes said by user tags in machine arithmetic.** Two specifications of the size of a tree, exact and reduced at every container; the additions with overflow checks compute 'the exact sum if it fits, else panic', those without compute sums modulo 2^64; induction over the tree. Refutation with a witness.
* **C79 Capacity overflow while deserializing.** The checked program is compared with the recording one of C55: it agrees while every recorded request is granted and panics at the first that is not (induction like the erasure lemma). Bounds on requests come from C55; for accepted input a second induction bounds every count by the bytes read.
* **C80 Which inputs re-serialize to themselves.** Canonical words are a sub-grammar of the wire grammar. Canonical words equal their encoding by induction; a word no longer than its re-encoding is tight by induction, using that every part is at least as long as its re-encoding (C29); a word equal to its encoding denotes a tag with sorted dictionaries because the grammar is unambiguous (C27).
* **C81 User types whose deserialize_value is a program.** Programs are trees of calls with continuations, so that a theorem for all programs is one for all user code over the two traits. A grammar of what a program reads, and of whole documents; soundness by induction over fuel and program, completeness by induction over the length of the document; confinement on memory through the closure principle of `ClosedFacts.v`. Refutation on streams with a witness.
* **C82 User programs over arbitrary readers.** Both kinds of user code at once. A run is a list of calls and answers; every piece of the code is shown to make such a run on the implementation and to give the same result on every library reader on which that run is possible (one relation, a rule per construct, induction over fuel and program). C81 then applies to the replay.
* **C83 User programs that call deserialize_into.** The code of `deserialize_into` is itself written as a program and shown to do the same, construct by construct; calls inside calls are written out as deep as the limit allows, which is enough because each call takes a byte from every limit around it. So a factory that runs such programs is one of C81, and what C81 proves carries over.
* **C84 User programs that decode other buffers.** The depth of the calls is a parameter; an order on partial answers shows that a larger one changes nothing. The program with the answers of the factory written in is ordered both ways with the original, so what C81 proves carries over to every run that ends. Termination: the data left of the current reader plus what the program has got bounds the readers it makes; with one byte more a counterexample runs for ever.
* **C85 User programs that make every call.** Both methods of the factory are one recursion on the depth of the calls, so all of C83 and C84 is redone for the pair: the order on partial answers, the programs with the answers written in. No panic and termination are one safety induction over a set of reader sizes: all sizes for a factory that gives up with an error at the end of its depth, and sizes below the depth for the real one.
* **C86 User types whose serialize is a program, on any writer.** Code that works on every writer is related to itself on two writers: equal traces of calls, or traces that part at a call answered differently. This is closed under every combinator of the library and of the programs, together with a condition on the trace of one run (nothing, no Ok after a failure, or a stop at the first failure). Comparing with a writer that takes everything gives the calls, and comparing that run with C72 the bytes. Safety and the bound on the depth are inductions over one writer.
* **C87 User programs that make every call, over arbitrary readers.** One exact simulation at equal depth: a run on a user's reader makes a list of calls, and every reader of the library that gives the same answers to these leads the model of C85 to the same result and the same place. It is proved once, with two parameters: whether the end of the depth may be reached, and whether the programs are strict. A predicate on readers indexed by the number of bytes the program has got carries the bound on the depth: trivial for the general case, a limit around the reader for termination.
* **C88 A panic of user code is final.** An inductive relation says that one program is another with something else in place of its panics; for creators, readers and writers it is a condition on the calls that return. The order `m1 <= m2`, wherever the first returns the second does the same, goes through every function of the model, with both versions of everything at once: one lemma per function, then induction on the depth. The instances show, for each kind of user code, a call that panics and its mended version that does not. `PPanicWorld.v` does the same for the models in which user code shares state (`C88_shared_reading`, `C88_shared_writing`) and for the downcast helpers (`C88_downcasts`).
* **C89 Comparing and cloning any objects with any factory.** By cases on `to_bytes`, C63 for the contract, its conservativity for iltag_clone, and C42 on the tree with raw tags. That a standard factory leaves the bytes of its reader alone and its position inside them is one more instance of the closure argument of `ClosedFacts.v`.
* **C90 User objects that share state.** A grammar of logs, where a log is a list of calls of user code with their answers: what is asked for a size, what is called for serialize and to_bytes. A relation between a state computation and two grammars (what a complete run logs, and what a run cut short could have logged) is closed under sequencing; it gives both directions and the failing runs at once, by induction on the tree. That the answers decide is unambiguity of the grammar; the number of size calls is counted on the grammar; objects whose state does not show are the logs with constant answers.
* **C91 Downcasts of any objects.** Each helper is equated with a relation on the list of calls it makes on the object and their answers; a reference is a place and a type, so `the object itself` is a statement about places. The other theorems follow from that one.
* **C92 Readers, creators and tags that share state.** The state sits below the limits of the reader, and every piece of user code is a function of it. How much a call lowers the limits is a relation between the reader before and after that is closed under sequencing; termination is by the bytes a header takes. A simulation between two states, closed under all the functions, gives the statement about states that do not show, equality with the model of C87, and that a log of the calls changes no answer; the order of the calls is a grammar of these logs. For programs that make readers of their own, these readers are kept on a stack in the state; the simulation then goes one way, from calls that return, because a panic leaves the stack as it is (`C92_full`).
* **C93 from_bytes and clones with code that shares state.** The ByteArrayReader of from_bytes sits beside the state, where the code of the user has no access to it. The simulation of C92 turns it into an elementary reader of a list of bytes, and into the reader of `Any.v` with its invariant, which gives the absence of panics and the end. The clones are C90 followed by that. Without creators of the user no user object ever exists, so by a simulation that asks nothing of the user code iltag_clone is that of the closed model (through C92, C87, C85, C83 and C63).
* **C94 The work of deserialization.** `Work.v` runs the functions of `Any.v` with counters in the user object; the counters erase to `Any.v`, and the bytes counted are those of the trace of C69 (an object that counts them itself). Upper bound: an amortized invariant, two limits more for each byte read. Lower bound: every stored tag paid for its id through all the limits around it; the nested family of C54 makes it quadratic. Exact cost: `costs L t b c` in `WorkCost.v` gives the bytes and the calls for a tag from the format alone (numbers may be longer than needed and keys repeated), for engines whose tags have the ids they are created for. For tags with at most `d` containers around anything and no dictionary of tags the exact cost is at most `(4 d + 6)` calls per byte: only the nesting makes it quadratic. Not counted: calls of `empty`, and what the user's reader does inside.

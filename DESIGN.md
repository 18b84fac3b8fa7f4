# Formal model of steit: design

`/verif/rocq` holds a Rocq (Coq 8.16.1) model of steit: serializer, deserializer, state tree,
operation log, replay, the derive macro's checks, the C# generator down to the text it writes, and the
C# client.  The code in `/repo` is only read; nothing is built or run.  Every model
definition carries a comment with the file and lines it models and says where it simplifies.

## Trusted base

* Coq's kernel.  `Print Assumptions` stands below every property theorem in `Prop*.v` and prints
  "Closed under the global context" for each: no theorem rests on an axiom, neither of ours (there are
  none) nor of the standard library.  (Loading `Lia` loads `Coq.ssr.ssrunder`, whose `Under_rel`
  module declares seven sealed constants; a listing of the loaded environment shows them.  No theorem
  uses them.)
* That the model reads the code correctly (see "What is modelled").
* That the statements mean what the properties say.  Statements use model functions (what the program
  does) and the specification functions of `Spec.v`, `StateSpec.v` and the heads of the `Prop*.v` files
  (what is expected); nothing in the latter calls the code's helpers.
* Rust semantics relied on: fixed-width two's-complement integers; `<<`/`+` overflow panics when
  overflow checks are on (`Debug`) and wraps or masks when off (`Release`); a panic stops the call; `as`
  casts truncate; `usize` is 64 bits; `&mut self` methods keep what they assigned before an error.
* Atomics: accesses to one `AtomicU32` are coherent (`coherent` in `Conc.v`); nothing is assumed about
  different atomics, as `Relaxed` ordering gives nothing.
* Library behaviour assumed: `std::io::Read` on in-memory bytes returns all bytes in order and
  `read_exact` fails with `UnexpectedEof` at the end; `Take` limits; `iowrap::Eof` (not in /repo) keeps
  one byte of look-ahead as its documentation says (`Peek.v`); for sources that give pieces, are
  interrupted or fail, `read_exact`, `read_to_end`, `Take` and `Eof` as described at the head of `Stream.v`; for writers that take pieces or fail, `write_all` as described
  at the head of `Sink.v`; `String::from_utf8` accepts exactly
  well-formed UTF-8; `IndexMap` 1.3 keeps insertion order, `insert` on a present key keeps the position,
  `remove` is swap-remove; `HashMap` holds each key once; `Mutex` serialises log calls and is poisoned by a panic under the lock (`Fail.v`); writing to a
  `Vec<u8>` never fails; `Vec::with_capacity(n)` has capacity n (the derive macro compares them).
* C# semantics relied on: unchecked arithmetic, shift counts modulo 64, casts keep low bits,
  `new byte[n]` throws for negative n, `Dictionary` and `List` indexers throw when there is nothing.
* Rust's type checker: only well-typed values and calls are considered (`wt`, `legal`).

## What is modelled

| Model file | Code |
|---|---|
| `Base.v` | result type with io errors and panics, overflow-check mode, byte lists |
| `Varint.v` | `impls/varint.rs`, `impls/bool.rs` |
| `WireFmt.v` | `wire_fmt.rs`, `de/reader.rs` (over byte lists) |
| `Utf8.v` | the UTF-8 test behind `String::from_utf8` |
| `Types.v` | Rust types as schema trees `ty`, values `val` with their runtimes, `Default`/`with_runtime`, `PartialEq`, `IndexMap`/`HashMap` insertion |
| `Ser.v` | `ser.rs`, every `compute_size`/`serialize_cached` in `impls/`, `types/` and derive output; size caches live in a store addressed by position |
| `De.v` | `de/de.rs`, every `merge` in `impls/`, `types/` and derive output |
| `Hash.v` | what `Hash` impls feed to a hasher |
| `Log.v` | `rt/node.rs`, `rt/runtime.rs` paths, `rt/logger.rs`, `log/entry.rs`, `log/logger.rs`, `log/loggers/{buffer,noop,panic}.rs` |
| `State.v` | `state.rs`, all `State` impls, List and Map operations, derived setters, replay |
| `Coll.v` | reading from lists and maps, iterators, `types/maybe.rs` |
| `Derive.v` | the checks of `steit-derive/src` on attributes, tags and field types |
| `Conc.v` | `Ser.v` again, with every access to a size cache as a step; threads |
| `Peek.v` | `De.v` again, over `Reader` with its one-byte look-ahead |
| `Stream.v` | `De.v` and the loop of `replay` again, over any `io::Read` |
| `Sink.v` | `Ser.v` again, over any `io::Write` |
| `Fail.v` | the operations of `State.v` again, over loggers that may refuse entries or panic; the lock around a logger |
| `Threads.v` | orders in which the logger calls of several threads, each with `exec` of `State.v` on its own part, can come |
| `CsThrow.v` | the replay of `CsObj.v` again, with event handlers that may throw; where the reader then is |
| `WriterLog.v` | `log/loggers/writer.rs` and the `Debug` text of `LogEntry`, over `Sink.v` |
| `Weight.v` | a measure of values (no code of its own), and the capacity that `skip_field` asks for |
| `CsTypes.v` | the tables of `StateFactory.cs` (`Trie`) and what is looked up in them, over the readers of `CSharp.v` |
| `Commute.v` | no model; the words `reordered`, `present`, `interleaved` and proofs about `handle` of `State.v` |
| `CsWeight.v` | a measure of the client's objects (no code of its own), and the size of the array that `GetNested` asks for |
| `Json.v` | what serde's JSON of a value shows: content, size caches and runtimes (list.rs 20-25, map.rs 21-28, bytes.rs 16-17, runtime.rs 20-26, size_cache.rs 17-20, struct.rs 97-134), as a tree |
| `Depth.v` | how deeply values are nested, a measure (no code of its own), and a type that holds itself |
| `CsCopy.v` | how many bytes the readers of a C# client copy into arrays of their own (ByteReader.cs, Reader.cs, along `CSharp.v`) |
| `CsWarn.v` | what a C# client writes to the console (State.cs 49-54, along `CSharp.v`), and the text of a line |
| `CsNews.v` | which lines a C# client of another version has to write about a value: a specification over values and classes |
| `Dbg.v` | what `Debug` of a value tells the formatter: content, size caches and paths (list.rs 20-25, map.rs 21-28, bytes.rs 35-39, size_cache.rs 17-20, runtime.rs 168-175, node.rs 58-85), as a tree with tags for names |
| `Pos.v` | what every decoding call of `De.v` and `replay` leave unread, also when they fail; a program that calls `replay` again after each error | `de/reader.rs:20-57`, `de/de.rs:16-29`, `state.rs:37-57`, `enum.rs:291-339` |
| `CsPos.v` | what a C# reader has left when `Replay` ends, also by an exception; a client that calls `Replay` again after each exception | `StateReplayer.cs:9-14`, `ByteReader.cs:6-53`, `Reader.cs:80-103` |
| `RsBounds.v` | headers and bounds of the generated impls and of the library's, and rustc's check of them |
| `GenDir.v` | `Setting`, `Generator::generate` with the order of the map and a file system that may fail |
| `Meta.v` | `meta/*.rs`, the `HasMeta` impls, `gen/gen_util.rs`, `gen/generator.rs`, C# type names of `gen/generators/csharp.rs` |
| `Gen.v` | `gen/writer.rs`, `gen/str_util.rs`, the text written by `gen/generators/csharp.rs` |
| `CsRead.v`, `CsRun.v` | no code of the repository: a lexer, parser and interpreter for the part of C# that generated files use |
| `CSharp.v` | `steit-csharp/src` reader, state, replayer, collections and builtins; the classes `csharp.rs` generates |
| `RsGen.v` | `steit-derive/src/derive/{field,struct,enum,variant,derive}.rs`, `str_util.rs`: the Rust code that the derive macro writes, as syntax trees |
| `RsRun.v` | no code of the repository: an interpreter for the part of Rust that derived code uses |
| `RsDecl.v` | `steit-derive/src/derive/derive.rs` 41-243: from a declaration with names and attributes to `RsGen.v`'s templates; `from_value`, `deserialize` and `replay` around derived code |
| `RsMeta.v` | `steit-derive/src/derive/field.rs` 403-538, `struct.rs` 478-558, `enum.rs` 455-512: the `HasMeta` implementations that the derive macro writes, and the values of their constants |
| `CsObj.v` | the same again, with the identity and `Path` of objects and the events raised |

Specifications: `Spec.v` (encodings), `StateSpec.v` (paths, legal calls, sameness up to runtimes),
`Evo.v` (versions of a type), `ObjSpec.v` (places of objects, what events say), `GenSpec.v` (what generated classes are to do, usable names), `RsSpec.v` (what derived code is to do), `Elab.v`
(types and classes of declarations), the heads of the `Prop*.v` files.  Proofs: `*Proofs.v`, `RoundTrip.v`, `ValInd.v`, `CSharpSim.v`,
`CSharpSafe.v`, `CSharpEvo*.v`, `Evo?*.v`, `Gen?*.v`, `RsStruct.v`, `RsEnum.v`, `RsSet.v`.
Property theorems, each with a concrete example: `Prop*.v`; `Examples.v` has the values used.

Simplifications, kept in one place (each also stated at the definition):

* A Rust type is a finite schema tree.  A recursive Rust type is represented by any of its finite
  unfoldings: a value or byte string of length n only ever explores depth n.  (`Meta.v` has real
  recursive types.)
* `val` carries the field numbers and attributes of a derived struct next to the field values
  (static information in Rust).  `wt` ties them to the schema.
* Runtime = (logger, path).  A logger nobody holds a handle to (made by `Runtime::default()`)
  is logger 0; what is logged there is unobservable and dropped.
* Replay gets no logger in the model, because reading `state.rs`, the `handle` methods and `merge`
  shows no call of one; C31 therefore says how replay's result relates to the runtimes only.
* `De.v` has the partially changed value after an error; the position of the reader after it is in `Pos.v`, for bytes in memory.
* Lists have fewer than 2^32 items where the code casts a length to `u32`.
* Derive macro: token-level parsing (syn/quote) is not modelled; nor are errors only rustc finds
  (clashing generated names); bounds on type parameters are (`RsBounds.v`), without `where`
  clauses, auto-deref and the traits rustc derives itself.
* Derived code (`RsGen.v`, `RsRun.v`): the templates are syntax trees without types, bounds and visibility.
  The interpreter is a reading of Rust and part of the trusted base of C65-C71: scopes and shadowing,
  `match` and `if let` on one object, `?`, `return`, inherent functions before those of traits.  It runs one
  object at a time; what its fields do (`x.merge(..)`, `x.set_runtime(..)`) is that of the models of their types.
  References are places of the object; the borrow checker and type checker are not modelled, so programs
  that do not compile may get a meaning.  `struct_compiles` and `enum_compiles` are the checks of names that
  the proofs need.  Functions taken by C65-C67 to be those of the traits are found by their names.
* Metadata (`RsMeta.v`): resolving names is a `scope` from paths to what they mean; constants are evaluated by
  following it.  A type alias stands for its type.  Associated types, constant parameters in types and renaming
  imports of type parameters have no meaning.
* Generator: `Gen.v` gives the texts; `GenDir.v` writes them in any order to a directory, with `File::create`
  and `BufWriter` as its comment describes them.  The name of the directory and file names that the system
  refuses or takes for one (upper and lower case) are not modelled.
* Generated text: `CsRead.v` and `CsRun.v` are a reading of the C# language and part of the trusted base
  of C57, C58, C60 and C61.  They know the statements and expressions that generated files have and
  reject everything else.  One object is run at a time; the objects it holds are those of `CSharp.v`.
  Static types are checked only as far as names go: which class, member or local a name means.
  Recursive classes are represented by finite unfoldings.
* C# (`CSharp.v`): `Path` objects and events are left to `CsObj.v` and `CsRun.v`.  In `CsObj.v` event handlers
  do nothing but look; in `CsThrow.v` they may throw.  They do not call `Replay`.  What is written to the console is in `CsWarn.v`; a string is the bytes it was decoded
  from; generated classes that do not compile (factory methods of generic enums, fields declared as a
  box of a primitive) are taken without the broken part or excluded (`cls`).
* Memory is only counted by the measures of `Weight.v` and `CsWeight.v`: nodes and bytes of values, not the spare capacity that a growing
  `Vec` or hash map keeps, nor temporary buffers other than that of `skip_field` and those that C# readers make (`CsCopy.v`).
* Memory exhaustion, stack overflow (`Depth.v` says how deep calls go, not where a stack ends), the text of JSON output (its tree is in `Json.v`, with what serde and serde_json do trusted), the `Debug` text of anything but `LogEntry` (`WriterLog.v`; the tree behind it is in `Dbg.v` for values) and the
  text of error messages are not modelled (errors keep their `io::ErrorKind`).

## Properties

The current state per property is in `MANIFEST.json`.

| Id | Model | Theorems in | How proved |
|---|---|---|---|
| C01-C07 | `Varint.v`, `WireFmt.v` | `PropWire.v` | induction on 7-bit groups; exact spec of the decoder on arbitrary bytes; shift/or as div/mod |
| C08, C09, C35 | `Ser.v` against a pure encoder `enc` | `PropSer.v` | induction on values: computing sizes re-caches, serializing reads exactly those caches |
| C10-C18, C38, C40, C41 | `De.v` against `enc` | `PropDe.v` | induction on schemas, generic loop lemmas, progress measure |
| C39 | `Types.v`, `Hash.v` | `PropDe.v` | induction on values |
| C19, C21, C22, C36 | `Log.v` | `PropLog.v` | instances of the round trip; induction over call sequences |
| C20, C30, C32-C34, C48 | `State.v` | `PropReplay.v` | invariants over entries and streams |
| C23, C26-C29, C42, C49, C50 | `State.v` | `PropState.v` | path coherence, one replay lemma per operation, induction over histories |
| C24, C25 | `State.v`, `Coll.v` | `PropColl.v` | refinement to sequences and finite maps |
| C31, C51 | `State.v` | `PropHist.v` | simulation between values with equal contents |
| C37 | `Derive.v` | `PropDerive.v` | induction over declarations against a declarative acceptance predicate |
| C43 | `Conc.v` | `PropConc.v` | every thread writes what it would write alone, whatever coherent values it reads |
| C47 | `Peek.v` | `PropPeek.v` | simulation against byte lists |
| C46, C52 | `Meta.v` | `PropMeta.v` | depth-first search over possibly infinite graphs with finitely many descriptions |
| C44, C45 | `CSharp.v` | `PropCSharp.v` | arithmetic; simulation of Rust replay by C# replay |
| C53, C54 | `CSharp.v` | `PropClient.v` | outcomes closed under binding; the same simulation between versions |
| C62-C64 | `CsObj.v` against `ObjSpec.v` | `PropObj.v` | invariants of construction, decoding and replay; erasure to `CSharp.v` |
| C55, C56 | `De.v`, `State.v` against `Evo.v` | `PropEvo.v` | the round trip and the replay simulation, generalised to two types |
| C57, C58, C61 | `Gen.v` read by `CsRead.v`, run by `CsRun.v`, against `GenSpec.v` | `PropGen.v` | lexing and parsing of written lines, one lemma per kind of member; symbolic runs of each method |
| C59, C60 | `Meta.v`, `Elab.v` | `PropGen.v` | induction on the nesting of declarations; C45 and C57, C58 |
| C65-C68 | `RsGen.v` run by `RsRun.v`, against `RsSpec.v` | `PropRs.v` | one lemma per statement form; inductions over fields and arms; symbolic runs of each function |
| C69-C71 | `RsDecl.v`, `RsGen.v`, `RsRun.v` | `PropRsDecl.v` | C37, C65-C67; then C10 and C23 |
| C72 | `RsGen.v`, `Gen.v`, `RsDecl.v` | `PropNames.v` | induction on words |
| C73 | `RsMeta.v` against `Meta.v` | `PropRsMeta.v`, `RsMetaTests.v` | induction on types; C37 for attributes; collection depends on the constants only |
| C74 | all of these | `PropShip.v` | C73, C69, C60, C45 put together |
| C75 | `Stream.v` against `De.v`, `State.v` | `PropStream.v` | simulation by decoding what arrived followed by anything |
| C76 | `Sink.v` against `Ser.v`, `Stream.v` | `PropSink.v` | induction on values as for C08; C75 |
| C77 | `Fail.v` against `State.v` | `PropFail.v` | operations are those of `State.v` up to the call that fails; lemmas of C23 |
| C78 | `Threads.v` over `State.v` | `PropThreads.v` | entries of a part change that part only (C32); induction on the order; C23 for each part |
| C79 | `CsThrow.v` against `CsObj.v` | `PropThrow.v` | an operation is that of `CsObj.v` or leaves the object alone; C63 for the entries applied |
| C80 | texts of `LogEntry.cs` and `Maybe.cs` (`GenGolden.v`) against `CSharp.v` | `PropLib.v` | C58 for these texts; what the objects look like (C53) |
| C81 | `GenDir.v` over `Gen.v`, `Sink.v` | `PropDir.v` | induction on the messages in any order; C46 |
| C82 | `RsBounds.v` over `RsGen.v` | `PropBounds.v` | induction on types; case analysis on the impls |
| C83 | `WriterLog.v` over `Ser.v`, `Sink.v` | `PropWriter.v` | lines of a text; what is left on a line after a failure cannot be taken for an entry |
| C84 | `Weight.v` over `De.v`, `State.v` | `PropWeight.v` | every step of every loop pays for what it adds with the bytes it reads |
| C85 | `Types.v`, `Ser.v` | `PropEqBytes.v` | induction on types, for equality and for permutation of the bytes at once; C10 |
| C86 | `CsTypes.v` over `CSharp.v` | `PropCsTypes.v` | what a walk finds after a set; induction on names |
| C87 | `State.v` | `PropCommute.v` | induction on types: entries below different fields, items and keys swap |
| C88 | `State.v` | `PropCompact.v` | an update depends on the place of what it replaces only; C87 |
| C89 | `CsWeight.v` over `CSharp.v` | `PropCsWeight.v` | as C84; a replaced field is paid for by its key |
| C90 | `Json.v` over `Types.v`, `Ser.v` | `PropJson.v` | induction on types and on values; C08 for the caches |
| C91 | `Depth.v` over `De.v`, `State.v` | `DepthProofs.v`, `PropDepth.v` | as C84, with the deepest in place of the sum; C10 for the chain |
| C92 | `CsCopy.v` over `CSharp.v` | `PropCsCopy.v` | induction on classes with a bound that each nested reader pays for; C91's chain |
| C93 | `CsWarn.v` over `CSharp.v` | `PropCsWarn.v` | induction on classes and types as for C45 and C89; injectivity of the text |
| C94 | `CsNews.v`, `CsWarn.v` over `CSharp.v` | `PropCsNews.v` | induction on types along C54's decoding |
| C95 | `Dbg.v` over `Types.v`, `Ser.v`, `Log.v` | `PropDbg.v` | induction on types one way, on values the other |
| C96 | `State.v`, `Commute.v` | `PropTwice.v` | induction on the path for one update; C87 for the rest |
| C97 | `Pos.v` | `PosProofs.v`, `PropPos.v` | every decoder is shown to look only at what it does not leave; entry by entry for `replay` |
| C98 | `CsPos.v` | `PropCsPos.v` | a frame is read whole before anything in it can throw; C53 for the rest |
| C99 | `Pos.v`, `CsPos.v` | `PropAgain.v` | an update or a removal twice in a row, by induction on the path in Rust and in C#; C97 and C98 for bytes |
| C100 | `Gen.v` | `PropLayout.v` | the calls on the writer followed one by one, with the stack of open brackets beside the level |
| C101 | `Log.v` | `PropUses.v` | the number of pauses does not depend on the loggers; C22 for it; also indexing (C24, C25) and settings of the generator (C81) |
| C102 | `Log.v` | `PropUses.v` | induction from the last call, with C22 for the pauses |

Where the code violates the natural claim, the property says what does hold and a `..._refuted`
theorem gives the witness: signed integers outside half their range (C02, C10, C44), undetected
truncation (C18, C20), `swap_remove` of enum items (C27), `Map::insert` (C28), entries that are not
atomic (C33), map keys outside the key type (C34), type parameters and arrays in C# (C45), boxes met
before their contents (C46), `Maybe::some` in callbacks (C49), aliases of maps (C52),
replay onto a field of another wire type (C54, C56), unknown variants (C55), names in
generated text (C61), decoding an option without a path (C62), updates of the root, which raise no
event (C63), subscribers of lists and maps inside what is replaced (C64), field and variant names that hide
others in derived code (C68), names that differ only in underscores (C72), generic aliases and `Self` in descriptions (C73), a `swap_remove` whose logger takes the first of its two entries only (C77), a thread that logs while another is inside `push` (C78), going on with the same reader after a handler threw (C79), files that are lost although generation succeeded (C81), generic structs that derive `State` (C82).  Other oddities of
the code are part of the property itself, for instance panics when skipping long varints with overflow
checks on (C13), `Map::remove` of an absent key (C29) and callbacks that panic (C42).

## Testing the model

The model was written by reading the code; nothing was run.  Four files compare it with what the
repository says about itself (by computation, so these are tests): `RepoTests.v` runs the unit tests of
`steit/src` on the model, and `GenTests.v` checks that the generator model, on the declarations in
`steit-derive/test-crate`, writes the 15 generated C# files of the repository byte for byte (`GenGolden.v` is a
copy of them); `RsMetaTests.v` starts one step earlier, from the declarations as written.  `ClientTests.v` runs the calls of the Rust test crate on the Rust model; it writes the bytes that
the C# test program replays (these were copied from the output of the Rust test), and the C# model replays them.

## Testing the theorems

`seeded/LOG.jsonl` has one line per wrong program tried.  Each edits a model definition in a scratch
copy; every proof that then fails is replaced by an admission so that the rest still builds;
`proofs_broken` lists them, and `theorems_failed` the property theorems that are among them or rest on
them (found with `Print Assumptions`).

What a line does not say: a broken proof shows that the proof no longer works for the edited program, not
that the statement is false of it.  Where the edit stops a definition or statement from compiling
(`definitions_broken`), the theorems that need it also count as failed.  A command that ran longer than
120 seconds counts as broken; lines with a `timeouts` field list those proofs, older lines were made
before this was recorded.  Lines from a run restricted to one file (C84 and later, reruns) name only that
file's theorems.  An edit that turns a refuted claim into a true one shows only in the refutation.

# Formal model of rust-ser-write: design

Rocq (Coq 8.16.1) model of the three crates in /repo (`ser_write`,
`ser-write-msgpack`, `ser-write-json`), with machine-checked theorems for the
properties in `properties.jsonl`. `MANIFEST.json` maps properties to theorems.

## 1. How the code is modelled

* Every Rust function becomes one Gallina definition with a comment citing file
  and lines. `&mut self` becomes state passing, `Result` stays data, `?` is a
  monadic bind, every panic (slice index, `unwrap`, arithmetic under/overflow in
  checked builds) is an explicit outcome.
* A byte is a `Z` in `[0,256)` (predicate `is_byte`); a Rust `&[u8]`/`Vec<u8>`
  is a `list Z`. Integers are `Z` with explicit wrap where Rust wraps.
* A writer is a record of state-passing operations (`SerWrite`); serializers are
  polymorphic in it, as in Rust.
* `T: Serialize` is modelled by the tree of `Serializer` calls it performs
  (`sval`), including misbehaving ones: wrong declared lengths, unknown lengths,
  keys without values, skipped fields, custom errors, `Display` with different
  output on each pass.
* `T: Deserialize` is modelled by a coinductive interaction program (`deser`):
  an arbitrary, possibly infinite, program that asks the deserializer for a
  method, receives visitor callbacks, may drive seq/map/enum accessors in any
  order and may swallow errors. Safety theorems quantify over all such programs.
  The interpreter has a fuel argument; running out of fuel is a separate outcome
  that no theorem counts as success, and safety theorems hold for every fuel.  C53
  gives a sufficient fuel for every type and input and shows results independent of it.
* Functional-correctness theorems range over a universe of Rust types `ty` whose
  `Serialize`/`Deserialize` impls (what serde / serde-derive generate) are given
  by `trace : ty -> val -> sval` and `denote : ty -> deser`.
* Specifications live in separate files which import no model file: MessagePack
  format, RFC 8259 grammar, RFC 4648 Base64, UTF-8, hex, decimal numerals.

## 2. Files (rocq/theories)

Model files cite the Rust they model; specification files (`*Spec.v`) import no
model; `Props*.v` contain the property theorems and examples only, each closed by
`exact` with `Print Assumptions` beneath; everything else is proofs.

| files | content | properties |
|-------|---------|------------|
| `Prelude`, `PreludeFacts` | bytes, results, outcomes, list lemmas | |
| `Writer`, `Foreign` (model), `WriterSpec`, `WriterContract`, `WriterObs`, `WriterProofs`, `PropsWriter` | `SliceWriter` and the writers for foreign containers | C01-C04 |
| `Utf8Spec`, `Utf8`, `Utf8Facts` | UTF-8, `core::str::from_utf8`, `char` | |
| `SerdeSer`, `SerMonad`, `SerSim`, `SerSpec` | `Serialize` as a tree of calls, writer simulations | |
| `MpMagick`, `MpSer` (model), `MpSpec`, `MpSerSim`, `MpSerProofs`, `MpSerRel`, `MpErrMap`, `MpSerFacts`, `MpSerFacts2`, `PropsMpSer` | MessagePack serializer | C05-C14 |
| `MpBytesSpec`, `MpBytes`, `PropsMpBytes` | the exact bytes of every call tree | C08 |
| `SerdeDe`, `FloatOps`, `Arch`, `MpDe` (model), `MpDeView`, `MpDeReads`, `MpDeEat`, `MpDeSafe`, `MpDeTop`, `MpDeTrail`, `PropsMpDe` | MessagePack deserializer, all `Deserialize` programs | C15-C20, C23, C24, C26, C48 |
| `Types` (model of serde-derive), `TypesFacts`, `MpTypeSpec`, `MpTyped`, `MpTypedSer`, `MpAny`, `MpTypedTop`, `MpSound`, `MpAnySound`, `PropsMpTyped` | typed MessagePack | C21, C22, C25, C27, C49, C50 |
| `Base64Spec`, `Base64` (model), `Base64Facts`, `Base64Top`, `PropsBase64` | Base64 | C28-C30 |
| `JsonSpec`, `JsonSer` (model), `JsonFacts`, `JsonSerProofs`, `JsonErrMap`, `JsonSerRel`, `JsonSerFacts`, `PropsJsonSer` | JSON serializer | C05-C07, C31-C34, C36 |
| `JsonDe` (model), `JsonDeSafe`, `PropsJsonDe` | JSON deserializer, all `Deserialize` programs | C41, C42, C45, C48 |
| `JsonStr`, `JsonView`, `JsonTok`, `JsonMeth`, `JsonEats`, `JsonTokTop`, `PropsJsonTok` | tokens: strings, numbers, hex, Base64 | C35, C37, C38, C43, C44 |
| `JsonTypeSpec`, `JsonTyped`, `JsonTypedTop`, `JsonTypedSer`, `JsonCases`, `PropsJsonTyped` | typed JSON | C39, C40, C44, C47, C49 |
| `JsonSound`, `JsonSoundTop`, `PropsJsonSound` | exactly what is accepted | C46, C47, C51 |
| `JsonAnySpec`, `JsonAny`, `PropsJsonAny` | self-describing decoding: what a document stands for | C52 |
| `MpWidthSpec`, `MpWidth`, `MpWidthTypes`, `MpWidthTop`, `PropsMpWidth` | targets of 32 bits or more decode alike as long as no huge length is skipped | C54 |
| `MpReadBack`, `JsonReadBack`, `PropsReadBack` | serializer output read by a self-describing type | C55 |
| `JsonUnamb`, `PropsJsonUnamb` | each JSON text stands for one document; documents cut short | C56 |
| `MpFaultSpec`, `MpFault`, `MpBlame`, `MpBlameTop`, `PropsFault` | the faults of a MessagePack input and their errors; every error explained | C57 |
| `JsonFaultSpec`, `JsonFaultLeaf`, `JsonFault`, `JsonFaultTyped`, `JsonFaultTotal`, `JsonFaultTop`, `PropsJsonFault` | the faults of a JSON input and their errors; every input is a value or has a fault, never both | C58 |
| `MpAnyFaultSpec`, `MpAnyFault`, `JsonAnyFaultSpec`, `JsonAnyFault`, `PropsAnyFault` | the faults of an input read by a self-describing type and their errors, both formats | C59 |
| `TypeDepth`, `MpDepth`, `JsonDepth`, `Nesting`, `MpNesting`, `MpNestTop`, `JsonNesting`, `JsonNestTop`, `PropsDepth` | decoding with a bounded number of nested calls: how many are enough, and that no constant is where input is skipped or self-describing | C60 |
| `HintSpec`, `Hints`, `JsonHints`, `PropsHint` | what `size_hint` answers at every moment | C61 |
| `SizeSpec`, `MpSize`, `JsonSize`, `SizeTop`, `PropsSize` | size of decoded values against size of the input | C62 |
| `SerFaultSpec`, `MpSerFault`, `JsonSerFault`, `PropsSerFault` | the first fault of a value that cannot be serialized | C63 |
| `StreamSpec`, `Stream`, `StreamProofs`, `JsonStream`, `PropsStream` | several messages one after another: loops a user writes around the crates | C64 |
| `ContentSpec`, `Content`, `ContentFacts`, `MpContent`, `JsonContent`, `PropsContent` | serde's buffer and untagged enums on top of `deserialize_any` | C65 |
| `MpTagged`, `JsonTagged`, `PropsTagged` | internally tagged enums on top of the buffer | C66 |
| `StableSpec`, `StableFacts`, `MpStable`, `JsonStable`, `PropsStable` | decoded values are typed; write and read again | C67 |
| `EvolveSpec`, `EvolveFacts`, `MpEvolve`, `JsonEvolve`, `EvolveSelf`, `EvolveTop`, `PropsEvolve` | data read by other types than it was written with | C68 |
| `ErrorText`, `ErrorTextFacts`, `PropsErrorText` | texts of errors | C69 |
| `MpUnique`, `UniqueTop`, `JsonPrefix`, `PropsUnique` | outputs compared with one another | C70 |
| `AdjacentSpec`, `AdjacentFaultSpec`, `Adjacent`, `MpAdjacent`, `MpAdjacentSwap`, `MpAdjacentFault`, `JsonAdjacent`, `JsonAdjacentSwap`, `JsonAdjacentFault`, `AdjacentWrites`, `AdjacentEnds`, `MpAdjacentEnds`, `JsonAdjacentEnds` (the last three also for C72), `AdjacentReadSpec`, `MpAdjacentSound`, `JsonAdjacentSound`, `PropsAdjacent` | adjacently tagged enums | C71 |
| `FlattenSpec`, `Flatten`, `MpFlatten`, `JsonFlatten`, `FlattenWrites`, `FlattenFacts`, `FlattenEncSpec`, `MpFlattenRead`, `FlattenJsonSpec`, `JsonFlattenRead`, `FlattenReadSpec`, `MpFlattenSound`, `JsonFlattenSound`, `PropsFlatten`, `PropsFlattenRead` | structs with a flattened field | C72 |
| `HumanReadable`, `HumanFacts`, `PropsHuman` | types with a form for people and a compact one | C74 |
| `BufferSpec`, `BufferFacts`, `BufferTop`, `BufferFault`, `PropsBuffer` | what enums read through a buffer take | C75 |
| `NestedSpec`, `NestedReadSpec`, `Nested`, `MpNested`, `JsonNested`, `NestedRead`, `NestedSound`, `JsonNestedSound`, `NestedSize`, `MpNestedFuel`, `JsonNestedFuel`, `NestedCut`, `PropsNested` | untagged and internally tagged enums inside other types | C76 |
| `Deny`, `DenySpec`, `MpDeny`, `MpDenySer`, `JsonDeny`, `JsonDenySer`, `MpDenyNewer`, `JsonDenyNewer`, `DenyFaultSpec`, `MpDenyFault`, `PropsDeny` | structs that refuse unknown fields | C77 |
| `TranscodeSpec`, `Transcode`, `TranscodeFacts`, `TranscodeTyped`, `TranscodeTop`, `PropsTranscode` | from one format into the other | C73 |
| `JsonStop` | JSON visitors that stop early (theorems in `PropsJsonFault`) | C26 |
| `TypeSize`, `JsonFuel`, `MpFuel`, `PropsFuel` | decoding terminates: explicit step budgets, independence of the result from the budget | C53 |

## 3. How the properties are proved

* Writers: invariant over histories of operations, refinement to a bounded log.
* Serializers are polymorphic in the writer: a simulation between any lawful writer
  and the list writer gives independence of the writer, prefix on error and
  "succeeds iff it fits"; the list writer's output is related to the specified
  document by induction on the call tree.
* Deserializers over arbitrary programs: an invariant of the interpreter, by
  induction on fuel (cursor inside the input, borrowed slices disjoint and
  unchanged, no panic).
* Deserializers over `ty`: completeness ("every encoding/text of the value is
  read") and soundness ("what is read was an encoding/text of it") by induction on
  `ty`; round trips are completeness after "the output is an encoding/text".
  JSON decoding decodes strings in place; `JsonView` relates the mutated buffer to
  the text that was there, so that the specifications only mention the input.

## 4. Findings

Properties of which the faithful model is a counterexample; each is a `_refuted`
theorem with a witness, or noted beside the theorem it restricts.

1. MessagePack `eat_message`: `count * 2` and `index + len` overflow where usize
   has 32 bits (C18): wrong result or panic, and without overflow checks an endless
   loop on the six bytes 92 c6 ff ff ff fa.
2. Base64 `dcount * 4 / 3` overflows for small usize (C30).
3. JSON surrogate-pair escapes are rejected (C38), also in keys of skipped
   objects (C44).
4. JSON maps with newtype structs as keys are written and cannot be read (C47); only
   the empty one can.
5. `collect_str` without alloc trusts `Display` to print the same twice (C14).
6. `io::Cursor` may be left with a partial write (C04).
7. `Some(())`, `Some(None)`, `Some(NaN)`: lossy (C49); JSON: infinities come back
   as NaN, -0.0 as 0.
8. JSON `eat_whitespace`, `end` and the number parsers panic with a cursor set
   beyond the end through the public field (C48).
9. JSON accepts more than RFC 8259: any run of number characters where a float or a
   skipped value is expected (as far as `from_str` agrees), leading zeros under
   `deserialize_any`, whitespace (line feeds too) after the opening quote of numeric
   and bool keys, raw invalid UTF-8 in byte strings, a dangling Base64 digit, bad
   escapes in skipped strings. C46 and C51 say exactly what is accepted. It accepts
   less in: escapes in hex/Base64 strings and numeric keys, "-0" as unsigned.
10. JSON `collect_str` turns a writer error into `FormatError`.
11. A float of 2^64 or more that prints as a whole number (ryu-js: below 1e21) is
   written to JSON as an integer that `deserialize_any` refuses (C55).
12. There is no recursion limit (C60): the input decides how deep the stack gets
   wherever it is skipped (`IgnoredAny`, any unknown field of any struct) or
   self-describing; a few hundred bytes `[[[[...` are enough on a small stack.
13. The MessagePack size hint is the header's number, not checked against the input
   (C61): visitors that trust it can be made to reserve 2^32-1 elements by five bytes
   (serde's own collections cap what they reserve).
14. JSON values written one after another need a separator (C64): `1` and `2` are read
   back as `12`. The serializer writes none; MessagePack needs none.
15. Untagged enums (C65) go through serde's buffer, which knows less than the
   deserializers: MessagePack struct variants are refused in the compact flavour, unit
   variants of enums inside in both flavours that write numbers; in JSON, keys that are
   not text and non-finite floats are refused, and byte strings in the hexadecimal or
   Base64 encoding come back, silently, as the bytes of that text.
16. Internally tagged enums (C66) are never read back in the StructMapIdx flavour of
   MessagePack: the tag becomes the key 0, which the derived code does not look for.
17. A JSON number beyond the floats (`1e999`) is read as an infinity, which is written
   as null: `Some(inf)` comes back as `None` (C67).
18. A struct written as an array (`to_vec_compact`, `to_writer_compact`) cannot be read
   by a struct without its last fields: `TrailingElements` (C68). In every other form
   unknown fields are ignored.
19. Adjacently tagged enums (C71) in the compact flavour of MessagePack: a unit variant is
   written as an array of one element and a struct variant as an array in an array; the
   derived code asks for two elements and for a map, so neither is ever read back.
20. A struct with a flattened field (C72) is never written as MessagePack: the derived code
   calls `serialize_map(None)`, which is refused with `MapLength`.
21. MessagePack `deserialize_enum` knows only the one-byte header (0x81) for the map of a
   variant with content: a `map 16` or `map 32` of one entry, read everywhere else, is
   refused with `ExpectedIdentifier` (C73).

## 5. Trusted base

* Coq 8.16.1's kernel and `vm_compute`.
* `Print Assumptions` under every property theorem prints "Closed under the global
  context". (`coqchk` lists seven constants of the standard library's
  `Coq.ssr.ssrunder` module type, loaded with `ssreflect` tactics by the standard
  library; no theorem depends on them.)
* That the hand-written model is faithful to the Rust text, and that these parts,
  which are not in /repo, are modelled as they behave: core/alloc functions
  (`from_utf8`, `char::from_u32`, slices, integer conversions), serde and the code
  serde-derive generates for the types of the universe `ty` (`Types.v`), and serde's
  private buffer with the derived code of untagged and internally tagged enums (`Content.v`)
  and of adjacently tagged enums (`Adjacent.v`) and structs with a flattened field (`Flatten.v`);
  a self-describing value type such as `serde_value::Value` (`Transcode.v`).
* Hypotheses in theorem statements: what is assumed of `ryu_js` (`printer_ok`:
  finite floats are printed as JSON numbers), of `f32/f64::from_str` (reading what
  was printed gives the float back up to the sign of zero; the empty string is not a
  float; in C67 also that it returns bit patterns of floats and never a NaN for a run of
  number characters), `displays_propagate` (a `Display` passes on errors of its formatter), sizes
  that fit usize where length arithmetic needs it. `arch32up`/`slice_of`: usize has
  32 bits or more and the input is no longer than isize::MAX, as every Rust slice;
  `arch64`/`slice64`: the same for 64 bits, needed where finding 1 would interfere;
  C54 says when such theorems carry over to 32 bits.

Modelled: `src/lib.rs` of `ser_write` with all `SerWrite` implementations
(containers as list + capacity + allocator oracle); the serializers, deserializers,
Base64 and entry points of both formats, including the public cursor methods.

Not modelled: Rust's memory model below the level of slices (the `unsafe`
transmutes and `from_utf8_unchecked` are modelled by their safe meaning, with the
obligation proved: C32, C42), the formatter behind `Display` of errors (C69 is about the texts), the size of a stack
frame (C60 counts nested calls; elsewhere recursion is unbounded), time, 128-bit integers beyond their refusal (C57, C58), user-written `StringByteDecoder`/`ByteEncoder`
implementations beside the ones in the crate, serde attributes outside `ty`
(`deny_unknown_fields` only on the outermost type (C77); `untagged` and `tag` only on the outermost type and, for round trips and what is read (C76), inside options, lists, tuples,
values of maps, fields without attributes, newtype structs and newtype variants; `tag` with `content` and one `flatten` only on the outermost type).

## 6. Seeded faults

`seeded/LOG.jsonl` has one line per wrong program tried against the theorems: the
definition edited in a scratch copy, the edit, the claim it breaks. `theorems_failed`
are the property theorems that depend, directly or not, on a proof that no longer
checked (the build was continued past errors, except where the claim says it was
stopped at the first); a `systematic edit` was drawn at random from the operators,
constants, error names and conditions of the model, and its claim is the list of the
properties it broke; a broken proof is evidence, not proof,
that the statement became false. `theorems_tightened` are the statements changed or
added because the fault went unnoticed or was noticed by a test case alone.

# Figment: design of the formal model

Everything under `rocq/theories` is a Coq 8.16 model of the source in `/repo` (crate `figment` 0.10.19)
and of the properties in `properties.jsonl`. The code is not run; the tie to the code is the citation
(file and lines) on every definition, and `RepoTests.v`: all of the repository's integration tests (`tests/*.rs`),
the unit tests of `parse.rs` and `magic.rs`, and the assertions in the doc comments of `src`, transcribed as `Example`s
about the model. They all hold of it. They are evidence for the model, not part of any claim. Texts in TOML, JSON and
YAML enter as parsed documents.

## Layout

| kind | files | contents |
|---|---|---|
| base | `Str.v`, `BMap.v`, `Res.v` | Unicode strings, `BTreeMap` as sorted association lists, results and panics |
| values | `Tag.v`, `Profile.v`, `Num.v`, `NumParse.v`, `Value.v`, `Into.v`, `Debug.v` | `value/tag.rs`, `profile.rs`, `value/value.rs` |
| core | `Metadata.v`, `Err.v`, `Coalesce.v`, `Figment.v`, `Fmt.v`, `Display.v`, `Eq.v` | `metadata.rs`, `error.rs`, `coalesce.rs`, `figment.rs`, `provider.rs` |
| text | `Escape.v`, `Parse.v`, `Env.v`, `OsText.v` | `value/escape.rs`, `value/parse.rs`, `providers/env.rs` |
| serde | `De.v`, `Ser.v`, `Magic.v`, `Content.v`, `Derive.v` | `value/de.rs`, `value/magic.rs`, `value/ser.rs`, `util.rs`, `providers/serialized.rs` |
| system | `Path.v`, `Data.v`, `Doc.v`, `Jail.v`, `World.v` | `util.rs` (paths), `providers/data.rs`, `value/de.rs` for foreign formats, `jail.rs` |
| spec | `Spec*.v` | small specifications that do not use the model's helpers |
| proof | `*Proofs*.v` | lemmas |
| property | `Props*.v` | theorems, `Print Assumptions` under each, and the non-vacuity `Example`s |

| test | `RepoTests.v` | the repository's own tests and documented asserts, computed by the model |

The files up to `Jail.v` hold definitions only, one Gallina function per Rust function.

## Modelling decisions

* **Strings** are lists of Unicode code points (`list N`). The UTF-8 length of a code point is modelled
  (`utf8_len`), because `escape.rs` slices a `&str` at a *character* index; slicing at an index that is not
  a character boundary is an explicit `Panic`. The order of Rust strings (bytewise) equals code-point
  order for UTF-8, so keys are compared by code point.
* **Maps** (`BTreeMap`) are association lists strictly sorted by the key's `Ord`; `insert` on an equal key
  keeps the old key and replaces the value, as `BTreeMap` does (visible for profiles, whose `Ord` ignores case).
  `wf` predicates state sortedness; all model operations are proved to preserve it.
* **Integers** are `Z` with explicit ranges per variant; `usize`/`isize` are 64 bits. **Tags** are 64-bit
  words with explicit masks. The atomic counter is a number that every provide operation reads and increments
  (wrapping at 2^64), so an interleaving of threads is a sequence of such operations.
* **Floats** are the standard library's `spec_float` (IEEE 754 binary32/binary64 values); decimal-to-binary
  parsing is correctly rounded, as Rust's is documented to be. What "correctly rounded" means is stated over the
  rationals in `SpecNear.v` and proved of every float operation of the model.
* **Panics** are the value `Panic`; **errors** are data (`Err`). Recursion in the parser uses fuel; running
  out of fuel is a distinct outcome and is proved impossible. Rust's stack depth is not modelled.
* **Environment, files, current directory** are explicit inputs. A provider is a record of what its four
  trait methods return. TOML/JSON/YAML parsing is an oracle: from
  text to values for the file properties, from text to the tree of serde visits (`Doc.v`) for C59 and C60.
* **serde**: target types are a universe `ty` (scalars, option, seq, tuple, map, struct, newtype, enum,
  `Value`, `Tagged`, `RelativePathBuf`); the visitor of each is written down from serde's and serde-derive's documented
  behaviour, and figment's three deserializers are modelled method by method against those visitors. Types with the
  attributes `default`, `alias`, `rename`, `deny_unknown_fields`, `flatten` and `untagged` are a second universe `xty`
  (`Derive.v`) over it, with serde's copies of values (`Content.v`).
* **Interpolaters and filters** (closures) are Coq functions.
* Not modelled: `Debug` output other than that of values and tags, `Send`/`Sync`, allocation, stack overflow, Windows paths, symlinks
  (except that the jail directory is canonical), the bodies of the TOML/JSON/YAML parsers. Environment variables are bytes in
  `OsText.v` (as on Unix); everywhere else they are the text `to_string_lossy` makes of them (C93 connects the two).

## Trusted base

* Coq's kernel (8.16.1) and `coqchk`.
* `Print Assumptions` is run under every property theorem; the result is listed in the table at the end.
* `coqchk` also reports seven names of the standard library's `Coq.ssr.ssrunder.Under_rel` (`Under_rel`,
  `Under_rel_from_rel`, `Under_relE`, `Over_rel`, `over_rel`, `over_rel_done`, `under_rel_done`). They are the fields of
  an opaque module that is loaded together with `lia`; no theorem here depends on them, as the table shows.
* Reading of the source: each definition's citation.
* Behaviour of external crates as used: `uncased` (ASCII case-insensitive compare, order, prefix), `serde`
  visitors for standard types and derived code, its private `Content` and `FlatMapDeserializer` (`Content.v`, `Derive.v`), the Rust standard library (`BTreeMap`, `str`, `Path`, integer and
  float parsing, `std::env`), and serde_yaml's `apply_merge` (`Yaml.v`).

## What was found in the code

Properties that turned out false have a theorem ending in `_refuted` with a concrete witness. The main ones:

* `coalesce` is not associative when shapes differ (C04); of three or more failing providers only the first and the last error are kept (C09).
* `focus` differs from lookup when profiles disagree on whether the key is a dictionary (C19); `extract_inner` appends the requested path after the inner path of an error (C21).
* 128-bit integers cannot be extracted at all through the configured deserializer (C22, C23, C49).
* short fractions are read in single precision first (C26).
* a non-ASCII character before the first escape of a quoted string decodes at the wrong offset (C30) and can panic (C27); C62 describes exactly when and how.
* every filter or mapping added after `lowercase(false)` switches lower-casing back on (C34).
* `Some(())` and `Some(None)` do not survive a round trip (C38); reserved keys forge tags and sources (C40, C41, C42).
* `diff_paths` is wrong for bases with `.` or `..` (C43).
* `Jail::set_env` with an impossible name panics, and restoring then panics again (C44); climbing relative paths are clamped (C45).
* In a jail, `change_dir("..")` and `change_dir(".")` always fail; `create_file("../x")` writes `x` where `Toml::file("../x")` does not look; and `Toml::file` keeps searching above the jail's directory (C70).
* A `Jail` started in a `Jail` waits for the lock its own thread holds, for good (C75).
* Overriding an enum default that carries data with another variant can be silently ignored, and a map default never loses keys (C71).
* `YamlExtended`: merge keys are not transitive; a base's own `<<` is not honoured and turns up as a key of the configuration (C73).
* in a nested data file, of two sections whose names differ only in case the first is silently dropped (C60).
* `#[serde(flatten)]` loses more than the documented attribution: lossy conversion stops working for the flattened fields, characters are no longer strings, and a 128-bit integer anywhere fails the extraction (C81). `#[serde(untagged)]` ignores lossy mode too (C82).
* maps with `char` keys can be extracted but not serialized (C83).
* error paths can contain reserved keys (`___figment_tagged_value`, `___figment_value_value`) which are nowhere in the configuration, when the error is about a `Tagged`, `RelativePathBuf` or `Value` (C84).
* merging what was just extracted back in, as globals, can change what is extracted, if there are globals already that give a struct by position (C86).
* variables given by `Env::prefixed(..)` without `global()` are overridden by a file section for the selected profile (C87).
* `Env::ignore`, `only` and `filter` see keys before the last trimming: a variable `APP_ KEY` (white space after the prefix) is not ignored by `ignore(&["key"])`, and then sets `key` (C94).
* Environment variables whose names differ only in bytes that are not UTF-8 share a key (C93).
* `Either` ignores lossy mode (C55); `Profile::from_env` and `Env::var` disagree about trimming (C53).

## Properties: what is modelled and how it is proved

* **C01 Conflict resolution follows the documented join/adjoin/merge/admerge table.** `Coalesce.v`. One-level lookup law by induction over the sorted lists; recursion by value induction.
* **C02 Every leaf of the combined configuration comes from the right side, at any depth.** Path lookup `get_path` over both sides; induction over the path using C01's lookup law.
* **C03 join is merge with the arguments exchanged.** Value induction plus extensionality of sorted maps.
* **C04 Grouping of merges.** False in general: `_refuted` with a three-value witness; positive theorem under shape compatibility by value induction.
* **C05 Profile precedence: global over selected over default.** `Figment.v` `merged`. Lookup in the merged dictionary; non-interference as equality of `merged` under any change to other profiles.
* **C06 Profiles are case-insensitive everywhere.** `Profile.v` compares lower-cased names; congruence of every map operation.
* **C07 Only merging changes the selected profile.** Induction over an operation history (`fold_left`).
* **C08 A provider error is sticky.** Invariant over histories; `merged` errors iff the state is `Err`.
* **C09 All provider errors are reported.** False for three failing providers (`_refuted`); exact characterisation of what is kept for any number of failures.
* **C10 A provider error names its provider.** History invariant: the tag of the stored error resolves to the failing provider's metadata.
* **C11 Tags are unique across threads and histories.** `Tag.v`, counter modulo 2^64; induction over a schedule of thread ids; bit lemmas.
* **C12 A tag carries its identifier and profile without loss.** `N.land`/`N.lor`/shift lemmas for all 64-bit words.
* **C13 Every value is traceable to the provider that supplied it.** Invariant over histories: every tag in the value is registered with a provider that supplied that path; value induction for `map_tag` and `coalesce`.
* **C14 find_metadata names the winning provider.** Leaf law of C02 lifted over a history by a priority-list specification under shape compatibility.
* **C15 Composing Figments keeps provenance.** `map_tag` leaves non-default tags; metadata map only grows.
* **C16 metadata() lists every provider once, in order of provision.** Invariant: metadata map is the list of provided metadata keyed by strictly increasing tags. For composed Figments (`SpecBuilt.v`, `PropsBuilt.v`) the operations that went in are counted along the derivation of reachability.
* **C17 Lookup by dotted path.** Induction on the split path.
* **C18 nest and find are inverse.** Induction on the split key.
* **C19 focus(key).find(sub) is find(key.sub).** False in general (`_refuted`, two shapes of witness); positive theorem when every profile in play has dictionaries or nothing along the key; `C19_exact` describes focusing for every Figment.
* **C20 Extraction errors point at the offending value.** `De.v`; induction over the type universe with an invariant on (path, tag) of returned errors.
* **C21 extract_inner reports the full path.** False (`_refuted`); what actually happens is proved exactly.
* **C22 Integers are never silently changed.** Range reasoning on `Z` for all variants and target kinds.
* **C23 128-bit integers.** False (`_refuted` for every 128-bit integer).
* **C24 Lossy extraction is a conservative extension.** Induction over the type universe.
* **C25 Lossy booleans.** Case analysis against a table.
* **C26 Lossy numbers.** Decimal strings specified by digit lists; rounding specified over the rationals (`SpecNear.v`: nearest, ties to even, overflow), and the library's rounding proved to meet it (`NearProofs.v`).
* **C27 Parsing a Value from a string never panics and always terminates.** False (`_refuted`, panic witness); panic-freedom and fuel adequacy proved exactly on the inputs without the defect.
* **C28 Unparseable input is kept as a string.** By the structure of `from_str`, with an independent inductive grammar.
* **C29 Values can be written so that parsing gives them back.** Printer defined separately; parser/printer round trip by value induction with a continuation-style lemma.
* **C30 Quoted strings decode their escapes.** Decoder specified as an inductive relation; `_refuted` for a non-ASCII prefix, equality under an ASCII prefix.
* **C31 Env keys.** `Env.v`; list induction.
* **C32 Env data never panics on keys.** From C31: no empty component, so `nest` yields a dictionary.
* **C33 Env data does not depend on variable order.** Merges of prefix-free singletons commute; induction over `Permutation`.
* **C34 Env builder settings persist.** False for lower-casing (`_refuted`); proved for profile and prefix, and for lower-casing set last; `C34_lowercase_exact` says exactly when lower-casing is off.
* **C35 only and ignore partition the variables.** Case analysis.
* **C36 Missing files.** `Data.v` with a file system oracle.
* **C37 File search takes the nearest ancestor.** Induction over the ancestors of the working directory.
* **C38 Serialized values can be extracted again.** Typed values `dval` with a typing relation; induction over the type universe. `SpecHollow.v` says what comes back when options of empty things are allowed.
* **C39 Extracting a Value loses nothing.** Value induction.
* **C40 Configuration data cannot forge provenance or disappear.** False (`_refuted`); proved for dictionaries without the two internal keys.
* **C41 Tagged<T> carries the tag of the value.** `Magic.v`.
* **C42 RelativePathBuf resolves against the configuration file.** `Magic.v` and `Path.v`.
* **C43 Relative path computation is correct.** Lexical resolution of paths; list induction; `_refuted` for `.`/`..` bases; `C43_exact` strips the common components and compares with `SpecPath.way`.
* **C44 Jail restores the environment.** Invariant over operation histories; restore is order independent. `C44_exact` tells apart the histories after which dropping panics.
* **C45 Jailed paths stay in the jail.** `dedot` normal form by list induction.
* **C46 Error chains.** Error chain induction.
* **C47 Value equality ignores provenance and integer width.** Value induction against an independent relation.
* **C48 Serialized providers put data where they say.** `Ser.v`, `Util.v`; `C48_constructors` says which constructor puts a value where.
* **C49 bool_from_str_or_int.** Case analysis over values.
* **C50 vec_tuple_map round-trips.** Sorted insertion; permutation of the input.
* **C51 Typed extraction means what the data model says.** Denotational relation `extracts` by recursion over types; equivalence with `deserialize` by induction over types, field and entry lists.
* **C52 profiles() lists the profiles with data.** Invariant over histories: keys of the coalesced map.
* **C53 Single variables are found by name.** List induction.
* **C54 Error messages name the culprit.** `Display.v`; chain induction; with C20 and C10 for the origin.
* **C55 Either prefers left and falls back to right.** `EitherProofs.v`: the encoding that `deserialize_struct` shows to `ValueVisitor`, then C51 on both sides.
* **C56 Magic values survive being put back.** C38 for the content; computation on the two-entry dictionaries. `Magic.v` has `serialize_original` and `serialize_relative`.
* **C57 Numbers answer with themselves.** Case analysis; range lemmas for the casts; exactness of widening from C26's rounding.
* **C58 From conversions keep what they are given.** Induction over nested sources; collecting keeps the last entry of each key.
* **C59 Data files are read verbatim.** A document is the tree of visits a format makes (`Doc.v`); `reads` is a relation between documents and values, and the visitor is shown to compute it by induction on documents. `C59_provider` shows such a provider to be `plain`, the hypothesis of C10 to C15.
* **C60 Nested data files: one section per profile.** Sections are compared up to case by the map of profiles; `says_profiles` describes the resulting map, first spelling included, and is proved equivalent to reading.
* **C61 Messages show offending values faithfully.** `FloatShowProofs.v`: seventeen digits suffice because the decimal grid is finer than the gaps between doubles (half of them below a power of two); the estimate of the decimal exponent is bounded by comparing powers of 1024 and 1000. `ShortestProofs.v`: what rounds to a float is an interval around it, so if any decimal with n digits does, so does a neighbour on the grid of n digits. Escapes form a prefix code: there is a decoder.
* **C62 Every text has exactly one reading.** `StuckProofs.v`: the grammar of C28 is parametric in the reading of quoted text; it is instantiated with what the code reads (`read_as`), and the texts on which the parser panics are described by a second grammar (`stuck`). Soundness and completeness of both by induction on fuel.
* **C63 What the environment provides.** `EnvDataProofs.v`: induction over the kept variables with `leaf_dmerge` (C02) at each step; the path of a variable is read off its dotted key.
* **C64 Exactly what extraction gives, at every type.** `GivesProofs.v`: one induction over the type, reusing the container lemmas of C51; `presented` determines what a struct is read from, `raw_value_taken` (`TakenProofs.v`) what copying into a `Value` gives. A reader should check `SpecGives.gives`, `presents` and `SpecTaken.taken`.
* **C65 Where data comes from never changes what it is.** `BlindProofs.v`: a relational induction over types: `blindv` relates two runs of a visitor on deserializers whose values differ in tags only (`drel`), and shows that results agree once sources are forgotten (`SpecBlind.forget`) and errors agree on paths and kinds (`report`). `run_same` lifts it to histories. A reader should check `forget`, `report`, `unreserved` and `same_op`.
* **C66 Equality, ordering and hashing agree.** `EqProofs.v`: each boolean equality of `Eq.v` is shown equivalent to a relation of `SpecEq.v` (`same_path` counts steps between slashes; `same_error` follows the chain), and the laws are proved of the relations. A reader should check `SpecEq`.
* **C67 What a type does not look at does not matter.** `FrameProofs.v`: `alike t v w` (`SpecFrame.v`) says where two values may differ for a type; `deserialize_alike` is an induction over the type. `C67_unrelated` combines it with the merge lemmas of C01/C05. A reader should check `alike` and `silent_on`.
* **C68 Providers that do not overlap commute.** `OrderProofs.v`: `swap_value` shows by induction on a value that bringing in two values that are apart commutes up to tags, over any third; `run_permutation` lifts it to lists of calls. A reader should check `apart`, `quiet` and `indistinguishable`.
* **C69 A jail leaves no trace.** `World.v` gives the jail a disk (a function from places to files and directories); `WorldProofs.v`: `no_trace` combines confinement (`run_confined`) with the restoring of variables (`restored`, from C44). A reader should check `sound_disk`, `can_be_made` and `jail_try`, in particular the order of dropping.
* **C70 In a jail, Figment sees what was put there.** `step_create`, `step_mkdir`, `step_chdir` say what each operation does and when it fails; `C70_nearest` ties the disk to the file provider. A reader should check `lands` (where a jailed path leads) and the operating system's part: `walk`, `write_file`, `mkdirs`.
* **C71 Defaults hold unless overridden.** `patched` says, by recursion on the type, what a Rust value becomes when a layer is merged over it; `shaped` says that a value is written out field by field. The core is `patched_shaped`: merging preserves `shaped` along `patched`. Tags are irrelevant (`shaped_ut`, `patched_ut`), which is what lets the statement speak of the providers' own dictionaries. A reader should check `patched`, in particular that an enum with data can only be patched by a value that is not a dictionary: that is where the code fails (`C71_enum_refuted`).
* **C72 What a Figment holds at every path, for every history.** A view is a relation between paths and nodes (a table, or a value that is no table); `over`, `brought`, `layer` and `held` are the overlay, defined without mentioning maps or coalescing. The core is `view_vcoalesce` (by induction on the path); `layer_run` lifts it to histories. `C72_values` shows that views lose nothing but tags, so the characterisation is complete. Unlike C14 it assumes nothing about shapes, and unlike C02 it covers all four orders and any number of providers; C14 adds which provider is blamed.
* **C73 YamlExtended honours merge keys as documented.** `Yaml.v` restates serde_yaml's `apply_merge` from memory of its source (it is not in the repository), which makes it part of the trusted base. `SpecYaml.written` says which entries a map has through its bases, `resolved` relates a document to what it means; `YamlProofs.v` proves by strong induction on documents (`doc_deep`) that `apply_merge` computes it. Combined with C59 for the provider. The clause about bases with merge keys of their own is false: `C73_chain_refuted`.
* **C74 Names of variables become exactly the paths the split says.** `SpecText.v` gives UTF-8, the byte order, the list White_Space, the 26 pairs of letters and `cut` from scratch; nothing in it refers to `Str.v`. The theorems show that the functions of `Str.v`, on which most other specifications rely, are what they should be, so that what was an assumption about the model of `str` becomes a proof about its code points. `C74_split` is the end-to-end statement for `Env`.
* **C75 Jails in several threads do not see each other.** `Threads.v` is a small-step machine: threads take and drop the lock, and between that work on the shared process of `World.v`; only taking the lock looks at it, so exclusion is proved, not assumed. The invariant (`ThreadsProofs.good`) relates the thread in the jail to the same thread running alone; disks are functions, so the relation is pointwise (`go_on_same`) and no extensionality is needed. When a jail is left, C69's `no_trace` brings the process back. `C75_nested`: the lock is not reentrant, which the documentation of `Jail` does not say.
* **C76 Defaults, file, environment: every field from its last source.** `SpecStack.v` says what each field is to be (`settled`), in terms of the names and texts of the variables, the entries of the document and the defaults; the model's merge is not mentioned. The proof follows one field: merging two values gives the later one or a dictionary made of two dictionaries (`close`), and the types in question are never read from a dictionary (`undivided_dict`). Fields that are read from dictionaries are excluded because there the layers mix: C71 says how.
* **C77 Metadata and profiles say what was put into them.** Written after three seeded mistakes in `Metadata.v` and `Profile.v` (pf06, md01, md03) broke no theorem: nothing said what the builder calls and `starts_with` do. Builder calls are data (`SpecMeta.md_call`); case is `SpecText.alike`.
* **C78 A thread that builds Figments need not know about the others.** A relational proof: `SpecTwin.v` says when two Figments are the same but for an order-keeping correspondence of identifiers; `TwinProofs.v` shows that deserialization at every type, merging, focusing and error resolution respect it (`deserialize_kin` is one induction over the type universe), then that a step of the thread in question extends the correspondence by one pair and a step of another thread leaves it alone (`together_inv`). What is assumed of the providers: their data has no tags of its own and no entry under the two reserved keys from which `Tagged` and `Value` take a tag; `C78_forged_refuted` has such an entry and is told different origins in different schedules. Threads do not exchange Figments here.
* **C79 Debug shows everything but the tags.** `DebugProofs.v`: every kind of text (floats, integers, quoted text, lists) is shown to be a prefix code, then one induction over values. Floats use C61's argument for the digits, repeated for single precision (`Float32ShowProofs.v`). `SpecDebug.printed` is the grammar of the output, written without the formatting functions. The standard library knows from tables which characters are printable or combine with others; the table is a parameter here.
* **C80 Defaults, renames and aliases.** `Derive.v` models what serde-derive generates for structs with attributes: entries are matched to fields by name or alias, filled slots are checked for duplicates, absent fields take their default. It runs against the deserializers of `De.v`. `SpecDerive.v` says what comes out by lookup in the dictionary, without slots. The proof goes through `FieldProofs.v` (the loop over the entries) and one induction over types (`DeriveProofs.v`). Where errors point is in `PlaceProofs.v`.
* **C81 Flattened fields and what they lose.** `Content.v` models the copy (`Content`) that serde-derive makes of entries that are not a struct's own, and the two deserializers that read such copies. `SpecBuffer.strictly` says what a copy gives at each type; `ContentProofs.v` proves it exact, `CopyProofs.v` that it is no more than what strict extraction gives, `BareProofs.v` that no error of a copy has a place. Flattened structs stop taking entries at the first one they cannot read; `SpecDerive.leaves` says what is left then.
* **C82 Untagged enums.** Variants are tried on a copy, by reference, in which a unit struct is only null (`strictly false`). Exact by the same induction as C80.
* **C83 What Rust values are written as.** `Ser.serialize` against the relations `written` and `bad_key` of `SpecSer.v`, which use no function of the model but the conversion of floats: a dictionary is said to have the last entry of every key (`has_last`), not built by insertion. Both directions, so failing and succeeding exclude each other.
* **C84 Which error extraction gives.** `De.deserialize` and `Figment.extract(_inner)` against the relation `refuses` of `SpecRefuse.v`, an inductive account of the first fault by order of the configuration; it uses `gives` of C64 for 'everything before it is fine' and no function of the deserializer. `C84_outcome` says that `gives` and `refuses` split all values between them. Tags, profiles and sources of errors are C10, C20 and C65. `C84_reserved_refuted`: two configurations whose errors name `___figment_tagged_value` and `___figment_value_value`, which occur in neither.
* **C85 Defaults, file, environment: whose fault an error is.** `SpecFault.v` says who has the last word on a field (`said`) and which field is the first whose last word cannot be read (`first_faulty`), by C84's `refuses`; tags are not mentioned. The proof keeps, beside C76's account of the value that ends up on top, the tag that ends up on top: the stamp of the provider that spoke last, on the whole value unless it is a dictionary, in which case on the dictionary itself, which is as far as these types look.
* **C86 What was extracted can be saved, and giving it again changes nothing.** `SpecSave.v`: `savable` is C38's `storable` without IgnoredAny. Proved by way of C64's relation `extracts`: `AgreeProofs.v` has a relation `blend w Y X` (X is made of pieces of w and of Y, entry by entry), which every merge of the two satisfies, and shows that a blend of two values which read as y reads as y. Merging under the defaults is closed under merging more on top (`beneath`); blending is not, which is how the counterexample for merging over globals was found.
* **C87 Files divided into profiles: every field from its last word.** `SpecStages.v` says what a file tells of a field in a section (`tells`), what the last file to tell anything says (`last_word`) and in which order sections count (`staged`), in terms of documents and variables only. `StagesProofs.v` follows what ends up on top through the merges of all files, separately for each profile, and then through the merge of the three profiles; fields that are not read from dictionaries need not care what is beneath.
* **C88 Providing the same thing again.** `AgainProofs.v` shows two laws by induction on the value that comes again: what two values become once p is merged in stays equal if the same things are merged or admerged into both before (`replacing_between`), and what p adds nothing to, it adds nothing to after more was joined (`keeping_between`). The laws are exact, tags included; Figments compare up to tags because each call gives a provider's data new tags, so nothing is said here about which of the calls with p is named as the source. The mixed cases are refuted with witnesses.
* **C89 A struct is extracted field by field.** Both sides are the model's own functions, as a user would call them: `extract_inner` of a struct against `extract_inner` of its fields (`on_its_own`, `fails_on_its_own` in SpecField.v). The proof goes through the specifications of what extraction gives (C49/C65, `gives`) and refuses (C84, `refuses`). Names of fields are plain: nonempty and without dots; C89_dotted_refuted shows what happens otherwise. Of errors, path and complaint are compared.
* **C90 Keys with capital letters are out of the environment's reach.** From C31_keys (keys are lowercased last), C63_leaves (which variable each leaf comes from) and an induction over the fold for the top-level keys; SpecCapital.v has the two definitions needed. find_value is compared exactly; extraction with tags and the Figment's own metadata forgotten (`seen forget`, C56). C90_ex_kept shows that lowercase(false) lifts the restriction and that any adapter called after it puts it back (C34).
* **C91 Files divided into profiles: whose fault an error is.** C85 over C87. `SpecStageFault.v` says in which place (a variable, or a section of a file by its number) the last word on a field is (`spoken`) and which field is the first whose last word cannot be read (`first_misspoken`). `StageFaultProofs.v` follows the tag on top through the merges of any number of files in each profile (`tpiled`) and then of the three profiles. The names of sections are compared without regard to case, so the error shows the profile as selected, not as the file has it (C91_ex_text).
* **C92 Nested settings are found path by path.** `SpecSettings.v` defines `laid_out` over C72's views (what can be seen at a path: a table, or a value that is none) by recursion over the type; no dictionary and no merge occurs in it. `SettingsProofs.v` shows that `extracts` (C51) on the value at a path is `laid_out` on the view; C72 says which view a history makes. C92_ex_hidden is the case C04 warns of: a number put in place of a table hides the table beneath also from a later table.
* **C93 Environment variables that are not Unicode.** `OsText.v` restates `String::from_utf8_lossy` after the standard library's `Utf8Chunks` (that this is what `OsStr::to_string_lossy` does on Unix is part of the trusted base). `SpecOsText.v` says independently, from `utf8_of` (RFC 3629, `SpecText.v`) alone, what the text of bytes is: `decoded`. C93_collide_refuted is the false clause.
* **C94 A profile chosen by a variable, and keys the environment may not set.** `SpecRocket.v` says which variables are passed over and which one chooses the profile, on the text of their names. `RocketProofs.v` shows that the provider with ignored keys is the one without them in the environment that is left; then C87 and C91 say the rest. C94_blank_refuted: `Env::ignore` looks at the key before it is trimmed (env.rs:453 against 529), so `APP_ KEY` is not ignored and then becomes `key`.
* **C95 Unknown fields denied in a stack of sources.** `SpecDeny.v` says which keys are mentioned by variables and sections; `PropsDeny.v` shows that these and the defaults' fields are exactly the keys of the dictionary that is extracted from, and then C51 and C87's description of the fields do the rest. Which of several errors is reported is C80's and C84's subject.
* **C96 Whose word a nested setting is, and whose fault it is.** `SpecSource.v` says who decides a path, in the vocabulary of C72 (what providers say at a path, and what is free). `SourceProofs.v` follows the tagged data instead of the untagged: the marked value enters with its provider and stays while later providers leave the path free; the description of coalescing path by path is that of C72. The errors are C20's.

## What `Print Assumptions` lists

Every theorem below is followed by `Print Assumptions` in its file. The third column is what Coq prints:
"closed" stands for `Closed under the global context`, that is, no axiom of any kind.

| theorem | file | assumptions |
|---|---|---|
| `C88_last` | `PropsAgain.v` | closed |
| `C88_first` | `PropsAgain.v` | closed |
| `C88_join_between_refuted` | `PropsAgain.v` | closed |
| `C88_merge_between_refuted` | `PropsAgain.v` | closed |
| `C88_concatenate_refuted` | `PropsAgain.v` | closed |
| `C65_value` | `PropsBlind.v` | closed |
| `C65_history` | `PropsBlind.v` | closed |
| `C65_extract` | `PropsBlind.v` | closed |
| `C65_inner` | `PropsBlind.v` | closed |
| `C65_queries` | `PropsBlind.v` | closed |
| `C65_figment` | `PropsBlind.v` | closed |
| `C65_end_to_end` | `PropsBlind.v` | closed |
| `C65_reserved_refuted` | `PropsBlind.v` | closed |
| `C65_names` | `PropsBlind.v` | closed |
| `C16_composed` | `PropsBuilt.v` | closed |
| `C16_all` | `PropsBuilt.v` | closed |
| `C90_leaves` | `PropsCapital.v` | closed |
| `C90_untouched` | `PropsCapital.v` | closed |
| `C90_struct` | `PropsCapital.v` | closed |
| `C01_table` | `PropsCoalesce.v` | closed |
| `C01_provide` | `PropsCoalesce.v` | closed |
| `C02_merge_leaves` | `PropsCoalesce.v` | closed |
| `C02_join_leaves` | `PropsCoalesce.v` | closed |
| `C03_join_merge_swap` | `PropsCoalesce.v` | closed |
| `C03_idempotent` | `PropsCoalesce.v` | closed |
| `C03_empty` | `PropsCoalesce.v` | closed |
| `C04_grouping` | `PropsCoalesce.v` | closed |
| `C04_grouping_refuted` | `PropsCoalesce.v` | closed |
| `C20_pinpoints` | `PropsDe.v` | closed |
| `C20_names_provider` | `PropsDe.v` | closed |
| `C20_wide_refuted` | `PropsDe.v` | closed |
| `C21_full_path_refuted` | `PropsDe.v` | closed |
| `C21_inner_partial` | `PropsDe.v` | closed |
| `C21_here_partial` | `PropsDe.v` | closed |
| `C22_integers` | `PropsDe.v` | closed |
| `C22_same_integer` | `PropsDe.v` | closed |
| `C22_wide_refuted` | `PropsDe.v` | closed |
| `C23_never_refuted` | `PropsDe.v` | closed |
| `C23_unusable` | `PropsDe.v` | closed |
| `C23_value_partial` | `PropsDe.v` | closed |
| `C24_lossy_extends` | `PropsDe.v` | closed |
| `C24_lossy_extends_inner` | `PropsDe.v` | closed |
| `C79_value` | `PropsDebug.v` | closed |
| `C79_ends` | `PropsDebug.v` | closed |
| `C79_form` | `PropsDebug.v` | closed |
| `C79_float` | `PropsDebug.v` | closed |
| `C79_one_line` | `PropsDebug.v` | closed |
| `C79_equal` | `PropsDebug.v` | closed |
| `C79_tag` | `PropsDebug.v` | closed |
| `C79_tag_form` | `PropsDebug.v` | closed |
| `C95_deny` | `PropsDeny.v` | closed |
| `C95_ignored` | `PropsDeny.v` | closed |
| `C80_extract` | `PropsDerive.v` | closed |
| `C80_fields` | `PropsDerive.v` | closed |
| `C80_no_mask` | `PropsDerive.v` | closed |
| `C80_error` | `PropsDerive.v` | closed |
| `C80_unknown` | `PropsDerive.v` | closed |
| `C80_twice` | `PropsDerive.v` | closed |
| `C80_missing` | `PropsDerive.v` | closed |
| `C81_flatten` | `PropsDerive.v` | closed |
| `C81_inline` | `PropsDerive.v` | closed |
| `C81_no_place` | `PropsDerive.v` | closed |
| `C81_wrong_kind` | `PropsDerive.v` | closed |
| `C81_as_plain` | `PropsDerive.v` | closed |
| `C81_unsourced` | `PropsDerive.v` | closed |
| `C81_wide` | `PropsDerive.v` | closed |
| `C81_lossy` | `PropsDerive.v` | closed |
| `C82_untagged` | `PropsDerive.v` | closed |
| `C82_error` | `PropsDerive.v` | closed |
| `C82_lossy` | `PropsDerive.v` | closed |
| `C81_place_lost` | `PropsDerive.v` | closed |
| `C81_values_lost` | `PropsDerive.v` | closed |
| `C82_magic` | `PropsDerive.v` | closed |
| `C80_short` | `PropsDerive.v` | closed |
| `C80_element` | `PropsDerive.v` | closed |
| `C59_reads` | `PropsDoc.v` | closed |
| `C59_total` | `PropsDoc.v` | closed |
| `C59_fails` | `PropsDoc.v` | closed |
| `C59_found` | `PropsDoc.v` | closed |
| `C59_dict` | `PropsDoc.v` | closed |
| `C59_source` | `PropsDoc.v` | closed |
| `C59_provider` | `PropsDoc.v` | closed |
| `C59_figment` | `PropsDoc.v` | closed |
| `C59_reserved_refuted` | `PropsDoc.v` | closed |
| `C60_sections` | `PropsDoc.v` | closed |
| `C60_source` | `PropsDoc.v` | closed |
| `C60_provider` | `PropsDoc.v` | closed |
| `C60_case_refuted` | `PropsDoc.v` | closed |
| `C55_tagged` | `PropsEither.v` | closed |
| `C55_relative` | `PropsEither.v` | closed |
| `C55_figment` | `PropsEither.v` | closed |
| `C55_error` | `PropsEither.v` | closed |
| `C55_lossy_refuted` | `PropsEither.v` | closed |
| `C56_tagged` | `PropsEither.v` | closed |
| `C56_relative` | `PropsEither.v` | closed |
| `C56_original` | `PropsEither.v` | closed |
| `C56_resolved` | `PropsEither.v` | closed |
| `C56_resolved_refuted` | `PropsEither.v` | closed |
| `C31_iter` | `PropsEnv.v` | closed |
| `C31_keys` | `PropsEnv.v` | closed |
| `C31_prefix` | `PropsEnv.v` | closed |
| `C32_data` | `PropsEnv.v` | closed |
| `C32_data_clean` | `PropsEnv.v` | closed |
| `C33_order` | `PropsEnv.v` | closed |
| `C34_lowercase_refuted` | `PropsEnv.v` | closed |
| `C34_lowercase_keys_refuted` | `PropsEnv.v` | closed |
| `C34_settings_partial` | `PropsEnv.v` | closed |
| `C34_lowercase_exact` | `PropsEnv.v` | closed |
| `C35_exclusive` | `PropsEnv.v` | closed |
| `C35_partition` | `PropsEnv.v` | closed |
| `C63_leaves` | `PropsEnvData.v` | closed |
| `C63_found` | `PropsEnvData.v` | closed |
| `C63_assigned` | `PropsEnvData.v` | closed |
| `C63_panics` | `PropsEnvData.v` | closed |
| `C63_provider` | `PropsEnvData.v` | closed |
| `C63_figment` | `PropsEnvData.v` | closed |
| `C66_hash` | `PropsEq.v` | closed |
| `C66_exact` | `PropsEq.v` | closed |
| `C66_respelled` | `PropsEq.v` | closed |
| `C66_equivalence` | `PropsEq.v` | closed |
| `C66_reflexive` | `PropsEq.v` | closed |
| `C66_self_refuted` | `PropsEq.v` | closed |
| `C66_wrappers` | `PropsEq.v` | closed |
| `C66_shown_refuted` | `PropsEq.v` | closed |
| `C66_extracts_refuted` | `PropsEq.v` | closed |
| `C85_fault` | `PropsFault.v` | closed |
| `C85_source` | `PropsFault.v` | closed |
| `C85_text` | `PropsFault.v` | closed |
| `C89_whole` | `PropsField.v` | closed |
| `C89_struct` | `PropsField.v` | closed |
| `C89_map` | `PropsField.v` | closed |
| `C89_error` | `PropsField.v` | closed |
| `C89_dotted_refuted` | `PropsField.v` | closed |
| `C05_precedence` | `PropsFigment.v` | closed |
| `C05_leaves` | `PropsFigment.v` | closed |
| `C05_others_irrelevant` | `PropsFigment.v` | closed |
| `C06_case_insensitive` | `PropsFigment.v` | closed |
| `C07_profile` | `PropsFigment.v` | closed |
| `C08_sticky` | `PropsFigment.v` | closed |
| `C08_never_recovers` | `PropsFigment.v` | closed |
| `C09_first_and_last_partial` | `PropsFigment.v` | closed |
| `C09_at_most_two` | `PropsFigment.v` | closed |
| `C09_all_reported_refuted` | `PropsFigment.v` | closed |
| `C10_names_provider` | `PropsFigment.v` | closed |
| `C10_every_error` | `PropsFigment.v` | closed |
| `C13_traceable` | `PropsFigment.v` | closed |
| `C13_tagged` | `PropsFigment.v` | closed |
| `C14_winner` | `PropsFigment.v` | closed |
| `C14_find_metadata` | `PropsFigment.v` | closed |
| `C15_composition` | `PropsFigment.v` | closed |
| `C16_metadata` | `PropsFigment.v` | closed |
| `C37_resolve` | `PropsFile.v` | closed |
| `C37_nearest` | `PropsFile.v` | closed |
| `C37_only_itself` | `PropsFile.v` | closed |
| `C37_candidates` | `PropsFile.v` | closed |
| `C37_metadata` | `PropsFile.v` | closed |
| `C36_missing` | `PropsFile.v` | closed |
| `C36_required` | `PropsFile.v` | closed |
| `C36_found` | `PropsFile.v` | closed |
| `C36_string` | `PropsFile.v` | closed |
| `C36_builders` | `PropsFile.v` | closed |
| `C42_extract` | `PropsFile.v` | closed |
| `C42_any_value` | `PropsFile.v` | closed |
| `C42_unchanged` | `PropsFile.v` | closed |
| `C42_file` | `PropsFile.v` | closed |
| `C42_file_text` | `PropsFile.v` | closed |
| `C42_directory` | `PropsFile.v` | closed |
| `C42_forged_refuted` | `PropsFile.v` | closed |
| `C43_diff` | `PropsFile.v` | closed |
| `C43_answers` | `PropsFile.v` | closed |
| `C43_exact` | `PropsFile.v` | closed |
| `C43_shared` | `PropsFile.v` | closed |
| `C43_display` | `PropsFile.v` | closed |
| `C43_dot_refuted` | `PropsFile.v` | closed |
| `C43_dotdot_refuted` | `PropsFile.v` | closed |
| `C44_restored` | `PropsFile.v` | closed |
| `C44_bad_name_refuted` | `PropsFile.v` | closed |
| `C44_directory_gone_refuted` | `PropsFile.v` | closed |
| `C45_inside` | `PropsFile.v` | closed |
| `C45_operations` | `PropsFile.v` | closed |
| `C45_absolute` | `PropsFile.v` | closed |
| `C45_relative` | `PropsFile.v` | closed |
| `C45_parent_refuted` | `PropsFile.v` | closed |
| `C67_value` | `PropsFrame.v` | closed |
| `C67_extract` | `PropsFrame.v` | closed |
| `C67_unrelated` | `PropsFrame.v` | closed |
| `C67_deny_refuted` | `PropsFrame.v` | closed |
| `C68_any_order` | `PropsFrame.v` | closed |
| `C68_mixed_refuted` | `PropsFrame.v` | closed |
| `C68_overlap_refuted` | `PropsFrame.v` | closed |
| `C64_configured` | `PropsGives.v` | closed |
| `C64_value` | `PropsGives.v` | closed |
| `C64_extract` | `PropsGives.v` | closed |
| `C64_inner` | `PropsGives.v` | closed |
| `C41_exact` | `PropsGives.v` | closed |
| `C42_exact` | `PropsGives.v` | closed |
| `C55_exact` | `PropsGives.v` | closed |
| `C55_lossy_exact` | `PropsGives.v` | closed |
| `C38_exact` | `PropsHollow.v` | closed |
| `C38_iff` | `PropsHollow.v` | closed |
| `C38_settles` | `PropsHollow.v` | closed |
| `C44_exact` | `PropsJailExact.v` | closed |
| `C71_serialized` | `PropsLayers.v` | closed |
| `C71_merge` | `PropsLayers.v` | closed |
| `C71_layers` | `PropsLayers.v` | closed |
| `C71_config` | `PropsLayers.v` | closed |
| `C71_untouched` | `PropsLayers.v` | closed |
| `C71_replace` | `PropsLayers.v` | closed |
| `C71_enum_refuted` | `PropsLayers.v` | closed |
| `C71_map_refuted` | `PropsLayers.v` | closed |
| `C17_find` | `PropsLookup.v` | closed |
| `C17_keys` | `PropsLookup.v` | closed |
| `C17_contains` | `PropsLookup.v` | closed |
| `C18_nest_find` | `PropsLookup.v` | closed |
| `C18_nest_only` | `PropsLookup.v` | closed |
| `C19_focus_partial` | `PropsLookup.v` | closed |
| `C19_focus_refuted` | `PropsLookup.v` | closed |
| `C19_exact` | `PropsLookup.v` | closed |
| `C19_twice` | `PropsLookup.v` | closed |
| `C46_iteration` | `PropsLookup.v` | closed |
| `C46_iteration_total` | `PropsLookup.v` | closed |
| `C46_chain_partial` | `PropsLookup.v` | closed |
| `C46_chain_exact` | `PropsLookup.v` | closed |
| `C46_chain_refuted` | `PropsLookup.v` | closed |
| `C47_equality` | `PropsLookup.v` | closed |
| `C77_built` | `PropsMeta.v` | closed |
| `C77_shortcut` | `PropsMeta.v` | closed |
| `C77_provided` | `PropsMeta.v` | closed |
| `C77_source` | `PropsMeta.v` | closed |
| `C77_same` | `PropsMeta.v` | closed |
| `C77_custom` | `PropsMeta.v` | closed |
| `C77_begins` | `PropsMeta.v` | closed |
| `C77_order` | `PropsMeta.v` | closed |
| `C77_collect` | `PropsMeta.v` | closed |
| `C51_value` | `PropsMore.v` | closed |
| `C51_extract` | `PropsMore.v` | closed |
| `C51_inner` | `PropsMore.v` | closed |
| `C52_profiles` | `PropsMore.v` | closed |
| `C52_order` | `PropsMore.v` | closed |
| `C52_select` | `PropsMore.v` | closed |
| `C52_failed` | `PropsMore.v` | closed |
| `C07_figment` | `PropsMore.v` | closed |
| `C53_var` | `PropsMore.v` | closed |
| `C53_var_none` | `PropsMore.v` | closed |
| `C53_var_or` | `PropsMore.v` | closed |
| `C53_profile` | `PropsMore.v` | closed |
| `C53_profile_or` | `PropsMore.v` | closed |
| `C53_profile_trimmed_refuted` | `PropsMore.v` | closed |
| `C54_lines` | `PropsMore.v` | closed |
| `C54_report` | `PropsMore.v` | closed |
| `C54_extraction` | `PropsMore.v` | closed |
| `C54_providers` | `PropsMore.v` | closed |
| `C54_quoted` | `PropsMore.v` | closed |
| `C26_rounding` | `PropsNear.v` | closed |
| `C26_exact` | `PropsNear.v` | closed |
| `C57_integers` | `PropsNear.v` | closed |
| `C57_casts` | `PropsNear.v` | closed |
| `C57_floats` | `PropsNear.v` | closed |
| `C57_values` | `PropsNear.v` | closed |
| `C58_holds` | `PropsNear.v` | closed |
| `C58_serialize` | `PropsNear.v` | closed |
| `C93_text` | `PropsOsText.v` | closed |
| `C93_valid` | `PropsOsText.v` | closed |
| `C93_marked` | `PropsOsText.v` | closed |
| `C93_segments` | `PropsOsText.v` | closed |
| `C93_keys` | `PropsOsText.v` | closed |
| `C93_collide_refuted` | `PropsOsText.v` | closed |
| `C25_lossy_bool` | `PropsParse.v` | closed |
| `C26_lossy_num` | `PropsParse.v` | closed |
| `C26_others` | `PropsParse.v` | closed |
| `C26_nearest_double_refuted` | `PropsParse.v` | closed |
| `C27_terminates` | `PropsParse.v` | closed |
| `C27_no_panic_partial` | `PropsParse.v` | closed |
| `C27_no_panic_refuted` | `PropsParse.v` | closed |
| `C28_fallback` | `PropsParse.v` | closed |
| `C28_denotes_partial` | `PropsParse.v` | closed |
| `C28_denotes_refuted` | `PropsParse.v` | closed |
| `C29_show_parse` | `PropsParse.v` | closed |
| `C29_show_denotes` | `PropsParse.v` | closed |
| `C30_escapes_partial` | `PropsParse.v` | closed |
| `C30_invalid_partial` | `PropsParse.v` | closed |
| `C30_accepts` | `PropsParse.v` | closed |
| `C30_escapes_refuted` | `PropsParse.v` | closed |
| `C84_configured` | `PropsRefuse.v` | closed |
| `C84_value` | `PropsRefuse.v` | closed |
| `C84_outcome` | `PropsRefuse.v` | closed |
| `C84_extract` | `PropsRefuse.v` | closed |
| `C84_inner` | `PropsRefuse.v` | closed |
| `C84_nothing` | `PropsRefuse.v` | closed |
| `C84_reserved_refuted` | `PropsRefuse.v` | closed |
| `C94_ignored` | `PropsRocket.v` | closed |
| `C94_config` | `PropsRocket.v` | closed |
| `C94_fault` | `PropsRocket.v` | closed |
| `C94_blank_refuted` | `PropsRocket.v` | closed |
| `C38_round_trip` | `PropsRt.v` | closed |
| `C38_figment` | `PropsRt.v` | closed |
| `C38_nested` | `PropsRt.v` | closed |
| `C38_option_refuted` | `PropsRt.v` | closed |
| `C39_value` | `PropsRt.v` | closed |
| `C39_figment` | `PropsRt.v` | closed |
| `C39_pointer_sized_refuted` | `PropsRt.v` | closed |
| `C40_forged_refuted` | `PropsRt.v` | closed |
| `C40_dropped_refuted` | `PropsRt.v` | closed |
| `C40_values_partial` | `PropsRt.v` | closed |
| `C41_tagged` | `PropsRt.v` | closed |
| `C41_same_failure` | `PropsRt.v` | closed |
| `C41_error_path_refuted` | `PropsRt.v` | closed |
| `C41_forged_refuted` | `PropsRt.v` | closed |
| `C48_data` | `PropsRt.v` | closed |
| `C48_error` | `PropsRt.v` | closed |
| `C48_pair` | `PropsRt.v` | closed |
| `C48_constructors` | `PropsRt.v` | closed |
| `C48_builder` | `PropsRt.v` | closed |
| `C49_partial` | `PropsRt.v` | closed |
| `C49_wide_refuted` | `PropsRt.v` | closed |
| `C50_pairs_partial` | `PropsRt.v` | closed |
| `C50_newtype_refuted` | `PropsRt.v` | closed |
| `C50_duplicates_refuted` | `PropsRt.v` | closed |
| `C86_saves` | `PropsSave.v` | closed |
| `C86_agree` | `PropsSave.v` | closed |
| `C86_underneath` | `PropsSave.v` | closed |
| `C86_on_top` | `PropsSave.v` | closed |
| `C86_on_top_refuted` | `PropsSave.v` | closed |
| `C83_written` | `PropsSer.v` | closed |
| `C83_error` | `PropsSer.v` | closed |
| `C83_either` | `PropsSer.v` | closed |
| `C83_char` | `PropsSer.v` | closed |
| `C92_inner` | `PropsSettings.v` | closed |
| `C92_extract` | `PropsSettings.v` | closed |
| `C92_setting` | `PropsSettings.v` | closed |
| `C61_float` | `PropsShown.v` | closed |
| `C61_shortest` | `PropsShown.v` | closed |
| `C61_integer` | `PropsShown.v` | closed |
| `C61_text` | `PropsShown.v` | closed |
| `C61_found` | `PropsShown.v` | closed |
| `C61_value` | `PropsShown.v` | closed |
| `C61_message` | `PropsShown.v` | closed |
| `C61_other_refuted` | `PropsShown.v` | closed |
| `C61_problem` | `PropsShown.v` | closed |
| `C61_subject` | `PropsShown.v` | closed |
| `C61_expected` | `PropsShown.v` | closed |
| `C61_words` | `PropsShown.v` | closed |
| `C61_called` | `PropsShown.v` | closed |
| `C54_env` | `PropsShown.v` | closed |
| `C54_origin` | `PropsShown.v` | closed |
| `C61_special` | `PropsShown.v` | closed |
| `C96_source` | `PropsSource.v` | closed |
| `C96_fault` | `PropsSource.v` | closed |
| `C96_whole` | `PropsSource.v` | closed |
| `C96_decided` | `PropsSource.v` | closed |
| `C76_config` | `PropsStack.v` | closed |
| `C91_fault` | `PropsStageFault.v` | closed |
| `C91_source` | `PropsStageFault.v` | closed |
| `C91_text` | `PropsStageFault.v` | closed |
| `C87_config` | `PropsStages.v` | closed |
| `C87_env_refuted` | `PropsStages.v` | closed |
| `C30_exact` | `PropsStuck.v` | closed |
| `C30_panics` | `PropsStuck.v` | closed |
| `C30_errors` | `PropsStuck.v` | closed |
| `C27_exact` | `PropsStuck.v` | closed |
| `C28_exact` | `PropsStuck.v` | closed |
| `C28_unique` | `PropsStuck.v` | closed |
| `C28_read_not_stuck` | `PropsStuck.v` | closed |
| `C28_same_without_escapes` | `PropsStuck.v` | closed |
| `C11_unique` | `PropsTag.v` | closed |
| `C11_exhaustion_panics` | `PropsTag.v` | closed |
| `C11_unbounded_refuted` | `PropsTag.v` | closed |
| `C12_for_profile` | `PropsTag.v` | closed |
| `C12_profile` | `PropsTag.v` | closed |
| `C12_invisible` | `PropsTag.v` | closed |
| `C39_exact` | `PropsTaken.v` | closed |
| `C39_visits` | `PropsTaken.v` | closed |
| `C39_plain_exact` | `PropsTaken.v` | closed |
| `C40_fails` | `PropsTaken.v` | closed |
| `C40_tags` | `PropsTaken.v` | closed |
| `C74_length` | `PropsText.v` | closed |
| `C74_boundary` | `PropsText.v` | closed |
| `C74_order` | `PropsText.v` | closed |
| `C74_white` | `PropsText.v` | closed |
| `C74_trim` | `PropsText.v` | closed |
| `C74_lower` | `PropsText.v` | closed |
| `C74_replace` | `PropsText.v` | closed |
| `C74_replace_empty` | `PropsText.v` | closed |
| `C74_split` | `PropsText.v` | closed |
| `C75_alone` | `PropsThreads.v` | closed |
| `C75_schedule` | `PropsThreads.v` | closed |
| `C75_exclusive` | `PropsThreads.v` | closed |
| `C75_progress` | `PropsThreads.v` | closed |
| `C75_finishes` | `PropsThreads.v` | closed |
| `C75_nested` | `PropsThreads.v` | closed |
| `C75_sees` | `PropsThreads.v` | closed |
| `C75_set` | `PropsThreads.v` | closed |
| `C78_alone` | `PropsTwin.v` | closed |
| `C78_answers` | `PropsTwin.v` | closed |
| `C78_errors` | `PropsTwin.v` | closed |
| `C78_only_tags` | `PropsTwin.v` | closed |
| `C78_end_to_end` | `PropsTwin.v` | closed |
| `C78_forged_refuted` | `PropsTwin.v` | closed |
| `C72_coalesce` | `PropsView.v` | closed |
| `C72_held` | `PropsView.v` | closed |
| `C72_found` | `PropsView.v` | closed |
| `C72_values` | `PropsView.v` | closed |
| `C72_alike` | `PropsView.v` | closed |
| `C72_last_word` | `PropsView.v` | closed |
| `C69_no_trace` | `PropsWorld.v` | closed |
| `C69_confined` | `PropsWorld.v` | closed |
| `C69_start` | `PropsWorld.v` | closed |
| `C70_create` | `PropsWorld.v` | closed |
| `C70_mkdir` | `PropsWorld.v` | closed |
| `C70_chdir` | `PropsWorld.v` | closed |
| `C70_chdir_up_refuted` | `PropsWorld.v` | closed |
| `C70_set_env` | `PropsWorld.v` | closed |
| `C70_clear_env` | `PropsWorld.v` | closed |
| `C70_seen` | `PropsWorld.v` | closed |
| `C70_nearest` | `PropsWorld.v` | closed |
| `C70_file` | `PropsWorld.v` | closed |
| `C70_kept` | `PropsWorld.v` | closed |
| `C70_dotdot_refuted` | `PropsWorld.v` | closed |
| `C70_escape_refuted` | `PropsWorld.v` | closed |
| `C73_resolved` | `PropsYaml.v` | closed |
| `C73_fails` | `PropsYaml.v` | closed |
| `C73_mergeless` | `PropsYaml.v` | closed |
| `C73_provider` | `PropsYaml.v` | closed |
| `C73_chain_refuted` | `PropsYaml.v` | closed |
| `C73_named` | `PropsYaml.v` | closed |

{"id": "C01", "title": "Conflict resolution follows the documented join/adjoin/merge/admerge table", "statement": "Combining existing data with incoming data yields, at every key: the union of keys; for a key present on one side only, that side's value unchanged (tag included); for a key on both sides, dictionaries are combined recursively with the same strategy, arrays are kept (join), replaced (merge) or concatenated existing-then-incoming (adjoin, admerge), and in every other case the existing value wins for join/adjoin and the incoming one for merge/admerge.", "quantifier": "all pairs of dictionaries of any size and nesting depth, all four strategies, every key", "why_tests_cant": "The cases multiply with nesting depth and key sets; the examples in figment.rs fix a handful of shapes.", "anchors": ["src/coalesce.rs: impl Coalescible for Value, impl Coalescible for Map", "src/figment.rs: join, adjoin, merge, admerge, Conflict Resolution docs"]}
{"id": "C02", "title": "Every leaf of the combined configuration comes from the right side, at any depth", "statement": "For every dotted key path and either non-array-extending strategy, the scalar or array found at that path after a merge is the incoming one if the incoming data has one there, otherwise the existing one if the incoming data does not itself place a value on that path; nothing else appears, and join is the same with the two sides exchanged.", "quantifier": "all pairs of values, all key paths of any length", "why_tests_cant": "Paths are unbounded; a test sees one path of one pair.", "anchors": ["src/coalesce.rs", "src/value/value.rs: Value::find_ref"]}
{"id": "C03", "title": "join is merge with the arguments exchanged", "statement": "Joining `b` into `a` gives exactly the value (data and tags) that merging `a` into `b` gives; merging or joining a value with itself, or with nothing, changes nothing.", "quantifier": "all values a, b with well-formed dictionaries", "why_tests_cant": "An algebraic law over an infinite set of values.", "anchors": ["src/coalesce.rs", "src/figment.rs: join, merge"]}
{"id": "C04", "title": "Grouping of merges", "statement": "Merging providers one at a time gives the same data as first merging them into a Figment and then merging that Figment (associativity). Expected by users who compose Figments; it holds when no key is a dictionary in one provider and a non-dictionary in another.", "quantifier": "all triples of values", "why_tests_cant": "Needs a three-way mixed-shape combination that unit tests do not enumerate.", "anchors": ["src/coalesce.rs", "src/figment.rs: Provider for Figment"]}
{"id": "C05", "title": "Profile precedence: global over selected over default", "statement": "The extracted configuration is the default profile's data, overridden by the selected custom profile's data if there is one, overridden by the global profile's data; data in any other profile has no influence.", "quantifier": "all profile maps, all selected profiles (custom, default, global, absent), all key paths", "why_tests_cant": "Quantifies over all profile contents; non-interference (`no influence`) is not testable by finite examples.", "anchors": ["src/figment.rs: merged, select, extract"]}
{"id": "C06", "title": "Profiles are case-insensitive everywhere", "statement": "Two profile names that differ only in ASCII letter case select the same data, address the same entry of a provider's data, and are classified (default / global / custom) the same way.", "quantifier": "all profile names, all figments", "why_tests_cant": "All spellings of all names.", "anchors": ["src/profile.rs: Profile, is_custom", "src/figment.rs: merged, select"]}
{"id": "C07", "title": "Only merging changes the selected profile", "statement": "`select` sets the profile; `merge`/`admerge` of a provider that names a profile sets it; `join`/`adjoin` never change it; no provider without a profile changes it. The profile after any sequence of operations is that of the last operation that sets it.", "quantifier": "all sequences of operations on a Figment", "why_tests_cant": "Histories are unbounded.", "anchors": ["src/figment.rs: provide, select", "src/coalesce.rs: Coalescible for Profile"]}
{"id": "C08", "title": "A provider error is sticky", "statement": "Once any provided provider has failed, every later extraction, lookup and `contains` on the Figment fails (whatever is joined or merged afterwards), and with no failing provider data access never fails because of providers.", "quantifier": "all histories of operations, any position of the failure", "why_tests_cant": "Any position in any history.", "anchors": ["src/figment.rs: provide, merged"]}
{"id": "C09", "title": "All provider errors are reported", "statement": "When several providers fail, the error returned by extraction contains every failing provider's error.", "quantifier": "all histories with any number of failing providers", "why_tests_cant": "Needs three or more failing providers in one chain.", "anchors": ["src/figment.rs: provide", "src/error.rs: chain, count, IntoIter"]}
{"id": "C10", "title": "A provider error names its provider", "statement": "If a provider fails with an error that carries no origin, the error returned from extraction carries the metadata of exactly that provider.", "quantifier": "all histories with a failing provider at any position", "why_tests_cant": "Any number of other providers before and after.", "anchors": ["src/figment.rs: provide, merged", "src/error.rs: retagged, resolved"]}
{"id": "C11", "title": "Tags are unique across threads and histories", "statement": "Every provide operation, in whatever thread and order, gets a tag that differs from the tag of every other provide operation and from the default tag; if identifiers run out the operation panics instead of reusing one.", "quantifier": "all interleavings of any number of threads' provide calls (fewer than 2^64 - 1 of them)", "why_tests_cant": "Concurrency and exhaustion after 2^62 calls cannot be exercised.", "anchors": ["src/value/tag.rs: Tag::next, COUNTER"]}
{"id": "C12", "title": "A tag carries its identifier and profile without loss", "statement": "Re-tagging a tag for a profile keeps the metadata it refers to, records default/global/custom exactly, and never affects tag equality or ordering, which depend on the identifier only.", "quantifier": "all 62-bit identifiers, all profiles", "why_tests_cant": "2^62 identifiers.", "anchors": ["src/value/tag.rs: new, for_profile, metadata_id, profile_tag, profile, PartialEq, Ord"]}
{"id": "C13", "title": "Every value is traceable to the provider that supplied it", "statement": "After any history of join/adjoin/merge/admerge of providers that emit untagged data, every value reachable in the extracted configuration (at any depth) has a tag; the metadata of that tag is registered in the Figment and is the metadata of a provider that supplied, in that profile, a value at that very path.", "quantifier": "all histories, all providers, all paths including array elements", "why_tests_cant": "Unbounded histories and depth.", "anchors": ["src/figment.rs: provide, find_metadata, get_metadata", "src/value/value.rs: map_tag"]}
{"id": "C14", "title": "find_metadata names the winning provider", "statement": "For a history of joins and merges of shape-compatible providers, the value found at a leaf path and its metadata are those of the highest-priority provider that supplies the path: global before selected before default profile, and within a profile merges later-first, then the start, then joins earlier-first.", "quantifier": "all histories of joins and merges of any length, all leaf paths", "why_tests_cant": "Unbounded histories.", "anchors": ["src/figment.rs: find_value, find_metadata, provide, merged"]}
{"id": "C15", "title": "Composing Figments keeps provenance", "statement": "When a Figment is itself joined or merged into another, values keep the tags they had, and all of its metadata stays reachable.", "quantifier": "all pairs of Figments", "why_tests_cant": "Arbitrary nesting of Figments.", "anchors": ["src/figment.rs: provide, Provider for Figment"]}
{"id": "C16", "title": "metadata() lists every provider once, in order of provision", "statement": "After any history on a fresh Figment, `metadata()` yields one entry per provided provider, in the order in which they were provided, each with the caller's location. If there are Figments among the providers, it also yields one entry for every provide operation that went into those, directly or not, each once, in the order of the operations in the whole program.", "quantifier": "all histories of operations", "why_tests_cant": "Unbounded histories.", "anchors": ["src/figment.rs: metadata, provide", "src/value/tag.rs: Ord"]}
{"id": "C17", "title": "Lookup by dotted path", "statement": "`find`, `find_ref` agree; a lookup of `a.b.c` is the successive lookup of each key in dictionaries, the empty path is the whole value, and a lookup through a non-dictionary or missing key finds nothing; `contains(p)` is true exactly when `find_value(p)` succeeds.", "quantifier": "all values, all path strings (including empty components), all Figments", "why_tests_cant": "All strings.", "anchors": ["src/value/value.rs: find, find_ref", "src/figment.rs: contains, find_value"]}
{"id": "C18", "title": "nest and find are inverse", "statement": "For every key string and value, looking up the key in the nesting of the value under that key gives back the value; and nothing else is in the nested value.", "quantifier": "all key strings, all values", "why_tests_cant": "All strings, including leading, trailing and repeated dots.", "anchors": ["src/util.rs: nest", "src/value/value.rs: find"]}
{"id": "C19", "title": "focus(key).find(sub) is find(key.sub)", "statement": "As documented, looking up `sub` in the Figment focused on `key` gives what looking up `key.sub` in the original gives.", "quantifier": "all Figments, all keys and sub-keys", "why_tests_cant": "Fails only when profiles disagree on the shape under the key.", "anchors": ["src/figment.rs: focus, find_value"]}
{"id": "C20", "title": "Extraction errors point at the offending value", "statement": "If typed extraction fails, the error's path is the full key path (from the root of the configuration) of a value that exists in the configuration, and its metadata and profile are those of that value (or of the closest enclosing tagged value).", "quantifier": "all values, all target types built from scalars, options, sequences, tuples, maps, structs, newtypes and enums", "why_tests_cant": "All types and all nestings.", "anchors": ["src/value/de.rs: ConfiguredValueDe, MapDe, SeqDe", "src/error.rs: prefixed, retagged, resolved", "src/figment.rs: extract"]}
{"id": "C21", "title": "extract_inner reports the full path", "statement": "If `extract_inner(path)` fails inside the found value, the error's path is `path` followed by the path inside the value.", "quantifier": "all Figments, paths and types", "why_tests_cant": "Only visible when the failing value is strictly below the requested path.", "anchors": ["src/figment.rs: extract_inner, extract_inner_lossy", "src/error.rs: with_path"]}
{"id": "C22", "title": "Integers are never silently changed", "statement": "Extracting a number into an integer type yields the same mathematical integer or an error; it succeeds exactly when the value is in the range of the type.", "quantifier": "all integer variants and values, all integer target types of 8 to 64 bits", "why_tests_cant": "The value space is 2^128.", "anchors": ["src/value/de.rs: Num deserialize_any, int_try"]}
{"id": "C23", "title": "128-bit integers", "statement": "A 128-bit integer that was serialized into a Figment can be extracted again as a 128-bit integer.", "quantifier": "all 128-bit integers", "why_tests_cant": "No test covers 128-bit extraction.", "anchors": ["src/value/de.rs: forward_to_deserialize_any lists", "src/value/ser.rs"]}
{"id": "C24", "title": "Lossy extraction is a conservative extension", "statement": "Whenever ordinary extraction succeeds, lossy extraction succeeds with the same result.", "quantifier": "all values, all target types", "why_tests_cant": "All types and values.", "anchors": ["src/value/de.rs: LossyInterpreter", "src/figment.rs: extract_lossy"]}
{"id": "C25", "title": "Lossy booleans", "statement": "Lossy boolean conversion maps booleans to themselves, the integers 0 and 1 of any width and sign, and the strings true/yes/1/on and false/no/0/off in any letter case, and nothing else.", "quantifier": "all values", "why_tests_cant": "All strings and numbers.", "anchors": ["src/value/value.rs: to_bool_lossy, to_u128_lossy"]}
{"id": "C26", "title": "Lossy numbers", "statement": "Lossy number conversion of a decimal integer string yields exactly that integer in the smallest sufficient variant; strings that are not decimal numbers yield nothing; numbers are unchanged. Strings with a `.` yield the nearest double.", "quantifier": "all strings", "why_tests_cant": "All digit strings up to 128-bit overflow.", "anchors": ["src/value/value.rs: Num::from_str, to_num_lossy"]}
{"id": "C27", "title": "Parsing a Value from a string never panics and always terminates", "statement": "Parsing any string as a Value returns a value.", "quantifier": "all strings of Unicode characters", "why_tests_cant": "All strings; the failing inputs need a non-ASCII character before an escape.", "anchors": ["src/value/parse.rs: FromStr for Value, Parser", "src/value/escape.rs: escape"]}
{"id": "C28", "title": "Unparseable input is kept as a string", "statement": "If the trimmed input is not a complete value of the documented grammar, the result is the trimmed input itself as a string.", "quantifier": "all strings", "why_tests_cant": "All strings.", "anchors": ["src/value/parse.rs: FromStr for Value"]}
{"id": "C29", "title": "Values can be written so that parsing gives them back", "statement": "For every value built from booleans, unsigned and negative integers, strings, characters, arrays and dictionaries there is a textual form (decimal digits, quoted and escaped strings and keys, bracketed lists) that parses to exactly that value.", "quantifier": "all such values of any size and depth", "why_tests_cant": "Round trips over unbounded trees.", "anchors": ["src/value/parse.rs", "src/value/escape.rs"]}
{"id": "C30", "title": "Quoted strings decode their escapes", "statement": "The content of a quoted string is decoded character by character: each documented escape stands for its character, every other permitted character for itself; an invalid escape or control character makes the quoted string invalid.", "quantifier": "all quoted strings", "why_tests_cant": "All strings; goes wrong when a non-ASCII character precedes the first escape.", "anchors": ["src/value/escape.rs: escape, hex"]}
{"id": "C31", "title": "Env keys", "statement": "`Env::iter` yields exactly the environment variables that survive the filters, in environment order, with prefix removed (case-insensitively), keys trimmed and lower-cased (unless disabled), and never a key with an empty component.", "quantifier": "all environments, all prefixes and filter chains", "why_tests_cant": "All environments.", "anchors": ["src/providers/env.rs: iter, prefixed, chain, filter, map, filter_map, split"]}
{"id": "C32", "title": "Env data never panics on keys", "statement": "`Env::data` always finds a dictionary under every key it iterates over: the `key is non-empty` expectation cannot fail.", "quantifier": "all environments and filter chains", "why_tests_cant": "All environments.", "anchors": ["src/providers/env.rs: data, iter", "src/util.rs: nest"]}
{"id": "C33", "title": "Env data does not depend on variable order", "statement": "If no surviving variable's key equals, or is a dotted prefix of, another's, the data is the same for every order in which the operating system lists the variables.", "quantifier": "all environments, all permutations", "why_tests_cant": "All permutations.", "anchors": ["src/providers/env.rs: data"]}
{"id": "C34", "title": "Env builder settings persist", "statement": "Settings of an Env (profile, prefix, lower-casing) are not changed by adding filters or mappings.", "quantifier": "all sequences of builder calls", "why_tests_cant": "Order-dependent builder bugs need the right call order.", "anchors": ["src/providers/env.rs: chain, lowercase"]}
{"id": "C35", "title": "only and ignore partition the variables", "statement": "For every key list, a variable is kept by `only` exactly when it is dropped by `ignore`, comparing names case-insensitively.", "quantifier": "all environments, all key lists", "why_tests_cant": "All key lists.", "anchors": ["src/providers/env.rs: only, ignore"]}
{"id": "C36", "title": "Missing files", "statement": "A non-required file that cannot be found contributes no data and no error; a required one makes extraction fail; a found one is used whether required or not. A string given in place of a file is what is parsed, under its profile or as a map of profiles, whatever the files and the settings about files.", "quantifier": "all file systems, paths and settings", "why_tests_cant": "All file systems.", "anchors": ["src/providers/data.rs: data, resolve, required"]}
{"id": "C37", "title": "File search takes the nearest ancestor", "statement": "With searching enabled and a relative path, the file used is the one in the current directory or, failing that, the closest ancestor directory; with searching disabled or an absolute path only the path itself is considered; the metadata names the file that was read.", "quantifier": "all file systems, all working directories of any depth", "why_tests_cant": "All directory depths.", "anchors": ["src/providers/data.rs: resolve, metadata, data"]}
{"id": "C38", "title": "Serialized values can be extracted again", "statement": "A value of a supported type, serialized into a Figment value and extracted as the same type, gives back the same value.", "quantifier": "all types built from booleans, integers up to 64 bits, floats, characters, strings, units, options, sequences, tuples, string maps, structs, newtypes and enums; all values of them", "why_tests_cant": "All types, all values.", "anchors": ["src/value/ser.rs", "src/value/de.rs", "src/providers/serialized.rs"]}
{"id": "C39", "title": "Extracting a Value loses nothing", "statement": "Extracting a Figment (or part of it) as a `Value` gives the data that is there, with every tag, at every depth.", "quantifier": "all Figments", "why_tests_cant": "Unbounded depth.", "anchors": ["src/value/de.rs: Value::deserialize, deserialize_from, ValueVisitor"]}
{"id": "C40", "title": "Configuration data cannot forge provenance or disappear", "statement": "A key of a configuration file never changes which provider a value is attributed to, and no key of a configuration file is dropped when it is read as a dictionary of values.", "quantifier": "all dictionaries", "why_tests_cant": "Needs the internal key names as input.", "anchors": ["src/value/de.rs: ValueVisitor::visit_map, FIELDS"]}
{"id": "C41", "title": "Tagged<T> carries the tag of the value", "statement": "Extracting `Tagged<T>` yields what extracting `T` yields, together with the tag of the value it was extracted from.", "quantifier": "all values and types", "why_tests_cant": "All types and values.", "anchors": ["src/value/magic.rs: Tagged"]}
{"id": "C42", "title": "RelativePathBuf resolves against the configuration file", "statement": "A relative path configured in a file resolves to that file's directory joined with the path; absolute paths and paths not from a file are unchanged; the original is always preserved.", "quantifier": "all values, all figments, all paths", "why_tests_cant": "All paths.", "anchors": ["src/value/magic.rs: RelativePathBuf"]}
{"id": "C43", "title": "Relative path computation is correct", "statement": "If `diff_paths(path, base)` returns a path, joining it to `base` leads to `path`.", "quantifier": "all Unix paths", "why_tests_cant": "Fails only for bases with `.` or `..` components.", "anchors": ["src/util.rs: diff_paths", "src/metadata.rs: Display for Source"]}
{"id": "C44", "title": "Jail restores the environment", "statement": "After a jail ends, every environment variable has the value (or absence) it had when the jail started, whatever sequence of `set_env` and `clear_env` ran, and the working directory is the original one.", "quantifier": "all initial environments, all operation sequences, all restore orders", "why_tests_cant": "Unbounded histories; restore order is unspecified (hash map).", "anchors": ["src/jail.rs: set_env, clear_env, Drop"]}
{"id": "C45", "title": "Jailed paths stay in the jail", "statement": "Every path accepted by the jail's file operations denotes a location inside the jail directory, as long as the working directory is inside it; changing directory keeps it inside.", "quantifier": "all paths with any mixture of `.`, `..` and absolute components", "why_tests_cant": "All paths.", "anchors": ["src/jail.rs: dedot, safe_jailed_path, change_dir, create_dir, create_binary"]}
{"id": "C46", "title": "Error chains", "statement": "`count()` equals the number of errors iteration yields; iteration yields the errors of a chain in order, each without its predecessors; chaining adds exactly one error's chain to the other.", "quantifier": "all error chains", "why_tests_cant": "Unbounded chains.", "anchors": ["src/error.rs: chain, count, IntoIter"]}
{"id": "C47", "title": "Value equality ignores provenance and integer width", "statement": "Two values compare equal exactly when they have the same structure and the same scalars, where integers of the same signedness compare by value; tags never matter.", "quantifier": "all pairs of values", "why_tests_cant": "All values.", "anchors": ["src/value/value.rs: PartialEq for Value, PartialEq for Num"]}
{"id": "C48", "title": "Serialized providers put data where they say", "statement": "`Serialized` emits exactly one profile, holding the serialized value nested under the key if one is set; it fails exactly when the (nested) value is not a dictionary.", "quantifier": "all values, keys and profiles", "why_tests_cant": "All keys, including empty components.", "anchors": ["src/providers/serialized.rs: data", "src/provider.rs: (K, V)"]}
{"id": "C49", "title": "bool_from_str_or_int", "statement": "Accepts exactly booleans, the integers 0 and 1 and the strings true/false in any letter case, with the documented meaning.", "quantifier": "all values", "why_tests_cant": "All values.", "anchors": ["src/util.rs: bool_from_str_or_int"]}
{"id": "C50", "title": "vec_tuple_map round-trips", "statement": "A vector of key/value pairs with distinct keys that is serialized as a map is read back with the same pairs.", "quantifier": "all vectors of pairs", "why_tests_cant": "All vectors; duplicates and order matter.", "anchors": ["src/util.rs: vec_tuple_map"]}
{"id": "C51", "title": "Typed extraction means what the data model says", "statement": "For every target type built from booleans, integers up to 64 bits, floats, characters, strings, paths, options, sequences, tuples, maps, structs, newtypes, enums and the helper types, extraction returns exactly the value the declarative reading of the type assigns to the configuration - scalars by value (or by spelling in lossy mode), struct fields by name with absent optional fields as None and unknown keys refused only on request, variants by name, index or single-key dictionary - and fails exactly when there is none.", "quantifier": "all target types, all configurations, both extraction modes, whole Figments and inner keys", "why_tests_cant": "Infinite families of target types and configurations; tests fix a handful of structs.", "anchors": ["src/value/de.rs: ConfiguredValueDe, MapDe, SeqDe", "src/figment.rs: extract, extract_lossy, extract_inner"]}
{"id": "C52", "title": "profiles() lists the profiles with data", "statement": "`Figment::profiles` yields, in order and each once (ignoring case), exactly the profiles that some provider supplied data for; the selected profile plays no role; a Figment with a failed provider lists none.", "quantifier": "all sequences of provide and select operations", "why_tests_cant": "Unbounded histories and profile spellings.", "anchors": ["src/figment.rs: profiles"]}
{"id": "C53", "title": "Single variables are found by name", "statement": "`Env::var` and `Profile::from_env` return the value of the first environment variable whose name, without surrounding whitespace, equals the requested name ignoring ASCII case (the first trims the value, the second does not), and nothing or the default exactly when there is none.", "quantifier": "all environments and names", "why_tests_cant": "All environments, including several variables that differ by case or whitespace.", "anchors": ["src/providers/env.rs: var, var_or", "src/profile.rs: from_env, from_env_or"]}
{"id": "C54", "title": "Error messages name the culprit", "statement": "The text of an error has one line per chained error; each line tells what is wrong, the key as the responsible provider writes it and that provider's source (a place in the code as file, line and column) and name as far as they are known. For every failing extraction the provider printed is the one that supplied the offending value, and for failing providers each line ends with the provider that failed.", "quantifier": "all error chains; all Figments that can be built; all target types of C20", "why_tests_cant": "Unbounded chains, histories and types.", "anchors": ["src/error.rs: Display for Error", "src/metadata.rs: Display for Source, interpolate"]}
{"id": "C55", "title": "Either prefers left and falls back to right", "statement": "Extracting `Either<A, B>` for the magic types A (`Tagged<T>`, `RelativePathBuf`) gives `Left` of what A gives whenever A can be extracted, and otherwise `Right` of what B gives for the same value; it fails exactly when both do, with the text of both reasons.", "quantifier": "all types T and B of C51; all values without reserved keys", "why_tests_cant": "All pairs of types and values; that B sees the original value and not the encoding built for A.", "anchors": ["src/value/magic.rs: Either, Tagged, RelativePathBuf", "src/value/de.rs: ValueVisitor, deserialize_struct"]}
{"id": "C56", "title": "Magic values survive being put back", "statement": "A `Tagged` or `RelativePathBuf` that is serialized into a configuration and extracted again keeps its value, and its tag or source file if it has one; one without takes the tag or file of the value it is read from.", "quantifier": "all types and values of C38; all tags, files and Figments", "why_tests_cant": "All types, and all combinations of old and new provenance.", "anchors": ["src/value/magic.rs: deserialize_from", "src/value/ser.rs"]}
{"id": "C57", "title": "Numbers answer with themselves", "statement": "Asked for an unsigned, signed or floating-point number, a `Num` answers exactly when it is stored that way (or, for the lossy form, is a non-negative integer), and always with the number it holds: no answer is truncated, wrapped or rounded. The accessors of `Value` answer exactly for the variant they are named after, whatever its tag.", "quantifier": "all numbers of all fourteen variants, all values", "why_tests_cant": "2^128 values per variant; a lossy cast shows only near the ends of a range.", "anchors": ["src/value/value.rs: Num::to_u32, to_u128, to_u128_lossy, to_i128, to_f64; Value::to_*, as_*, into_*"]}
{"id": "C58", "title": "From conversions keep what they are given", "statement": "A value made with `Value::from` from numbers, text, sequences, maps and values, nested in any way, holds exactly what was given: elements in order, under each key what was given last for it, no tag except where a tagged `Value` was given. Serializing the same Rust value gives the same result as serializing the converted one.", "quantifier": "all nestings of convertible types", "why_tests_cant": "Infinite family of nested types and contents.", "anchors": ["src/value/value.rs: impl From for Value", "src/value/ser.rs: ValueSerializer, MapSerializer"]}
{"id": "C59", "title": "Data files are read verbatim", "statement": "What a JSON, TOML or YAML document says becomes configuration unchanged: text, numbers with their type, booleans, nulls, lists in order, maps key by key (the last of a repeated key), YAML tags as nesting. Without the reserved keys reading cannot fail, and looking a dotted path up in a Figment made from the document gives what the document has there, and nothing the document does not have.", "quantifier": "all documents of any depth; all formats, sources (files and strings), profiles and paths", "why_tests_cant": "Infinitely many nested documents; a value visitor that mishandles one kind of value shows only when that kind is nested in a particular way.", "anchors": ["src/value/de.rs: Deserialize for Value, ValueVisitor", "src/value/tag.rs: Deserialize for Tag", "src/providers/data.rs: Format, Data::data"]}
{"id": "C60", "title": "Nested data files: one section per profile", "statement": "A document read as nested contributes, for each profile, exactly what the section of that name says; every section has an effect; profiles without a section get nothing; anything but a map of maps is an error.", "quantifier": "all documents; all profiles in any spelling", "why_tests_cant": "All combinations of section names, including ones equal up to case.", "anchors": ["src/providers/data.rs: Data::nested, Data::data", "src/profile.rs: Deserialize for Profile, Ord"]}
{"id": "C61", "title": "Messages show offending values faithfully", "statement": "What an error message shows of the value it is about determines that value: a float is shown as a decimal that reads back as exactly that float, with the fewest digits possible and nearest to it among those, an integer in full, text quoted so that it can be read back; two values are shown alike exactly if they are the same scalar (up to tag and integer width), or both dictionaries, or both arrays.", "quantifier": "all values; all doubles, including subnormal ones; all strings", "why_tests_cant": "2^64 doubles; all strings.", "anchors": ["src/error.rs: Display for Actual, Display for Kind", "src/value/value.rs: Value::to_actual, Num::to_actual"]}
{"id": "C62", "title": "Every text has exactly one reading", "statement": "`Value::from_str` is completely determined for every text: either the text (trimmed) is one of the grammar and the result is its unique meaning, where quoted text with an escape is cut as the code's byte offset dictates; or reading from the left reaches a quoted text where that offset falls inside a character, and the parser panics; or neither, and the result is the trimmed text as a string. No text is in two of these cases.", "quantifier": "all texts, of any length and nesting, with any Unicode characters", "why_tests_cant": "Infinitely many nested texts; the cases depend on the position of multi-byte characters relative to the first escape.", "anchors": ["src/value/parse.rs: FromStr for Value, Parser::value, delimited, quoted_str", "src/value/escape.rs: escape"]}
{"id": "C63", "title": "What the environment provides", "statement": "The environment provider's data is one dictionary, in the profile it was given, and every scalar and array in it comes from a kept variable: it is at a path exactly if some kept variable puts it there and no later one says anything that replaces it. If no kept key is the beginning of another, the whole value of every kept variable is at its key, also after the provider is put into a Figment. Nothing in the data has a source of its own. Reading the environment panics exactly if a kept variable's value is text on which the value parser panics.", "quantifier": "all environments, all sequences of builder calls", "why_tests_cant": "Any number of variables, with overlapping and nested keys, in any order.", "anchors": ["src/providers/env.rs: Env::iter, Provider for Env", "src/util.rs: nest"]}
{"id": "C64", "title": "Exactly what extraction gives, at every type", "statement": "For every target type with distinct field and variant names and every value, extraction succeeds with a result exactly if the written-down meaning of the type gives that result: numbers, texts and flags as they are or, leniently, as they are spelled; containers element by element; structs by field name, by position from an array, or from the specially presented dictionary of Value, Tagged and RelativePathBuf; enums by name, number or single entry; Value as a copy in which the reserved keys are interpreted; Either as the first reading of a strict copy or else the second; 128-bit integers never. This holds with reserved keys in the data, for extraction from a Figment, at a path of it, and from a Value alone.", "quantifier": "all values, all target types including Value, Tagged, RelativePathBuf and Either, nested anywhere; exact and lossy", "why_tests_cant": "All types and all values.", "anchors": ["src/value/de.rs: ConfiguredValueDe, Deserializer for &Value, ValueVisitor", "src/value/magic.rs: RelativePathBuf, Either, Tagged", "src/figment.rs: extract, extract_inner, extract_lossy"]}
{"id": "C65", "title": "Where data comes from never changes what it is", "statement": "Two runs that give the same data to Figments in the same order, but at other places in the code, at other times, from providers with other names, sources and ways of spelling keys, with values carrying other tags, and between any number of other Figments, lead to Figments that answer every question alike: the same values, the same extraction at every type, strict or lossy, or failures with the same kinds at the same paths. Sources show only where they are asked for: in Tagged, RelativePathBuf, metadata lookups and error texts, and in structs that bear one of the three reserved names; no other name of a struct makes a difference.", "quantifier": "all pairs of histories that agree on the data; all target types not using the reserved struct names, all keys", "why_tests_cant": "Compares every pair of runs; the global counter and the tags differ between any two real runs.", "anchors": ["src/figment.rs: provide, extract, extract_inner, find_value, focus, select", "src/value/de.rs: ConfiguredValueDe", "src/value/tag.rs", "src/metadata.rs"]}
{"id": "C66", "title": "Equality, ordering and hashing agree", "statement": "Tags and profiles are equal exactly if they are ordered as equal and exactly if they hash alike. Sources, metadata, errors, Tagged and RelativePathBuf are equal exactly if what identifies them is: paths by their steps, metadata by name and source, errors by identifier, profile, metadata, path, kind and predecessors, Tagged by value, RelativePathBuf by where it leads. Every equality is symmetric and transitive, and reflexive except on floats that are not a number.", "quantifier": "all tags, profiles, paths, sources, metadata, errors, values", "why_tests_cant": "All pairs and triples of structured values, of any depth.", "anchors": ["src/value/tag.rs: PartialEq, Ord, Hash for Tag", "src/profile.rs: Profile", "src/metadata.rs: PartialEq for Metadata, Source", "src/error.rs: Error, Kind, Actual", "src/value/value.rs: PartialEq for Value, Num", "src/value/magic.rs: PartialEq for RelativePathBuf, Tagged"]}
{"id": "C67", "title": "What a type does not look at does not matter", "statement": "Extraction depends on nothing but what the target type asks for. Two values that differ only in keys a struct does not have (and does not refuse), in elements beyond the end of a tuple, or in entries after the first where an enum is expected, at any depth, give the same result or the same error. A provider that says nothing about the fields of a struct changes nothing for it, in whatever order and way it is combined.", "quantifier": "all types, all pairs of values, all Figments and providers", "why_tests_cant": "A statement about all pairs of inputs that differ in irrelevant places.", "anchors": ["src/value/de.rs: Deserializer for ConfiguredValueDe, MapDe, SeqDe", "src/figment.rs: extract, provide"]}
{"id": "C68", "title": "Providers that do not overlap commute", "statement": "If no two of a list of providers have something at the same path of the same profile, except dictionaries on both sides, then merging or joining them in any order onto any Figment gives Figments that answer every question alike, whichever profile is selected. Mixing calls that override with calls that give way breaks this, and so does overlap.", "quantifier": "all Figments, all lists of pairwise disjoint providers, all permutations", "why_tests_cant": "Quantifies over all permutations of lists of arbitrary length.", "anchors": ["src/coalesce.rs", "src/figment.rs: provide, merge, join, adjoin, admerge"]}
{"id": "C69", "title": "A jail leaves no trace", "statement": "Once a jail has ended, however its closure used files, directories, variables and the working directory, the process is as it was before: the same files with the same contents, the same variables, the same working directory. While it lasts, nothing outside the jail's directory changes.", "quantifier": "all disks without symbolic links, all process states, all sequences of jail operations that name variables properly, all orders of reading the saved variables", "why_tests_cant": "Quantifies over all disks and all sequences of operations of any length; a test tries one.", "anchors": ["src/jail.rs: try_with, create_file, create_dir, change_dir, set_env, clear_env, drop", "src/jail.rs: dedot, safe_jailed_path"]}
{"id": "C70", "title": "In a jail, Figment sees what was put there", "statement": "Each jail operation does exactly what it says and fails exactly when the system makes it impossible. A file created in a jail is what the file provider of the same name then provides, with its true place as the source, from the same directory or one below. A set variable has the value set. Nothing else is seen.", "quantifier": "all disks without symbolic links, all jails, all paths, contents and variables, all formats", "why_tests_cant": "Quantifies over all disks, paths and parsers, and over what is not on the disk.", "anchors": ["src/jail.rs: create_file, create_dir, change_dir, set_env, clear_env", "src/providers/data.rs: resolve, data, metadata"]}
{"id": "C71", "title": "Defaults hold unless overridden", "statement": "A configuration built from Serialized::defaults(x) and later merges is x with exactly what the later layers mention changed: field by field through structs, options and newtypes, key by key through maps, in the order default, selected, global. What no layer mentions keeps its default, and a whole value of the type, given for a profile in play, replaces the default.", "quantifier": "all types that survive a round trip, all values of them, all later providers and profiles, both interpretations", "why_tests_cant": "Quantifies over all struct types, all default values and all stacks of partial overrides; tests fix one struct and one override.", "anchors": ["src/providers/serialized.rs: Serialized::defaults, data", "src/coalesce.rs: Coalesce for Value, Dict", "src/figment.rs: provide, merged, extract"]}
{"id": "C72", "title": "What a Figment holds at every path, for every history", "statement": "After any sequence of merges, joins, admerges, adjoins and selects of providers that do not fail, what a Figment holds at every path is determined by a simple overlay: within a profile each provider is laid over what was there before (merge, admerge) or put under it (join, adjoin), lower layers show through where the upper has nothing at the path and nothing but tables above it, arrays are concatenated by admerge and adjoin; then the selected profile lies over the default one and the global one over both. Nothing is assumed about the shapes of the data. Two histories with the same overlay extract the same.", "quantifier": "all histories of operations, all providers' data, all profiles, all paths", "why_tests_cant": "Quantifies over unboundedly long mixed histories and all clashes of shapes; merging is not associative, so cases do not generalise from pairs of providers.", "anchors": ["src/figment.rs: provide, merged, find_value, extract", "src/coalesce.rs: Coalesce for Value, Map, Profile"]}
{"id": "C73", "title": "YamlExtended honours merge keys as documented", "statement": "YamlExtended reads a document as Yaml does, with merge keys honoured: every map has its own entries and, for the keys it has not, those of the map under `<<`, or of the maps in the list under `<<`, the earlier ones first; at every depth. A base that has a merge key itself is merged with what that brings in. A document is refused exactly if something other than maps is to be merged, and one without merge keys reads the same through both providers. The provider holds at every path exactly what the resolved document has there.", "quantifier": "all documents whose maps name no key twice, all paths, all parsers", "why_tests_cant": "Documents are unboundedly deep, and bases of bases arise only in chains of three maps, which the two tests of merge keys in the crate do not contain.", "anchors": ["src/providers/data.rs: YamlExtended, Format for YamlExtended"]}
{"id": "C74", "title": "Names of variables become exactly the paths the split says", "statement": "A variable kept by Env::prefixed(p).split(pat) is kept under the segments of the rest of its name, cut at each next occurrence of the pattern from the left, in small letters with dots between, and is dropped if a segment is empty; white space around the name and the case of the prefix do not matter. The text functions behind this and behind the parser of values do what UTF-8 and Unicode say: lengths and cuts are in bytes of the encoding and only between characters, keys are in the order of their bytes, white space is the property White_Space, and case is that of the 26 letters.", "quantifier": "all names, prefixes, patterns and values; all texts of Unicode scalar values", "why_tests_cant": "Cuts at overlapping occurrences, rare kinds of white space and multi-byte characters are not in the tests, and there are unboundedly many texts.", "anchors": ["src/providers/env.rs: Env::prefixed, Env::split, Env::iter", "src/value/parse.rs: Parser::substr, skip_whitespace, FromStr for Value"]}
{"id": "C75", "title": "Jails in several threads do not see each other", "statement": "However the threads of a process take turns, a closure run in a Jail is told exactly what it would have been told had there been no other thread: about files, variables, the working directory and the results of its own calls. At most one thread is in a jail at any time, and whenever none is, the process has the files, variables and working directory it started with. No thread can be kept from finishing, as long as no closure starts a jail of its own; a jail started in a jail never begins, and stops all others for good. What a closure is told is true of the process when it asks, and a variable it has set is what it set it to.", "quantifier": "all schedules, all numbers of threads, all closures (reacting to what they are told), all processes the system could have", "why_tests_cant": "Interleavings are unboundedly many and chosen by the operating system; a test sees one of them.", "anchors": ["src/jail.rs: LOCK, Jail::try_with, Drop for Jail"]}
{"id": "C76", "title": "Defaults, file, environment: every field from its last source", "statement": "With Figment::new().merge(Serialized::defaults(x)).merge(<format>::file(path)).merge(Env::prefixed(pre)) and a struct whose fields are not read from dictionaries, extraction gives a struct if and only if each of its fields is what the last variable called like the prefix and the field (in any case, with any white space around) says, read at the field's type; where there is no such variable, what the file says; where that says nothing or the file is missing, the default. A variable or entry that cannot be read at the field's type makes extraction fail; it is never passed over.", "quantifier": "all structs of such fields, all defaults, all file systems, all documents without reserved keys, all environments without dots in names, both modes of extraction", "why_tests_cant": "The statement goes from texts to a typed value through every part of the crate: parser, environment, merge, profiles, serializer and deserializer. Tests fix the struct, the file and the variables.", "anchors": ["src/lib.rs: documentation", "src/providers/env.rs: Env::prefixed, Env::iter, Env::data", "src/providers/data.rs: Data::file", "src/providers/serialized.rs: Serialized::defaults", "src/figment.rs: Figment::merge, Figment::extract"]}
{"id": "C77", "title": "Metadata and profiles say what was put into them", "statement": "Whatever is called on Metadata in whatever order, it has the name it was given, the last source and the last interpolater (by default: profile, dot, keys joined by dots); being provided adds the place of the call and changes nothing else. A Source is exactly one of file, place in code and custom text and its accessors say which. Profiles are equal, and begin with a prefix, exactly when they do so up to ASCII case; they are sorted by their lower-case bytes; a profile is custom exactly when it is neither default nor global in any case; Profile::collect is found under exactly the spellings of its name.", "quantifier": "all names, all sequences of builder calls, all profiles and prefixes", "why_tests_cant": "All sequences of calls and all spellings of all names, including prefixes longer than the name and multi-byte characters at the boundary.", "anchors": ["src/metadata.rs: Metadata::{named, from, source, interpolater, interpolate}, Source", "src/profile.rs: Profile::{starts_with, is_custom, collect}, PartialEq, Ord", "src/figment.rs: provide"]}
{"id": "C78", "title": "A thread that builds Figments need not know about the others", "statement": "Threads that make, copy, select, focus, fill and compose Figments of their own, in any interleaving, each end with exactly the Figments they would have made alone, except for the numbers in the tags, and these correspond one to one and in the same order. Such Figments answer every question alike: extraction, strict or lenient, whole or at a key, succeeds with the same value, or fails with an error of the same kind, path, profile and metadata, which displays as the same text; find_metadata, contains, metadata, profiles and the provider behind each tag are the same.", "quantifier": "all interleavings of all programs over all threads, all providers whose data does not claim tags under the crate's reserved keys, all target types that do not read a number as a Tag; C78_forged_refuted shows that the first condition is needed", "why_tests_cant": "The only shared state is the tag counter, and what it hands to whom depends on the scheduler. A test sees one schedule.", "anchors": ["src/value/tag.rs: Tag::next, COUNTER", "src/figment.rs: provide, Figment::{extract, find_metadata, get_metadata, focus, select}", "src/error.rs: Error::resolved, Display for Error", "src/value/magic.rs: Tagged, RelativePathBuf"]}
{"id": "C79", "title": "Debug shows everything but the tags", "statement": "Two values have the same Debug output exactly if they are the same apart from their tags, whichever characters are printable; the end of a value can be told within a longer text, so nested values cannot be confused; values that look alike are equal, unless a NaN is in them. The text has the documented shape: the kind, the width of a number, text with quotes and unprintable characters escaped, floats of both widths with the fewest digits that mean them, dictionaries and arrays in order; it is one line without control characters. Tags look alike exactly if their number and their profile's kind are the same.", "quantifier": "all values with characters that are code points and floats that fit their format; all tables of unprintable characters; all tags", "why_tests_cant": "A failing assertion on a configuration shows both sides with Debug; sides that differ but look alike, or a quote or line break that leaks out of a string, would need a value nobody thought of.", "anchors": ["src/value/value.rs: Debug for Value, Num, Empty", "src/value/tag.rs: Debug for Tag", "src/profile.rs: ProfileTag"]}
{"id": "C80", "title": "Defaults, renames and aliases", "statement": "A struct whose fields have serde defaults, other names or aliases is extracted field by field: a field is what the one value under any of its names gives, strictly or leniently as asked for, and its default exactly if none of its names is there. A value that is there but cannot be read, null included, is an error, never the default; so are two names of the same field. The error's path begins with the name that was written and it is attributed to the nearest source; so is that of a name no field has, where deny_unknown_fields refuses it, and it lists all names there are. Two names of one field, and a field that is missing, are blamed on the struct: the first field in order of declaration that is not there and that neither a default nor an Option stands for. A list that is too short is refused with the number of the first such field, which can be more than the list has elements, and an element that cannot be read is named by its number. What extraction gives is said exactly for every type built with default, alias, rename, deny_unknown_fields, flatten and untagged.", "quantifier": "all Figments that can be built; all types of the universe with attributes whose structs have distinct names; strict and lossy; all values", "why_tests_cant": "Defaults meet configuration in every mixture of present, absent, null and misspelt; a test has a few of them, and a default that masks a wrong value goes unnoticed until production.", "anchors": ["src/value/de.rs: ConfiguredValueDe, MapDe", "src/figment.rs: extract", "src/providers/data.rs: required (docs)"]}
{"id": "C81", "title": "Flattened fields and what they lose", "statement": "With serde(flatten) fields, a struct's own fields are read as without. All other entries are copied first: an integer of 128 bits among them makes extraction fail, lossy conversion has no effect on them, and flattened structs and maps read the copies in order of declaration, each struct taking its entries away. In strict extraction this gives nothing that the same fields written in the outer struct would not give, but it can lose values (characters as strings, for one). As the documentation warns, it breaks error attribution: errors about own fields keep key and source, every other error has no path below the struct and the source of the struct's dictionary, which at the top level is none at all.", "quantifier": "all Figments that can be built; all structs with distinct names, any flattened structs, options of structs and maps; all values", "why_tests_cant": "The documentation only says that flatten can break attribution. Which errors lose what, and whether values change too, depends on the combination of types, keys and modes.", "anchors": ["src/lib.rs: Tips (flatten)", "src/value/de.rs: ConfiguredValueDe, MapDe", "src/error.rs: retagged, resolved"]}
{"id": "C82", "title": "Untagged enums", "statement": "An untagged enum takes the first variant, in order of declaration, that the value strictly is: lossy conversion has no effect, and an integer of 128 bits anywhere in the value makes it fail. If none fits there is one message naming the enum, without place or source of its own. RelativePathBuf and Tagged are never read from text inside one, as documented for Either, which does allow it.", "quantifier": "all values; all untagged enums of newtype variants; strict and lossy; all Figments", "why_tests_cant": "Untagged enums try variants one after the other; which one a value falls to depends on all the variants before it.", "anchors": ["src/value/magic.rs: Either (docs)", "src/value/de.rs: ConfiguredValueDe", "tests/enum.rs"]}
{"id": "C83", "title": "What Rust values are written as", "statement": "Serializing a Rust value gives exactly this: scalars as they are (pointer-sized integers as 64-bit ones, paths and profiles as strings, tags as numbers), None and unit as such, options, newtypes and Either as what they hold, sequences and tuples as arrays, structs and maps as dictionaries with the last entry of every key, enum variants as their name or as a dictionary of one entry under it, a Value as itself; all with default tags. It fails only if a map has a key that is not written as a string; the error shows the first such key. Characters are such keys, although they can be read as keys.", "quantifier": "all Rust values, of any depth", "why_tests_cant": "Unboundedly many shapes; failure depends on the first offending key in the order of writing.", "anchors": ["src/value/ser.rs: ValueSerializer, SeqSerializer, MapSerializer, Serialize for Value, Num, Empty", "src/util.rs: vec_tuple_map::serialize"]}
{"id": "C84", "title": "Which error extraction gives", "statement": "When typed extraction fails, the error is determined by a specification of its own, at every type: its path leads to the first value at fault in the order of the configuration (keys of dictionaries in order, elements by position, then fields that are missing, in order of declaration), and its kind says what was found there and what the type expects. Unknown fields list the known ones, unknown variants the variants, too short arrays their length, missing fields their name. A value is either taken or refused, and refused in one way only. The path consists of keys and positions of the configuration; this is false of Value, Tagged and RelativePathBuf, where reserved keys which are nowhere in the configuration show up in the path.", "quantifier": "all values; all types of the model with distinct names; strict, lossy and plain extraction; all Figments that can be built; all plain paths", "why_tests_cant": "Error texts are tested one at a time on single faults; with several faults at once, which one is reported, and in whose words, depends on the order of entries and on every type on the way.", "anchors": ["src/value/de.rs: ConfiguredValueDe, MapDe, SeqDe", "src/error.rs: Error, Kind, Actual, prefixed, with_path", "src/figment.rs: extract, extract_inner, find_value", "src/value/magic.rs: Tagged, RelativePathBuf, Either"]}
{"id": "C85", "title": "Defaults, file, environment: whose fault an error is", "statement": "With Figment::new().merge(Serialized::defaults(x)).merge(<format>::file(path)).merge(Env::prefixed(pre)) and a struct whose fields are not read from dictionaries, extraction fails if and only if the last word on some field (the last variable for it, else what the file says of it) cannot be read at the field's type. The error is about the first such field in the order of the names: its path is the field's name followed by the place inside the value, and its kind is the complaint about the value there. Its metadata is that of the environment provider if the last word is a variable's and that of the file provider if it is the file's, with the place of the merge call; it is never that of the defaults, and never that of a file entry that a variable has replaced. Displayed, it says the complaint, the key (in capitals for a variable; after default. for the file) and the prefix or the file that was found.", "quantifier": "all structs of such fields, all defaults, all file systems, all documents without reserved keys, all environments without dots in names, both modes of extraction", "why_tests_cant": "Which provider an error names depends on tags stamped in provide, kept or replaced by merge, and looked up when the error is resolved; tests check a message or two.", "anchors": ["src/figment.rs: Figment::provide, Figment::merged, Figment::extract", "src/coalesce.rs: Coalesce for Value", "src/value/de.rs: ConfiguredValueDe", "src/error.rs: Error::resolved, Display for Error", "src/providers/env.rs: Env::metadata, Env::data", "src/providers/data.rs: Data::metadata"]}
{"id": "C86", "title": "What was extracted can be saved, and giving it again changes nothing", "statement": "A value extracted from a Figment (at a type without 128-bit integers, Value, Either, lists of pairs and IgnoredAny) can be serialized, and what is serialized reads back as the same value, strictly, leniently and as a bare Value, whatever its tags. Two values that read as the same Rust value read as that value again when merged or joined. So joining what was extracted, as defaults (Serialized::defaults) or as globals (Serialized::globals), into the Figment it was extracted from changes nothing about what is extracted; neither does merging it as globals when the Figment has no globals. Merging it over globals can change what is read, and so can admerging it.", "quantifier": "all Figments that can be built; all such types, nested and with enums, options and tuples; both modes of extraction; all profiles selected", "why_tests_cant": "That saving is the identity involves lenient readings, structs given by position, options of nothing, tags, and merging not being associative; tests save a configuration or two.", "anchors": ["src/figment.rs: Figment::merge, Figment::join, Figment::extract", "src/coalesce.rs: Coalesce for Value", "src/providers/serialized.rs: Serialized", "src/value/ser.rs: ValueSerializer", "src/value/de.rs: ConfiguredValueDe"]}
{"id": "C87", "title": "Files divided into profiles: every field from its last word", "statement": "With Figment::new().merge(Serialized::defaults(x)), then any number of nested files (<format>::file(path).nested()), then merge(Env::prefixed(pre).global()) and select(p), each field of a struct whose fields are not read from dictionaries is read from: the last variable for it, if there is one; else the section global of the last file that mentions it there; else the section p of the last file that mentions it there; else the section default of the last file that mentions it there; else it is its default. Sections are found whatever their capitals; missing files and profiles without sections change nothing. Extraction fails exactly when what is picked cannot be read at the field's type. Without global(), a variable is overridden by a section for the selected profile.", "quantifier": "all structs of such fields, all defaults, all numbers of files, all file systems and documents without reserved keys, all environments without dots in names, all selected profiles, both modes of extraction", "why_tests_cant": "Which of up to 3n+2 places a field comes from depends on the order of merging, the order of profiles and on capitals at once; the documentation's example checks four cases with one field.", "anchors": ["src/lib.rs: Extracting and Profiles", "src/figment.rs: Figment::merge, Figment::select, Figment::merged, Figment::extract", "src/providers/data.rs: Data::nested, Data::file, Provider for Data", "src/providers/env.rs: Env::global, Env::data", "src/profile.rs: Profile", "src/coalesce.rs: Coalesce for Map"]}
{"id": "C88", "title": "Providing the same thing again", "statement": "A provider that is merged last makes every earlier call with it idle: f.merge(p).merge(q1)...merge(qn).merge(p) cannot be told, by what any profile gives, from f.merge(q1)...merge(qn).merge(p), whichever of merge, join, adjoin and admerge the earlier call was and whether the calls in between merge or admerge. Dually, joining again what was provided before does nothing, if all calls in between join or adjoin; so f.merge(p).join(p) and f.merge(p).merge(p) are f.merge(p). Both conditions on what is in between are needed, and concatenating again (admerge, adjoin) is not idle.", "quantifier": "all reachable Figments, all providers that read their data and select no profile, all lists of calls in between, all profiles, types and keys looked up", "why_tests_cant": "A test merges one file twice over one set of data; the law is about any data in between, and fails for a mixture of merges and joins only when a dictionary meets something that is none.", "anchors": ["src/figment.rs: Figment::provide, merge, join, adjoin, admerge, Figment::merged", "src/coalesce.rs: Coalesce for Value, Coalesce for Map"]}
{"id": "C89", "title": "A struct is extracted field by field", "statement": "Extracting everything is extract_inner of the empty path. Wherever there is a dictionary, extracting a struct succeeds if and only if extracting each of its fields on its own, by extract_inner of the longer path, succeeds (or there is nothing there and the field is an Option), and the struct then has exactly those fields; with deny_unknown_fields there must be no other keys. A map is extracted key by key likewise. If extracting a struct fails, its error is that of the first of its fields, in the order of the names, that fails on its own, with the name in front of the path; and if none fails on its own, it is about the first field in the order of declaration that is missing and may not be. A field whose name has a dot cannot be asked for on its own.", "quantifier": "all reachable Figments, all structs (nested, with enums, options, magic values inside), all paths, both modes of extraction", "why_tests_cant": "A test extracts a struct and compares a few fields; that both ways of extraction agree for every type and every value, in results and in errors, needs a proof over all types.", "anchors": ["src/figment.rs: Figment::extract, extract_inner, find_value, contains", "src/value/de.rs: ConfiguredValueDe, MapDe", "src/error.rs: with_path, prefixed"]}
{"id": "C90", "title": "Keys with capital letters are out of the environment's reach", "statement": "Unless lowercase(false) is in force, no key that the name of an environment variable leads to has an ASCII capital letter, whatever map, filter_map and split make of the name; a key with one can only come from inside a dictionary that is a variable's text. So what a Figment has under a top-level key with a capital letter is the same, tags included, after the variables are merged, joined or adjoined in any of the four orders, and so is what is extracted from any path below; and a struct whose field names all have a capital letter is extracted as if the variables were not there.", "quantifier": "all environments, all Env builders with lowercase in force, all orders, all reachable Figments, all keys and types without the names reserved for magic values", "why_tests_cant": "A test tries one camelCase field; that no closure given to map or split, no order of operations and no environment can set it needs a proof over all of them.", "anchors": ["src/providers/env.rs: Env::chain, iter, data, lowercase", "src/figment.rs: provide, find_value, extract_inner"]}
{"id": "C91", "title": "Files divided into profiles: whose fault an error is", "statement": "For a configuration of serialized defaults, any number of files divided into profiles, environment variables for all profiles and a selected profile: extraction fails exactly when the last word on some field cannot be read as the field's type; the error is about the first such field in the order of the names, with what was found there. It names the provider that had the last word: the environment, with the variable's name in capitals, or the very file, with the section and the keys in it. The profile in the error is that of the section (default, global, or the selected one, spelled as it was selected, whatever its spelling in the file), global for the environment. Values that are spoken over, and sections of profiles not selected, are never complained of.", "quantifier": "all structs of types that are not read from dictionaries, all defaults, any number of files with sections, all environments, all prefixes without white space, all profiles", "why_tests_cant": "A test breaks one value and looks at the message; that with any number of files and sections the file blamed is the one to be edited, and that nothing spoken over is blamed, needs a proof over all of them.", "anchors": ["src/figment.rs: Figment::provide, select, merged, extract, get_metadata", "src/error.rs: Error::resolved, Display for Error", "src/value/tag.rs: Tag::for_profile, Tag::profile", "src/profile.rs: ProfileTag", "src/providers/data.rs: Data::nested, Provider for Data", "src/providers/env.rs: Env::global, Provider for Env", "src/coalesce.rs: Coalesce for Map"]}
{"id": "C92", "title": "Nested settings are found path by path", "statement": "For every history of merge, join, adjoin, admerge and select in which no provider fails, and every type built from structs, maps, options and newtypes around values that are not tables: extraction, of everything or by a dotted path, succeeds with y if and only if y is laid out, path by path, from the overlay of what the providers say: where a struct is read there is a table (or a sequence), each of its fields is made from what is at the longer path (or there is nothing there and it is an Option), a map has exactly the keys that something is at, and each value that is no table is extracted from the value seen at its path. When all providers are merged, a setting is what the last provider to have it says, unless a later one has something there or a value that is no table above it.", "quantifier": "all histories without failing providers, all nested types of that kind, all dotted paths, all profiles, both modes of extraction", "why_tests_cant": "Tests extract a nested struct from two or three files; which provider decides at each depth, when providers mix tables and values at the same path in any order, needs a proof over all histories and types.", "anchors": ["src/figment.rs: Figment::merge, join, adjoin, admerge, merged, extract, extract_inner", "src/coalesce.rs: Coalesce for Value, Coalesce for Map", "src/value/de.rs: ConfiguredValueDe, MapDe, SeqDe", "src/value/value.rs: Value::find_ref"]}
{"id": "C93", "title": "Environment variables that are not Unicode", "statement": "The names and values of environment variables are bytes. The text the Env provider, Env::var and Profile::from_env use is the one the Unicode Standard defines: each UTF-8 character as it is, and U+FFFD for each longest piece that is no character. Variables that are UTF-8 are used exactly as they are; two variables with the same text are the same bytes unless the text shows U+FFFD; only an empty name has an empty text. No ASCII character (so no dot, no underscore of a split, no letter of a prefix) is made or lost, and the segments between separators are converted independently of each other. That different variables have different keys is false: names that differ only in bytes that are no characters share a key, and the last one is kept.", "quantifier": "all sequences of bytes as names and values, all environments, all Env providers, all ASCII separators", "why_tests_cant": "Jail::set_env takes text, so the tests cannot even set such a variable; the places where a piece ends (overlong forms, surrogates, characters cut short) are many.", "anchors": ["src/providers/env.rs: Env::iter, Env::var, Provider for Env::data", "src/profile.rs: Profile::from_env"]}
{"id": "C94", "title": "A profile chosen by a variable, and keys the environment may not set", "statement": "For a configuration of serialized defaults, any number of files divided into profiles, the environment with a prefix and ignored keys for all profiles, and Profile::from_env_or selected: for a struct with none of the ignored keys as a field, each field is what the last variable for it says, else the files' section global, else the section of the profile that the first variable called so names (or of the given profile if there is none), else the section default, else its default; errors are about the first field, in the order of the names, whose last word cannot be read. Ignoring keys is the same as an environment without the variables called the prefix and then at once such a key, in any case; other keys are not affected. That an ignored key is never set is false: a variable with white space between the prefix and the key sets it.", "quantifier": "all structs of types that are not read from dictionaries, all defaults, any number of files, all environments, all prefixes, ignored keys and names of the profile's variable without white space, all default profiles", "why_tests_cant": "This is the stack frameworks are built on; tests show one environment, and that ignoring a key disturbs no other key and that the choice of profile works with any of them needs a proof over all environments.", "anchors": ["src/providers/env.rs: Env::prefixed, ignore, filter, chain, global, iter", "src/profile.rs: Profile::from_env, from_env_or", "src/figment.rs: select, provide, merged, extract"]}
{"id": "C95", "title": "Unknown fields denied in a stack of sources", "statement": "For the configurations of C87 and C94 and a struct with deny_unknown_fields: extraction succeeds with y if and only if it would without deny_unknown_fields and, besides, no variable called with the prefix (and not ignored) and no file in its sections global, default or that of the selected profile mentions a key that is not a field. Sections of other profiles and variables without the prefix do not matter; a variable that only chooses the profile does, unless it is ignored.", "quantifier": "all structs of types that are not read from dictionaries, all defaults, any number of files with sections, all environments, all prefixes, ignored keys and names of the profile's variable without white space, all profiles", "why_tests_cant": "A test adds one unknown key to one source; that there is no other source of rejection, and none that is overlooked, in any combination of files, profiles and variables needs a proof.", "anchors": ["src/figment.rs: provide, select, merged, extract", "src/providers/env.rs: Env::prefixed, ignore, global, iter", "src/value/de.rs: MapDe", "src/profile.rs: Profile::from_env_or"]}
{"id": "C96", "title": "Whose word a nested setting is, and whose fault it is", "statement": "When any number of providers with data of any shape are merged, a value that is no table is at a path if and only if some provider decides it: the provider has that value there in one of the profiles looked at, no provider merged after it has anything there in that profile, or anything but tables above it, and nothing is left to see there in a profile that takes precedence. find_metadata then names that provider and the place of the merge. If the setting cannot be extracted, by its path or as part of the whole, the error is attributed to that same provider, however deep in the value the fault is.", "quantifier": "all histories of merge and select of plain providers that do not fail, of any number and shape; all paths; all profiles; all ordinary types; strict and lossy", "why_tests_cant": "Which file an error message blames depends on how all the files overlap at every depth and in every profile; tests look at two files that agree in shape.", "anchors": ["src/figment.rs: Figment::merge, merged, find_metadata, extract, extract_inner", "src/coalesce.rs: Coalesce for Value, Coalesce for Map", "src/value/de.rs: ConfiguredValueDe", "src/error.rs: Error::resolved, Error::retagged"]}

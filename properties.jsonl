{"id": "C01", "title": "Integer +, -, * are exact at any size", "statement": "For any two integers written in canonical decimal, the Rego expressions x+y, x-y and x*y evaluate to the canonical decimal text of the exact mathematical sum, difference and product; no width limit, no rounding, no sign error.", "quantifier": "all pairs of integers of unbounded magnitude and either sign", "why_tests_cant": "infinitely many pairs; carry/borrow chains and sign combinations of arbitrary length", "anchors": ["src/bigint.cc: BigInt::operator+, add, operator-, subtract, operator*, multiply, negate", "src/resolver.cc: do_arith, Resolver::arithinfix"]}
{"id": "C02", "title": "Integer comparisons agree with the mathematical order", "statement": "For canonical integers of any size, ==, !=, <, <=, >, >= evaluate to true exactly when the mathematical relation holds.", "quantifier": "all pairs of integers of unbounded magnitude and either sign", "why_tests_cant": "unbounded digit counts; every sign/length combination", "anchors": ["src/bigint.cc: BigInt comparison operators, less_than, greater_than", "src/resolver.cc: do_bool, Resolver::boolinfix"]}
{"id": "C03", "title": "Integer arithmetic yields canonical text", "statement": "Every chain of +, -, *, unary minus and abs over canonical integers yields canonical text again (no leading zero, no -0), so results that are numerically equal are textually equal and hence equal as set members and object keys.", "quantifier": "all expression trees over integers", "why_tests_cant": "unbounded expression trees", "anchors": ["src/bigint.cc: add, subtract, multiply, negate, abs", "src/encoding.cc: to_key"]}
{"id": "C04", "title": "Integer remainder is the mathematical remainder", "statement": "x % y for non-negative canonical x and positive canonical y equals the Euclidean remainder in canonical text; x % 0 is a built-in error.", "quantifier": "all pairs of integers", "why_tests_cant": "unbounded digit counts", "anchors": ["src/bigint.cc: BigInt::operator%, divide", "src/resolver.cc: do_arith"]}
{"id": "C05", "title": "sum and product are exact and order independent", "statement": "sum and product of an array or set of integers are the exact mathematical sum and product whatever the order and the number of the elements; the empty collection gives 0 and 1.", "quantifier": "all finite collections of integers", "why_tests_cant": "unbounded collection sizes and values", "anchors": ["src/builtins/core.cc: sum, product", "src/bigint.cc"]}
{"id": "C06", "title": "Value identity: equal keys mean equal values", "statement": "Two values compare equal, collapse in a set, and collide as object keys exactly when they are the same JSON/Rego value (object member order and set element order ignored).", "quantifier": "all pairs of finite values of any nesting depth", "why_tests_cant": "unbounded nesting; injectivity is a statement about all pairs", "anchors": ["src/encoding.cc: to_key, NodeKey", "src/resolver.cc: Resolver::boolinfix, Resolver::set"]}
{"id": "C07", "title": "Comparison is a total preorder", "statement": "On values, <, <=, ==, >=, > as evaluated by the engine are mutually consistent: exactly one of <, ==, > holds, <= is the union of < and ==, and < is transitive.", "quantifier": "all triples of values", "why_tests_cant": "ranges over all triples of unbounded values", "anchors": ["src/resolver.cc: do_bool, Resolver::boolinfix"]}
{"id": "C08", "title": "Set construction removes duplicates and ignores order", "statement": "Building a set from a list of values yields a set with exactly the values of the list, no two members with the same identity, and any permutation or repetition of the list yields the same set.", "quantifier": "all lists of values and all their permutations", "why_tests_cant": "factorially many permutations, unbounded sizes", "anchors": ["src/resolver.cc: Resolver::set", "src/virtual_machine.cc: SetAdd"]}
{"id": "C09", "title": "Set algebra", "statement": "Set union, intersection, difference (operators |, &, - and builtins union, intersection) yield exactly the members in either, both, or only the first, as canonical sets; commutativity, associativity, idempotence, and De Morgan style laws hold.", "quantifier": "all pairs/families of sets", "why_tests_cant": "all sets of all values", "anchors": ["src/resolver.cc: set_union, set_intersection, set_difference", "src/builtins/core.cc: intersection, union_"]}
{"id": "C10", "title": "Membership (`in`) is exact", "statement": "`x in xs` is true exactly when some element (array, set) or value (object) of xs is identical to x, and `k, v in xs` exactly when position/key k maps to v.", "quantifier": "all values x and collections xs", "why_tests_cant": "unbounded collections", "anchors": ["src/resolver.cc: Resolver::membership, array_find, object_find"]}
{"id": "C11", "title": "sort, min and max", "statement": "sort(xs) is a permutation of xs in ascending order, min(xs)/max(xs) are elements of xs that bound all the others, with numbers compared numerically.", "quantifier": "all arrays and sets", "why_tests_cant": "unbounded collections, all orders", "anchors": ["src/builtins/core.cc: sort, max, min"]}
{"id": "C12", "title": "Evaluation terminates", "statement": "For every bundle, every input and data document, evaluating a query plan or entrypoint finishes: loops, calls, nested blocks and scans cannot run forever or recurse without bound.", "quantifier": "all bundles (including adversarial ones), inputs and data", "why_tests_cant": "halting over all programs", "anchors": ["src/virtual_machine.cc: VirtualMachine::run_query, run_entrypoint, run_block, run_call, run_scan"]}
{"id": "C13", "title": "A bundle accepted by verification cannot drive the VM out of bounds", "statement": "If VirtualMachine::bundle() accepts a bundle then no run of any of its plans reads or writes a local slot, string, function or block outside its declared range, whatever the input and data.", "quantifier": "all bundles accepted by verify() and all executions of them", "why_tests_cant": "all programs and all executions", "anchors": ["src/bundle.cc: BundleDef::verify, verify_stmt, verify_operand", "src/virtual_machine.cc: State::read_local, write_local, unpack_operand"]}
{"id": "C14", "title": "The statement limit is enforced and reported", "statement": "No run executes as many statements as the configured limit; a run that reaches the limit yields an error document with a timeout error, and a result that is not an error is the result under every larger limit (never partial).", "quantifier": "all bundles, limits and inputs", "why_tests_cant": "all executions", "anchors": ["src/virtual_machine.cc: run_block, stmt_limit"]}
{"id": "C15", "title": "Call-depth and recursion guard", "statement": "A call chain deeper than the configured limit or re-entering a function already on the call stack ends in an error instead of unbounded recursion; the call stack never exceeds the limit and never holds a function twice.", "quantifier": "all call graphs and executions", "why_tests_cant": "all call graphs", "anchors": ["src/virtual_machine.cc: run_call, State::push_call, in_call_stack"]}
{"id": "C16", "title": "`with` modifications are scoped", "statement": "After a `with` statement finishes - by success, undefined, error or break - the modified document local is exactly what it was before, and inside the body only the addressed path differs.", "quantifier": "all bodies, paths, values and exit paths", "why_tests_cant": "every exit path of every body", "anchors": ["src/virtual_machine.cc: run_with, State::write_and_swap"]}
{"id": "C17", "title": "Errors never masquerade as results", "statement": "If any statement raises an error during a query, the query's output is an error document; it never contains result bindings computed after or around the error.", "quantifier": "all bundles, inputs, builtin behaviours", "why_tests_cant": "every error point of every execution", "anchors": ["src/virtual_machine.cc: run_query, run_entrypoint, run_call"]}
{"id": "C18", "title": "Function-result caching is transparent", "statement": "Re-evaluating a cacheable rule with the cache yields the same value as evaluating it without the cache, and `with` invalidates it.", "quantifier": "all bundles and executions", "why_tests_cant": "interleavings of calls, with-statements and cache hits", "anchors": ["src/virtual_machine.cc: run_call, State::add_to_cache, run_with"]}
{"id": "C19", "title": "Scan visits every element exactly once, in order", "statement": "Iterating a collection runs the body once per element with the right key (index, object key or the element itself) and value, in document order, until the body ends with a code other than continue or undefined, which then is the code of the loop; a loop that runs to its end continues. Iterating an undefined source continues without running the body, and iterating a scalar is undefined.", "quantifier": "all collections and bodies", "why_tests_cant": "unbounded collections", "anchors": ["src/virtual_machine.cc: run_scan"]}
{"id": "C20", "title": "Conflicting definitions are errors, never silent overwrites", "statement": "A complete rule that assigns two different values, or an object rule that maps a key to two different values, yields a conflict error; re-assigning an identical value is accepted.", "quantifier": "all statement sequences", "why_tests_cant": "all histories of assignments", "anchors": ["src/virtual_machine.cc: AssignVarOnce, ObjectInsertOnce, insert_into_object"]}
{"id": "C21", "title": "Document merge keeps every path", "statement": "Merging a base document into a virtual document keeps every path of both, recurses where both sides are objects, and prefers the same side everywhere on conflict.", "quantifier": "all pairs of documents", "why_tests_cant": "unbounded nesting", "anchors": ["src/virtual_machine.cc: merge_objects"]}
{"id": "C22", "title": "Binary bundle round trip", "statement": "Loading what was saved in the binary format gives back the same bundle: same plans, functions, statements, operands, strings, data and query.", "quantifier": "all bundles within the documented size limits", "why_tests_cant": "all bundles", "anchors": ["src/bundle_binary.cc: oregostream, iregostream, BundleDef::save, BundleDef::load"]}
{"id": "C23", "title": "Binary loader is total and safe on arbitrary bytes", "statement": "Loading any byte string either yields a bundle or a clean error; it never reads past the buffer, never recurses beyond the documented depth, and never allocates more than its caps before the bytes are there.", "quantifier": "all byte strings", "why_tests_cant": "all byte strings", "anchors": ["src/bundle_binary.cc: iregostream, BundleDef::load"]}
{"id": "C24", "title": "Checksum detects corruption", "statement": "Changing any single byte (indeed any burst of up to 4 bytes) of the payload of a saved binary bundle changes its checksum, so loading reports an error.", "quantifier": "all payloads, positions and replacement bytes", "why_tests_cant": "all payloads", "anchors": ["src/bundle_binary.cc: crc32, BundleDef::load"]}
{"id": "C25", "title": "Array builtins", "statement": "array.concat, array.reverse, array.slice and array.flatten compute the mathematical list operations; slice clamps its bounds and never fails on in-type arguments; reverse is an involution.", "quantifier": "all arrays and all integers", "why_tests_cant": "unbounded arrays", "anchors": ["src/builtins/array.cc"]}
{"id": "C26", "title": "Bitwise builtins", "statement": "bits.and/or/xor/negate/lsh/rsh agree with two's complement arithmetic on 64-bit integers and reject everything else with an error rather than a wrong number.", "quantifier": "all pairs of integers", "why_tests_cant": "2^128 pairs", "anchors": ["src/builtins/bits.cc"]}
{"id": "C27", "title": "numbers.range and numbers.range_step", "statement": "numbers.range(a,b) is exactly the inclusive integer interval from a to b in the direction of b; range_step keeps every step-th value, starts at a and never passes b; both terminate.", "quantifier": "all pairs of integers and positive steps", "why_tests_cant": "unbounded integers", "anchors": ["src/builtins/numbers.cc: range, range_step"]}
{"id": "C28", "title": "Object builtins", "statement": "object.filter keeps exactly the listed keys, object.remove exactly the others, object.keys the key set, object.union prefers the right operand, object.union_n folds left to right, object.get returns the addressed value or the default.", "quantifier": "all objects and key collections", "why_tests_cant": "unbounded objects", "anchors": ["src/builtins/objects.cc"]}
{"id": "C29", "title": "object.subset", "statement": "object.subset(super, sub) is true exactly when sub is contained in super recursively for objects, set-wise for sets, and as a contiguous run for arrays.", "quantifier": "all pairs of values", "why_tests_cant": "unbounded nesting", "anchors": ["src/builtins/objects.cc: is_subset, object_subset, array_subset"]}
{"id": "C30", "title": "graph.reachable computes reachability", "statement": "graph.reachable(g, s) is exactly the set of vertices of g reachable from s along edges of g, it terminates on cyclic graphs, and graph.reachable_paths returns exactly the maximal simple paths.", "quantifier": "all finite graphs and start sets", "why_tests_cant": "all graphs, including cycles", "anchors": ["src/builtins/graph.cc: reachable, reachable_paths"]}
{"id": "C31", "title": "semver.compare is semantic-version order", "statement": "semver.compare is a total order consistent with semver precedence: antisymmetric, transitive and major/minor/patch lexicographic.", "quantifier": "all pairs/triples of versions", "why_tests_cant": "unbounded versions", "anchors": ["src/builtins/semver.cc: operator<, parse_semver"]}
{"id": "C32", "title": "units.parse_bytes is exact on integers", "statement": "For every non-negative integer amount and known unit suffix the result is exactly amount times the unit factor at any size; unknown suffixes are errors.", "quantifier": "all digit strings and suffixes", "why_tests_cant": "unbounded amounts", "anchors": ["src/builtins/units.cc: parse_number, scale, do_parse, parse_bytes"]}
{"id": "C33", "title": "glob.match implements its pattern language", "statement": "glob.match terminates on all patterns and returns true exactly when the pattern denotes the text; glob.quote_meta(s) matches s and only s.", "quantifier": "all patterns, delimiters and texts", "why_tests_cant": "exponentially many backtracking paths, all strings", "anchors": ["src/builtins/glob.cc: glob_match_iterative, match_pattern_step, quote_meta"]}
{"id": "C34", "title": "base64 / base64url / hex codecs", "statement": "decode(encode(s)) = s for every byte string; decode rejects malformed text with an error and never reads out of bounds.", "quantifier": "all byte strings", "why_tests_cant": "all byte strings", "anchors": ["src/builtins/encoding.cc", "src/builtins/base64/base64.cpp"]}
{"id": "C35", "title": "urlquery and URI escaping", "statement": "urlquery.decode(urlquery.encode(s)) = s and the encoded text contains only unreserved characters; urlquery.decode_object recovers each parameter exactly once in order; malformed escapes are errors.", "quantifier": "all strings and parameter lists", "why_tests_cant": "all strings", "anchors": ["src/builtins/encoding.cc: urlquery encode/decode", "src/builtins/uri.cc: unescape, escape_path"]}
{"id": "C36", "title": "UUID parsing and printing", "statement": "Parsing the canonical text of any 16-byte UUID gives back the same bytes; generated UUIDs have version 4 and RFC 4122 variant; parse rejects strings without exactly 32 hex digits; extracted fields are the RFC 4122 fields.", "quantifier": "all 128-bit values, all strings", "why_tests_cant": "2^128 values", "anchors": ["src/builtins/uuid.cc"]}
{"id": "C37", "title": "String builtins", "statement": "split/concat are inverse, replace and strings.replace_n terminate and replace all non-overlapping occurrences, trim* remove exactly the maximal cut-set prefix/suffix, substring/indexof/indexof_n/strings.count/strings.reverse agree with their sequence definitions.", "quantifier": "all strings", "why_tests_cant": "all strings", "anchors": ["src/builtins/core.cc: split, concat, do_replace, do_trim, substring, indexof, strings::count, strings::reverse"]}
{"id": "C38", "title": "json.patch applies RFC 6902 operations in order", "statement": "json.patch(doc, ops) equals applying the operations one after the other, leaves doc itself unchanged, and reports an error if any operation cannot be applied.", "quantifier": "all documents and operation lists", "why_tests_cant": "all documents, all sequences", "anchors": ["src/builtins/json.cc: Pointer, Operation, patch::Op, patch_"]}
{"id": "C39", "title": "json.filter and json.remove partition a document by paths", "statement": "json.filter keeps exactly what lies under or on the way to the given paths; json.remove keeps exactly what does not lie under them.", "quantifier": "all documents and path collections", "why_tests_cant": "unbounded nesting", "anchors": ["src/builtins/json.cc: ptree, filter, remove_"]}
{"id": "C40", "title": "walk enumerates every sub-value with its path", "statement": "walk(x) yields exactly the pairs (path, value) such that following path from x gives value, each once.", "quantifier": "all values", "why_tests_cant": "unbounded nesting", "anchors": ["src/builtins/core.cc: walk"]}
{"id": "C41", "title": "Interpreter state changes are all-or-nothing", "statement": "A call to add a module or data document or to set the input, query or entrypoints that reports an error leaves the interpreter as if it had not been made, so the next query answers as before; a failing query text never yields the previous query's answer.", "quantifier": "all call histories", "why_tests_cant": "all histories of API calls", "anchors": ["src/interpreter.cc: add_module, add_data_json, set_input_json, set_query, query_node"]}
{"id": "C42", "title": "C API buffer protocol", "statement": "For every text-returning C function, a buffer of the size reported by its ...Size function always suffices and receives the full NUL-terminated text; a smaller buffer yields the buffer-too-small code and is not overrun.", "quantifier": "all strings and buffer sizes", "why_tests_cant": "all sizes", "anchors": ["src/rego_c.cc: regoErrorSize/regoError, regoNodeTypeName, regoNodeValue, regoNodeJSON, regoVersion, regoBuildInfo"]}
{"id": "C43", "title": "C API input builder", "statement": "Any JSON value can be built with the regoInput* calls by pushing its parts in post-order, the result is that value; any misuse is reported, sticks, and never crashes.", "quantifier": "all values and all call sequences", "why_tests_cant": "all call sequences", "anchors": ["src/rego_c.cc: regoInput*, regoInputValidate"]}
{"id": "C44", "title": "Builtin registry policy", "statement": "A builtin that is not available, not whitelisted, blacklisted or called with the wrong arity yields an error or undefined and never executes; with strict errors every builtin error surfaces, without it it makes the expression undefined.", "quantifier": "all registries, names and arguments", "why_tests_cant": "all configurations", "anchors": ["src/builtins.cc: BuiltInsDef::call, at, lookup, whitelist, blacklist"]}
{"id": "C45", "title": "Query bodies are ordered by data dependency", "statement": "The dependency sorter emits every literal at most once, only after all literals that bind the variables it needs, it emits all of them when there is no cycle, and it terminates.", "quantifier": "all bodies", "why_tests_cant": "all dependency graphs", "anchors": ["src/dependency_graph.cc: find_graphs, topological_sort, resolve_unify_literals"]}
{"id": "C46", "title": "Duplicate object keys in JSON input: last one wins", "statement": "Reading a JSON object with repeated member names keeps for each name exactly the last value, in the original relative order.", "quantifier": "all member lists", "why_tests_cant": "all lists", "anchors": ["src/json.cc: dedup_items"]}
{"id": "C47", "title": "Time builtins", "statement": "time.clock and time.date decompose any timestamp so that recomposing gives the same instant; time.add_date adds calendar years/months/days; time.diff yields in-range components; durations are parsed exactly.", "quantifier": "all int64 timestamps", "why_tests_cant": "2^64 timestamps", "anchors": ["src/builtins/time.cc: clock_, date_, add_date, diff, do_parse_duration, insert_fraction"]}
{"id": "C48", "title": "Format verbs of sprintf are parsed without loss", "statement": "sprintf splits any format string into literals and verbs whose concatenation is the format string (with %% standing for %), consumes arguments left to right, and errors exactly when arguments run out.", "quantifier": "all format strings and argument lists", "why_tests_cant": "all strings", "anchors": ["src/builtins/core.cc: parse_format, sprintf_"]}
{"id": "C49", "title": "Equality tests accept exactly the equal defined operands", "statement": "When a policy compares two operands for equality, evaluation goes on exactly when both are defined and are the same Rego value; an inequality test goes on exactly when both are defined and are different values. The test changes no other observable state.", "quantifier": "every machine state, every pair of operands, every pair of values", "why_tests_cant": "The claim is over all pairs of values, nested to any depth, and all states; undefined operands must never compare as true.", "anchors": ["src/virtual_machine.cc: run_stmt, Equal, NotEqual", "src/resolver.cc: boolinfix"]}
{"id": "C50", "title": "Negation succeeds exactly when its body is undefined", "statement": "A negated block lets evaluation go on exactly when the block is undefined. Errors and timeouts raised in the block are neither swallowed nor turned into success.", "quantifier": "every block, every state, every nesting depth", "why_tests_cant": "Ranges over all programs used as the body.", "anchors": ["src/virtual_machine.cc: run_stmt, Not"]}
{"id": "C51", "title": "Indexing selects the element under the key and only that", "statement": "x[k] is the value stored under a key equal to k when x is an object, the member equal to k when x is a set, the element at index k when x is an array, and undefined exactly when there is none. There is at most one such value.", "quantifier": "every collection and key", "why_tests_cant": "Ranges over all collections and keys, including negative and out-of-range indices.", "anchors": ["src/virtual_machine.cc: dot"]}
{"id": "C52", "title": "Comprehension building blocks keep exactly the added values", "statement": "Appending a sequence of values to an empty array gives exactly these values in order; adding them to an empty set gives each distinct value once; the length of a collection is its number of elements.", "quantifier": "every sequence of values of any length", "why_tests_cant": "Ranges over all sequences of insertions.", "anchors": ["src/virtual_machine.cc: ArrayAppend, SetAdd, Len"]}
{"id": "C53", "title": "Type and definedness tests are exact", "statement": "is-array, is-object, is-set, is-defined and is-undefined tests let evaluation go on exactly for operands of that kind and change nothing.", "quantifier": "every state and operand", "why_tests_cant": "Ranges over all values and states.", "anchors": ["src/virtual_machine.cc: run_stmt, IsArray, IsObject, IsSet, IsDefined, IsUndefined"]}
{"id": "C54", "title": "URI parsing", "statement": "uri.parse splits every URI reference into exactly the five parts of RFC 3986 (scheme, authority, path, query, fragment), splits the authority into host and port, decodes percent escapes, and reports an error for every other text; uri.is_valid is true exactly when uri.parse succeeds.", "quantifier": "all texts", "why_tests_cant": "the splitting and its uniqueness range over all texts", "anchors": ["src/builtins/uri.cc: url_parse, parse_authority, unescape, escape_path, parse, is_valid"]}
{"id": "C55", "title": "rand.intn stays within its bound", "statement": "rand.intn(seed, n) returns an integer from 0 up to but not including |n|, for every n, and the same integer for the same seed.", "quantifier": "all seeds, all bounds n and every output of the generator", "why_tests_cant": "the bound ranges over all integers and the generator's output is unknown", "anchors": ["src/builtins/numbers.cc: rand_intn"]}
{"id": "C56", "title": "json.marshal and json.unmarshal are inverse", "statement": "json.unmarshal(json.marshal(x)) is x for every value without sets, a set coming back as an array of its members; json.marshal gives the same text for equal values in whatever order their members are kept; json.is_valid accepts every marshalled text; json.marshal_with_options prints with the indent asked for and puts the prefix before every line, pretty printing being on when an indent or prefix is given and it is not switched off.", "quantifier": "all values, all options", "why_tests_cant": "values are nested without bound and member orders are arbitrary", "anchors": ["src/json.cc: rego_to_json, json_to_rego", "src/builtins/json.cc: marshal, unmarshal, is_valid, marshal_with_options"]}
{"id": "C57", "title": "Names of the standard library", "statement": "Every builtin name of the standard library is found, leads to the builtin of that name and accepts its documented number of arguments; every other name is reported as unknown, without an exception or undefined behaviour.", "quantifier": "all names", "why_tests_cant": "infinitely many names; the decision trees that find them are generated code", "anchors": ["src/builtins.cc: BuiltInsDef::lookup", "src/builtins/core.cc: core", "src/builtins/crypto.cc: crypto", "src/builtins/jwt.cc: jwt", "src/builtins/uuid.cc: uuid"]}
{"id": "C58", "title": "A compiled policy is loaded as compiled and passes verification", "statement": "The bundle made from a compiled policy says statement for statement what the policy's plans and functions say: two occurrences of a local share a slot exactly if they are the same local, input and data are in slots 0 and 1, every string is found in the string table, functions and plans are found under their own names and the query runs the plan it names. Verification accepts the bundle, and running it never reads or writes outside its tables.", "quantifier": "all compiled policies, of any size and nesting", "why_tests_cant": "policies are unbounded trees; slots and string indices are shared by the whole bundle, so whether a policy loads depends on counts over all of it", "anchors": ["src/rego_to_bundle.cc: index_strings_locals", "src/bundle.cc: BundleDef::from_node", "src/bundle.cc: node_to_statement", "src/bundle.cc: BundleDef::verify"]}
{"id": "C59", "title": "regex.globs_match decides whether two globs have a common text", "statement": "For any two texts, regex.globs_match ends with an answer or an error. It reports an error for the first text that is not a glob (or lists too many set characters), and accepts every glob. The answer is true exactly if some text, not empty unless both globs are, is matched by both globs, and swapping the arguments does not change it. Sets and the work list stay within their limits.", "quantifier": "all pairs of texts, of any length", "why_tests_cant": "the search backtracks over unboundedly many pairs of positions; a missed or spurious common text shows only for particular combinations of flags", "anchors": ["src/builtins/regex.cc: globs_match", "src/builtins/regex.cc: gtokenize", "src/builtins/regex.cc: gsimplify", "src/builtins/regex.cc: gintersect"]}
{"id": "C60", "title": "The regex builtins report what the pattern matches", "statement": "regex.is_valid says whether a pattern is a regular expression and never errors; every other regex builtin answers an invalid pattern with an error. regex.match says whether the pattern matches anywhere in the value. regex.find_n gives at most n matches (all with -1) as they stand in the value from left to right, none missed, none twice; find_all_string_submatch_n gives the same matches with their groups. regex.split cuts the value at the matches and loses nothing. regex.template_match takes the template literally outside the delimiters. All of them end.", "quantifier": "all patterns, values, numbers and delimiters, and any regular expression library that finds matches inside the text it searches", "why_tests_cant": "the loops advance by what the library finds, including empty matches, over texts of any length", "anchors": ["src/builtins/regex.cc: match", "src/builtins/regex.cc: is_valid", "src/builtins/regex.cc: find_n", "src/builtins/regex.cc: find_all_string_submatch_n", "src/builtins/regex.cc: split", "src/builtins/regex.cc: parse_template", "src/builtins/regex.cc: template_match"]}
{"id": "C61", "title": "Only tokens with a good signature and good claims are accepted", "statement": "io.jwt.decode_verify answers true only for a token of three sections whose header names a known algorithm that the constraints allow, whose signature is right for that algorithm and the key of the constraints, and whose claims satisfy the constraints on issuer, subject, audience and time; nested tokens are checked at every level, at most ten deep. Such tokens are accepted. With an asymmetric key nobody without the private key can make an accepted token. verify_* is true only for a token with that algorithm and a good signature. decode gives the header, the payload and the signature in hex, exactly for well-formed tokens. What encode_sign_raw and encode_sign sign is the document given, and verify and decode accept it. Malformed tokens are answered with false or an error.", "quantifier": "all tokens, keys, constraints, nesting, and any implementation of the cryptography and of JSON", "why_tests_cant": "tokens are made by attackers, not by testers; the constraints, headers and keys combine without bound", "anchors": ["src/builtins/jwt.cc: split_jwt", "src/builtins/jwt.cc: decode_impl", "src/builtins/jwt.cc: verify_impl", "src/builtins/jwt.cc: decode_verify_impl", "src/builtins/jwt.cc: check_aud_claim", "src/builtins/jwt.cc: encode_sign_raw_impl", "src/builtins/jwt.cc: encode_sign_impl", "src/builtins/crypto_utils.hh: validate_pem", "src/builtins/crypto_utils.hh: base64url_encode_nopad_impl", "src/builtins/crypto_openssl3.cc: verify_signature", "src/builtins/crypto_openssl3.cc: verify_signature_any_key", "src/builtins/crypto_openssl3.cc: load_public_key", "src/builtins/crypto_openssl3.cc: sign"]}
{"id": "C62", "title": "A bundle saved as JSON is the bundle that is loaded", "statement": "Saving a compiled bundle in the JSON format and loading it from its directory gives the same bundle: the same plans, functions, strings, query and builtin declarations, the same data (sets become arrays, members are in the order of their names), and files in the directory of the bundle, wherever the statements stand in their sources. Loading a document never gives files outside the directory. Data that is JSON is loaded whatever its contents; loading never crashes; the order of members does not matter; the texts of declarations and distinct files survive.", "quantifier": "all bundles (any nesting of statements, types and data), all source locations, all JSON documents", "why_tests_cant": "the loader rewrites data and plan with the same rules, so that what goes wrong depends on names and shapes in the user's data; statements nest without bound", "anchors": ["src/bundle_json.cc: bundle_to_json", "src/bundle_json.cc: json_to_bundle", "src/interpreter.cc: Interpreter::save_bundle", "src/interpreter.cc: Interpreter::load_bundle", "include/rego/rego.hh: wf_bundle"]}
{"id": "C63", "title": "The function compiled from a rule computes the rule", "statement": "Calling the function that the compiler makes from the definitions of a rule gives what the definitions say. A complete rule or function has the value on which all its definitions agree (each with its else branches, the first that holds), otherwise its default, otherwise none; different values are an error. A set rule has the set of the values of all its definitions wherever their queries hold, each once. An object rule has the keys and values of all its definitions, each key once. The result does not depend on what the bodies, or functions they call, do with their own variables.", "quantifier": "all rules (any number of definitions, else branches, bodies, and any code in the bodies), all programs they stand in, all arguments and documents, all states of the machine", "why_tests_cant": "the code of a definition is spliced into the innermost iteration of its query, and guards depend on which earlier definitions gave a value; combinations of definitions, else, default and loops are unbounded", "anchors": ["src/rego_to_bundle.cc: lift_functions", "src/rego_to_bundle.cc: add_plans", "src/rego_to_bundle.cc: body_block", "src/rego_to_bundle.cc: bodyset_block", "src/rego_to_bundle.cc: bodyobjdynamic_block", "src/internal.cc: get_inner", "src/virtual_machine.cc: run_call"]}
{"id": "C64", "title": "The answer to a query lists exactly its solutions", "statement": "The answer to a query is undefined when the query has no solution. Otherwise it has one result for each solution, in the order in which they are found, with the values of the expressions of the query in the order of its text and the value of each variable the query names; variables made by the compiler do not show. A place where the query holds but some variable has no value gives no result.", "quantifier": "all queries (any conditions, any number of expressions and variables), all programs they are asked of, all inputs and documents", "why_tests_cant": "the code that records a solution is spliced into the innermost iteration of the query, and the list it builds lives across all iterations while the conditions run arbitrary code and call arbitrary functions; numbers of solutions and nesting are unbounded", "anchors": ["src/rego_to_bundle.cc: lift_functions (RuleHeadQuery)", "src/rego_to_bundle.cc: add_plans", "src/rego_to_bundle.cc: is_temporary", "src/virtual_machine.cc: run_query", "src/internal.cc: add_literal_to_block"]}
{"id": "C65", "title": "A rule has the value its text says", "statement": "The value of a term and the solutions of a query depend on their text and on the values of the variables they use, as the language defines it: collections, references, calls, comparisons, membership, comprehensions, assignments, negation, iteration and universal quantification. The answer to a query for a rule is an error, or: for a complete rule the value all its definitions agree on, else that of its default; for a set rule the set of the values of its heads in the solutions of its bodies; for an object rule the object of the keys and values of its heads. A reference to a rule has the value of that rule, whatever order rules are evaluated in. A term without value makes what uses it undefined.", "quantifier": "all terms, queries and rules of the modelled language (any nesting of comprehensions, negation and iteration), all policies they are part of, all inputs and documents, all builtins that are functions of their arguments", "why_tests_cant": "source programs nest without bound, and every construct is compiled to code that shares one frame of local variables with all others, splices its continuation into the innermost iteration and signals failure by leaving blocks; that the pieces fit for every combination is a statement about all programs", "anchors": ["src/opblock.cc: term_to_opblock, to_operand", "src/rego_to_bundle.cc: expr_to_opblock, lift_functions, rules", "src/internal.cc: is_constant, add_literal_to_block", "src/virtual_machine.cc: run_stmt, run_scan, run_query"]}
{"id": "C66", "title": "An answer can be read in full, and only as what it is", "statement": "A client that walks an answer with regoNodeType, regoNodeSize, regoNodeGet and regoNodeValue reads exactly the results, with the values of their expressions and the names and values of their bindings; every node is read in one way. The accessors agree: as many results as the answer has, the expressions of the result at an index, the value of a variable, NULL for a variable that is not bound or a child that is not there. An answer is ok exactly if it is no error; the errors of an answer that is not ok are listed.", "quantifier": "all answers, with values of any nesting and size, all indices and names, all ways in which the nodes of a value are written", "why_tests_cant": "values nest without bound, wrapper nodes are skipped in some accessors and not in others, and every path through the tree must lead to the value that was computed", "anchors": ["src/output.cc: Output", "src/rego_c.cc: regoOutputOk, regoOutputSize, regoOutputExpressionsAtIndex, regoOutputBindingAtIndex, regoNodeType, regoNodeSize, regoNodeGet, regoNodeValue", "src/virtual_machine.cc: run_query", "src/interpreter.cc: query_bundle"]}
{"id": "C67", "title": "to_number gives the number that a text is", "statement": "to_number of a number is that number, of null and false 0, of true 1, of an array, object or set a type error. A string of digits, perhaps with a minus sign, is that integer, however long it is. A decimal numeral with a fraction or an exponent, from 10^-307 to 10^308 or zero, gives a number with the same sign that differs from it by at most one part in 10^15, and exactly that number if it has at most 15 significant digits. A string that is no number gives an error, and to_number never ends in an exception.", "quantifier": "all values, strings of any length, numerals with any number of digits and any exponent", "why_tests_cant": "numerals are unbounded in length, the result passes through a binary double and back to decimal text, and errors of the two roundings show only for some of the numbers", "anchors": ["src/builtins/core.cc: to_number", "src/resolver.cc: Resolver::scalar", "src/bigint.cc: BigInt::is_int"]}
{"id": "C68", "title": "print writes every combination once, and a template string is made of its parts", "statement": "print writes one line for each combination of the values of its arguments, the texts separated by blanks, in the order in which the last argument changes fastest, and nothing else; an argument without a value appears as <undefined>, strings appear as the text they stand for, other values as Rego displays them. A template string is the text of its parts in their order, where an expression without a value is <undefined> and one with several values is a conflict; the result is always a string.", "quantifier": "all numbers of arguments, all numbers of values of each, values of any nesting, all parts of template strings", "why_tests_cant": "the number of lines is a product of unbounded sizes, values nest without bound, and escapes can go wrong for particular contents only", "anchors": ["src/builtins/internal.cc: print, print_cross_product, template_string, stringify_value, escape_append", "src/encoding.cc: to_key"]}
{"id": "C69", "title": "Digests and message authentication codes are those of the strings", "statement": "crypto.md5, sha1 and sha256 return the lower-case hexadecimal text of the digest of the octets that the string stands for; crypto.hmac.md5, sha1, sha256 and sha512 that of the code of the first argument under the key in the second; crypto.hmac.equal is true exactly if the two strings are the same, so that comparing two codes accepts exactly equal codes. Arguments that are no strings give a type error.", "quantifier": "all strings, keys and hash functions of the library", "why_tests_cant": "a comparison without early exit that misses one position, or a wrong order of key and data, agrees with the right one on many inputs", "anchors": ["src/builtins/crypto.cc: md5_impl, sha1_impl, sha256_impl, hmac_equal_impl, hmac_*_impl", "src/builtins/crypto_utils.hh: to_hex, hmac_equal_impl", "src/builtins/crypto_openssl3.cc: digest_hex, hmac_hex"]}
{"id": "C70", "title": "Unifications are split into equivalent assignments and comparisons", "statement": "The unifications of a body (a = b with variables on both sides, however nested) are replaced by assignments, comparisons and array accesses that hold exactly for those values of the variables that make both sides of each unification equal; each of these reads only variables that have values by then and gives a value only to a variable that has none, and afterwards each variable has a value. A unification that cannot be split yet is left as it was.", "quantifier": "all terms of variables, scalars and nested arrays, all sets of variables that already have values, all lists of unifications", "why_tests_cant": "which literals arise depends on the nesting, on which variables repeat, and on which of them have values when a pair is reached", "anchors": ["src/dependency_graph.cc: add_unifyvars, add_unifyvar_term, add_array_var, add_array_array, add_terms, add_term_var, add_exprs, resolve_unify_literals"]}

# Design: a Rocq model of rego-cpp

## Conventions

* Text is `list Z` (bytes 0..255, `str`); `$"..."` literals convert Coq strings. C++ `std::string` comparison is
  unsigned-byte lexicographic and is modelled so; signed `char` comparisons are modelled as signed.
* Rego values are an inductive type carrying the *text* of numbers and strings, as the C++ AST nodes do.
* `assert` is taken as in a release build (it does nothing).
* Undefined behaviour and escaping C++ exceptions are separate outcomes of the model,
  never silently mapped to a value.
* Loops without an evident structural measure take fuel; running out is a separate outcome that the theorems exclude
  (by proving that enough fuel always exists, and how much).
* Doubles, regular expressions, JSON/Rego parsing, clocks and random generators are not modelled: where a modelled function
  calls them it takes them as an argument (an oracle), and the theorem holds for every oracle.
* Files: `theories/<Area>Model.v` has definitions only, each citing the lines modelled; `<Area>Proofs.v` has lemmas;
  `<Area>Spec.v` has the independent specification; `<Area>Theorems.v` has only the property theorems and their examples.
* A property the code violates gets a theorem `…_refuted` (a concrete counterexample run on the model) and, when a
  useful part is true, a theorem `…_partial`.

## Plan per property

| id | model | proof |
|----|-------|-------|
| C01 | `BigInt` digit-text arithmetic, function by function | value function text->Z; column-wise induction with carry/borrow invariant |
| C02 | comparison operators | length-then-lexicographic = numeric order on canonical text |
| C03 | same | canonicity invariant through every operation and through expression trees |
| C04 | `divide` | expected false (digits are appended to "0" without stripping); refutation + partial |
| C05 | `sum`, `product` | fold over C01; permutation invariance |
| C06 | `to_key` over values | injectivity by prefix-decoding; expected false for objects with keys 1 and "1": refutation + partial |
| C07 | `boolinfix` | key classes separated by first byte; totality by case analysis |
| C08 | `Resolver::set` | sorted-by-key list is canonical; permutation invariance |
| C09 | set operations | membership characterisations on canonical sets |
| C10 | `membership` | existential characterisation |
| C11 | `sort`,`min`,`max` | permutation + sortedness in key order; numeric order refuted |
| C12 | VM interpreter with fuel | measure from limits (statement limit, block depth, call depth) |
| C13 | `verify` and VM with UB outcome | bounds invariant; refutations where verify is too weak |
| C14 | VM statement counter | invariant over execution |
| C15 | VM call stack | invariant over execution |
| C16 | `run_with`, `write_and_swap` | case analysis over body outcome |
| C17 | `run_query` | error list monotone |
| C18 | cache | simulation; refutation if not transparent |
| C19 | `run_scan` | induction over children |
| C20 | AssignVarOnce / ObjectInsertOnce | case analysis |
| C21 | `merge_objects` | induction on depth |
| C22 | binary writer and reader | round trip by structural induction |
| C23 | binary reader | totality and bounds by induction |
| C24 | `crc32` | linearity over GF(2) and invertibility of the step |
| C25 | array builtins | list lemmas |
| C26 | bits builtins | Z.land etc. on the signed range; shifts refuted |
| C27 | numbers.range | induction on distance |
| C28 | object builtins | membership characterisations |
| C29 | subset | structural; UB on empty array sub refuted |
| C30 | graph builtins | DFS invariant; closure |
| C31 | semver.cc (MiscModel) | what compare computes on all releases; refutations |
| C32 | units.cc (MiscModel) | scanner <-> amounts; exactness over C01 |
| C33 | glob.cc (GlobModel) | pattern language as a relation; stack of frames related to it by a measure and a per-frame meaning; escapes, quoting and deep braces refuted |
| C34 | base64/hex (EncModel) | RFC 4648 as a relation, byte arithmetic checked for all bytes, induction over groups; hex of bytes >= 0x80, malformed base64 refuted |
| C35 | urlquery (EncModel) | percent encoding as a relation, induction; single parameter, malformed escapes refuted |
| C36 | uuid.cc (MiscModel) | scanner <-> text forms; fields by arithmetic; cache invariant over histories |
| C37 | string builtins | induction; replace with empty pattern refuted |
| C38 | json.patch: pointers, operations, the whole patch | `PatchModel.v`; RFC 6902 as relations in `PatchSpec.v`; induction over pointers and patches; departures refuted |
| C39 | json.filter, json.remove: path tree, selection | induction over paths; departures refuted |
| C40 | walk | BFS invariant |
| C41 | interpreter.cc as a state machine, its C functions; readers, compiler and VM are parameters (`InterpModel.v`) | similarity of states over histories; a history-only account of what is held; answering an unreadable query text with the previous query is refuted |
| C42 | rego_c.cc text functions over a byte buffer | size arithmetic; the type name's size and 4 GiB texts are refuted |
| C43 | the regoInput stack machine with its status code | post-order induction over the value; sticky status by induction over the calls; misuse that goes unreported is refuted |
| C44 | builtins.cc [BuiltInsDef] as a state machine over the history of registrations, policies, questions and calls; the standard library is a parameter | invariant over histories: the cache agrees with a history-only meaning; forbidden builtins running under an alias, null pointers behind a whitelist and lost registrations are refuted |
| C45 | dependency_graph.cc from the names each literal needs and binds (`DepModel.v`) | worklist invariants and a measure for both searches; parts are the connected components; silent circles, repeated literals and unsorted bodies are refuted |
| C46 | json.cc json_to_rego with dedup_items (JsonModel) | list induction, induction on documents |
| C47 | time | std::chrono day/date conversions (proved against a day-by-day calendar), clock, date, add_date, diff, format without zone, layout translation, weekday, durations over exact double arithmetic; theorems in TimeTheorems.v; parsing with a layout is std::chrono::parse and not modelled |
| C48 | parse_format | induction |
| C49 | Equal, NotEqual statements | order facts of C07 |
| C50 | Not statement | case analysis over the outcome of the body |
| C51 | `dot` | key identity (C06) |
| C52 | ArrayAppend, SetAdd, Len | induction over the insertions |
| C53 | type and definedness tests | case analysis |
| C54 | uri.cc (EncModel, UriProofs) | the two regular expressions as scanners; parse <-> RFC 3986 decomposition |
| C55 | numbers.cc rand.intn (MiscModel) | arithmetic; the generator is an oracle |
| C56 | json.cc rego_to_json, builtins/json.cc marshal etc. (JsonModel) | induction on values; printing and parsing of JSON text are the library's (oracle record) |
| C57 | builtins.cc [lookup] and the dispatch functions in builtins/, the generated trees transcribed by a script | a leaf of a tree is guarded by the equality of the whole name; the table of names is checked by computation, all other names by the guard lemma; odd prefixes are refuted |
| C58 | rego_to_bundle.cc index_strings_locals, bundle.cc from_node (PlanModel), verify (VmModel) | the numbering pass is a renaming under its final table (induction over statements with the table threaded); reading is inverse to the labels of operator<<; verification <-> every number literal sits below the slot count, which is the refuted part |
| C59 | builtins/regex.cc globs_match (GlobsModel): tokens, merging, trimming, the search with its stack | reading by induction on the suffix of the pattern; the search by "a common text of a visited pair of suffixes comes from one of the pushed pairs, and back", ending by a weight of the stack; exact for patterns without `*` (and no two `+` merged, no empty set), refuted otherwise |
| C60 | builtins/regex.cc, the other builtins (RegexModel); std::regex is an oracle record, the iterator is the standard's | loops with a measure on what remains; order and coverage of the matches by induction along the iterator; pieces and separators woven back; templates re-assembled; the endless loops and the disagreement of find_all are refuted for every library with the stated match |
| C61 | builtins/jwt.cc and the key and algorithm selection of crypto_utils.hh and crypto_openssl3.cc (JwtModel); the cryptography, JSON and the clock are oracle records | acceptance characterised exactly by an inductive relation over nested tokens, weakened to good signatures for soundness and to plain keys for completeness; signing against base64 of RFC 4648; forged, injected, malleable and malformed tokens are refutations |
| C62 | bundle_json.cc (both passes) and the JSON part of save_bundle and load_bundle (BundleJsonModel); the JSON library and the file system are oracle records; source locations are an oracle on positions | by induction over statements, types and documents: what the writer writes is read back; the documents that the loader leaves alone are characterised exactly (an inductive predicate), which gives an iff for data; colliding names, crash, escapes, order and files outside are refutations |
| C63 | lowering of rules to functions (lift_functions, add_plans and get_inner; RuleModel) on top of the machine (VmModel) and of numbering (PlanModel); the code of the expressions in bodies is arbitrary | a relation records the states in which the innermost place of a query is reached during the actual run (RuleSpec); induction over that relation shows what the spliced code makes of the returned local, which no other code touches; composed over definitions, else, default and return; carried to built bundles and calls through C58, and to the answers of entry points by reading error-free runs of their plans backwards; a skipped conflict and members with several bodies are refutations |
| C64 | compilation of a query to the function that lists its solutions, its plan, and reading the results back (lift_functions for RuleHeadQuery, add_plans, run_query; QueryModel) on top of RuleModel, PlanModel and VmModel; the conditions are arbitrary code | the relation of C63 gives the states in which the innermost place is reached; following two locals (the list, and what is returned) from one such state to the next gives the list of rows; straight-line code that builds a row is run step by step; carried to built bundles, calls and answers through C58 and C63; a query without expressions is a refutation |
| C65 | compilation of terms, expressions, the literals of queries and the heads of rules to statements (opblock.cc, expr_to_opblock, lift_functions; TermModel) on top of RuleModel, PlanModel and VmModel; TermSpec gives the meaning of terms, queries and rules as functions of the values of variables, without statements, locals or blocks | mutual induction on terms and queries: code leaves the variables in scope alone, its names are new, it goes on exactly if the term is defined, and the states in which the innermost place is reached are the solutions, in order; folds over the visits for comprehensions; carried to the rules of C63 and to the answers of built bundles; for policies of complete, set and object rules that refer to each other, induction on the rank of the rules (a call runs the rule in its own frame, leaves the caller's variables alone and returns the rule's value, or the caller is undefined); existence and uniqueness of the values the sources define (C65_values) by iteration; undefined variables and false comparisons are refutations |
| C66 | output.cc and the output and node functions of the C interface on trees of nodes (OutputModel), and which trees stand for an answer of the machine (a relation, because strings occur with and without quotes); OutputSpec says what a client reads, in terms of the C calls and the constants of rego_c.h only | mutual induction on how a value is shown: the node behind the wrappers reads as the value; readings are unique because children are determined by size and get; exceptions that leave C functions, answers that are ok after an exception, and quotes in texts are refutations |
| C67 | to_number with std::stod as glibc reads a text (blanks, sign, inf, nan, hexadecimal, longest decimal number, correct rounding) and the text of a double as std::ostream writes it with 16 significant digits (ToNumModel); ToNumSpec says what number a numeral is and when two numbers differ by one part in 10^15 | the rounding to a double is within 2^-53 (DurProofs), the one to 16 digits within half a unit because the decimal exponent is right, the three layouts of the text denote the rounded number, and the errors add up to less than 10^-15; a text is refused exactly if no number begins it; exact decimals, trailing text, integers in scientific notation, a lone minus sign and numbers out of range are refutations |
| C68 | internal.print and internal.template_string with the display form of to_key (PrintModel); PrintSpec says which texts display a value, which line belongs to which combination (a number in mixed radix), and which string an escaped text stands for | induction on the columns: blocks of equal length; induction on values for the display; escaping keeps what a text stands for if displayed parts have no backslashes; unresolved escapes in print and quotes inside displayed strings are refutations; the escapes of raw control characters in template strings are modelled but no theorem covers them |
| C69 | the builtins, to_hex and hmac_equal_impl (CryptoModel); the hash functions of OpenSSL are a parameter | the accumulated exclusive ors are zero exactly for equal texts; hexadecimal texts can be read back, so codes compare as their octets; strings with escapes are a refutation |
| C70 | the splitting functions on variables, scalars and arrays, with fresh names, and the queue (SplitModel) | each function adds literals whose meaning (SplitSpec, over all assignments of values) is that of the pair, composed by induction on the terms; no solution is ever lost; the converse needs that no nested failure was ignored, which holds if one side is known (C70_pattern) and is refuted otherwise; objects with constant keys (SplitObjModel) by the same composition, with equality of key sets from their sizes |

Not expressible here: memory safety of the C++ object graph itself (shared_ptr lifetimes), thread interleavings
of thread_local caches, behaviour of Trieste, RE2, OpenSSL.

## Trusted base

* Coq 8.16.1's kernel, and `coqc`'s parsing of the statements. `vcheck` rechecks the compiled files with `coqchk`.
* `Print Assumptions` follows every theorem named in MANIFEST.json, in the file that proves it. Each one prints
  "Closed under the global context": no theorem uses an axiom, of the standard library or otherwise. What `coqchk -o`
  lists besides are the seven parameters of `Coq.ssr.ssrunder.Under_rel`, which come with the standard library's ssreflect
  plugin files (loaded through the libraries `Lia` needs) and which no theorem uses.
* No `Axiom`, `Parameter`, section-less `Variable`, `Admitted`, functor, module type or switched-off check occurs.
* That the model is the code: the definitions were transcribed by reading, each cites its lines, and nothing was executed.
  The dispatch trees of C57 and the tables of the builtin registry were transcribed by a script from the source text.
* Code outside the model enters as a record of functions (an oracle) that the theorems quantify over; hypotheses about it are
  written in the theorem, and a toy instance beside the theorem shows that they can be met:
  `fops` (doubles: reading, printing, arithmetic, comparison), `text_ops` (UTF-8 and runes), `print_ops` (printf of numbers),
  `json_ops` (escaping and unescaping), `json_lib` (Trieste's JSON reader and writer), `time_ops` (time zones, the clock),
  `regex_lib` (std::regex), `engine` (readers, compiler, VM under the interpreter), the builtin library under the VM and the registry.

## What is modelled

| source | modelled | not modelled |
|---|---|---|
| src/bigint.cc | everything | |
| src/resolver.cc | arithmetic, comparison, sets, to_key, scalars, error values | term strings of syntax nodes |
| src/virtual_machine.cc | every statement, blocks, scans, calls, with, limits, rule cache, queries, entry points | logging, dumping |
| src/bundle_binary.cc | writer, reader, verifier hooks, CRC, limits | file streams |
| src/bundle.cc | from_node, verification of plans | printing, files |
| src/builtins.cc, dispatch in src/builtins/*.cc | registry, policy, cache, lookup | declarations' types |
| src/builtins: array, bits, core (aggregates, types, strings, numbers, walk), internal (membership, print, template strings), objects, sets, graph, encoding, uri, semver, units, uuid, numbers, json (filter, remove, patch, marshal), time, glob, regex | the function bodies | crypto (except digests, codes, and keys and signatures for jwt), graphql, http, aws, rego, opa bodies; time.parse_ns with a layout |
| src/json.cc, src/encoding.cc | json_to_rego, rego_to_json, base64, hex, escapes | Trieste's JSON passes |
| src/rego_c.cc | texts through buffers, input builder, calls on the interpreter, outputs and nodes | null interpreter handles |
| src/interpreter.cc | calls, state, answers | bundle files, debug output |
| src/dependency_graph.cc | graph, parts, order, body, unification queue, splitting of unifications of arrays and of objects with constant keys (C70) | collecting names, splitting unifications of references, comprehensions, nested objects and objects with variable keys |
| src/opblock.cc, src/rego_to_bundle.cc | index_strings_locals (C58); lift_functions, add_plans, the plan of a query (C63, C64); code of terms, expressions, literals of queries, references to rules (C65); other rows of the table above that mention them | references to documents, calls of functions with arguments, `with`, `print`, template strings and destructuring as terms; the passes before expr_to_opblock (Trieste rewrite rules) |
| src/output.cc | everything but the text of the answer and of the syntax trees of errors (C66) | |
| src/file_to_rego.cc, parse.cc, bundle_json.cc, yaml.cc | see the rows of the table above that mention them | the other passes of the parser (Trieste rewrite rules) |

Simplifications that hold throughout: syntax-tree nodes are values (no sharing, no parent pointers), memory is unbounded,
`assert` does nothing, `size_t` is 64 bits, `char` is signed, allocation never fails, locale is "C", one thread.

## Findings

Behaviour of the code that contradicts the property one would state; each has a `_refuted` theorem or is visible in one.

* Numbers: `bits.lsh` by 63 flips the sign and shifts of 64 and more are undefined behaviour; an integer of 400 digits compared with
  a float throws; `-0` differs from `0`; `10^17 == 1e17` but both stay in a set; `1e40 + 1` is wrong.
* Values: object keys `1` and `"1"` collide in text form; floats that agree in 16 digits collide as keys; the order of values is not a
  strict weak order when big integers meet floats.
* Arrays and objects: `array.slice` errors, throws or reads out of range outside its bounds; `object.get` with an index out of range
  throws, and indices wrap at 2^64; `object.subset` with an empty sub-array reads out of range; `object.union` is shallow.
* Virtual machine: a `break` inside a nested block underflows its counter; a timeout or error inside a callee becomes undefined.
* Compiled plans: verification compares the string-table index of a number literal with the number of locals, so a policy with
  more strings than locals before a number is rejected; a function name that occurs twice in a plan shifts the names after it.
* Binary bundles: the round trip and the reader's limits fail in the ways the `C22_…_refuted` and `C23_…_refuted` theorems show.
* Strings: `contains`, `split`, `replace`, `upper`, `reverse` and `substring` work on escaped text; `trim` unescapes and drops quotes;
  `replace` of the empty text never ends; `strings.replace_n` replaces one after the other; `strings.count` of "" counts bytes;
  `lower`/`upper` on non-ASCII bytes are undefined; `format_int` in base 2 and of negatives; `sprintf` `%b` throws.
* Encodings: malformed base64 throws, inner padding is accepted, `is_valid` accepts undecodable text; `encode_no_pad("")` is undefined;
  `hex.encode` of bytes above 127 prints `ffffffXX`; decoded text is not escaped again; a malformed `%` in `urlquery.decode` reads out of
  range; `urlquery.decode_object` records a lone parameter twice; `encode_object` leaves `&&` for empty arrays.
* `semver.compare` is not antisymmetric, puts a release before its pre-releases, counts build metadata, accepts junk, and throws on large
  parts. `units` keeps leading zeros. `uuid.parse` reports local multicast as global unicast. `rand.intn` of 0 is undefined.
* `json.patch`: tests see the original document, copy and move to the root do nothing, tokens that are no index append, indices wrap
  at 2^64, empty array tokens are undefined. `json.remove` and `json.filter`: scalars before a path's end are dropped, set members match
  by text. JSON numbers such as `1e5` are refused by the reader; floats printed `1e+40` cannot be read back.
* C API: `regoNodeTypeNameSize` lacks the terminator, sizes are cut to 32 bits, the input builder accepts several values, object items
  where values belong, and duplicate keys; `regoInputFloat` keeps six decimals; `regoInputString` does not escape.
* Registry: alias names evade a blacklist; some unknown names throw or are undefined; names behind a whitelist that do not exist are a
  null pointer; a policy change drops registered builtins.
* Time: the first partial day of the range is undefined, unknown zones throw, `add_date` wraps years at 65536, `diff` gives up to 14
  months, formatting prints the whole timestamp as the fraction, "4.1s" is a nanosecond short.
* Glob: an escape ends the match at once, so `quote_meta` does not round-trip; malformed or deep braces are "no match".
* `regex.globs_match`: `a+a+` meets `a`, `[]` meets everything, `ab*` does not meet `a`, and the answer for `x*y` and `y+` depends on
  the order of the arguments.
* Interpreter: a query text that cannot be read is answered by the previous query.
* Dependency sorter: circles are dropped silently, a doubly bound name repeats its users, bodies without unification or scan keep
  their written order.
* Regex: `regex.split` never ends when the pattern matches the empty text at the front, `template_match` never ends with two empty
  delimiters and does not take its literal parts literally, `find_all_string_submatch_n` repeats empty matches that are further on,
  and all of them search the escaped text, so that parts of an escape are found.
* Tokens: with a `cert` and no `alg` among the constraints of `io.jwt.decode_verify`, a token whose header says HS256 is checked with
  the text of the certificate as HMAC secret, so anyone who knows the certificate can forge it; constraints with unknown names or
  non-string values are ignored; a malformed token such as `a.b.c` raises an exception out of the builtin; padding may be appended to
  a token; `io.jwt.encode_sign` unescapes the JSON it has just written, so a string with quotes adds members to the signed payload.
* Bundles in JSON: the loader applies the rules for plans to the data as well, so data such as `{"files": []}`, `{"x": {"type": "local",
  "value": 1}}` or `{"x": [{"type": "NotStmt"}]}` is saved but cannot be loaded, and data with an object `static` without `strings` crashes
  the loader (the error is built from an unbound match); descriptions and names in declarations come back escaped; only the last
  component of a file's path is kept, so two modules called policy.rego become one; a file outside the directory removes all files
  silently; a statement whose `stmt` precedes its `type` is not recognised.
* Rules: in `p := x { x := true } { x := false }` the second body is skipped when the first has given a value, so different values are no
  conflict, although the same rule written with two heads raises one; `p.a := 1 { ... } { ... }` (a member with several bodies) is always
  the error "Invalid rule body", because line 5779 of rego_to_bundle.cc tests a pointer instead of whether the sequence is empty; object
  rules never check that their key and value are defined, because check_operand_is_defined gets the OpBlock instead of its operand.
* Queries: the query `not input.a` has no expression to report, because only literals with a value or an assignment become expressions
  (rego_to_bundle.cc 4845-4855), and run_query skips rows without expressions (virtual_machine.cc 405): when it holds the answer is an
  empty list of results, and values of variables bound beside it are lost.
* Undefined variables: a literal `x := input` holds when there is no input (AssignVar of an undefined local continues,
  virtual_machine.cc), so `p if { x := input }` is true; `p := {"a": input}` then is an object with an error node in it (ObjectInsert uses
  to_term of an undefined operand, virtual_machine.cc 1486-1509).
* A comparison `a == b` inside an expression outside any assignment has no value when it is false (rego_to_bundle.cc 3417-3423):
  `p if { [1 == 2] }` is undefined although `p if { [false] }` is true.
* Answers: when evaluation ends with an exception (for example by recursion), the interpreter returns an Error node, not an error
  sequence, and Output::ok and regoOutputOk are true, the size is 3 and there are no errors; regoOutputBinding throws through the C
  interface for a variable that is not bound, although rego_c.h promises NULL, and so do indices without a result; regoNodeValue
  returns some strings with quotes and others without, depending on what computed them.
* to_number: the result is printed with 16 digits, one less than a double needs (max_digits10 - 1), so to_number("9.95") is
  9.949999999999999; "12abc" is 12 and "0x10" is 16; "1e20" and "1e-5" become Int nodes with the texts 1e+20 and 1e-05, which are no
  integers (and "-" an Int with the text -); "1e400" ends in std::out_of_range, which is not caught.
* print and template strings: print writes the escapes of strings as they are stored (print("a\nb") writes a backslash and an n); a
  template string into which an array, object or set with a string that contains a quote or backslash is inserted has a text with
  a quote that is not escaped (stringify_value escapes quotes but not the backslashes before them), which is no JSON string.
* crypto.md5, sha1, sha256 and crypto.hmac.*: the digest is taken of the text as stored, with its escapes, and not of the string: for
  "a\nb" of a, backslash, n, b (the certificate functions do unescape).
* Unification: in `[x, y] = [y, 1]` the pair x, y cannot be split yet, and add_array_array only asserts that this does not happen: without
  assertions the pair is forgotten, x gets no value. Arrays of different sizes set an error, but the walk goes on, beyond the end of the right array.
  For objects, keys only on the right are looked up in the right object itself, so they are never found; literals stay when the attempt waits.

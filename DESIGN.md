# Design of the formal model of rudof

The model is written in Coq 8.16.1 (`rocq/theories`, logical name `Verif`).
It is a function-by-function transcription of the Rust code in `/repo` into
total Gallina functions.  The code was read as text; nothing was executed.

## File conventions

* `XModel.v`   definitions transcribed from the code; each cites file and lines.
* `XSpec.v`    specification: what the user expects, written without the model's helpers.
* `XLemmas.v`  proofs.
* `XProps.v`   property theorems only, each `exact lemma`, each followed by
  `Print Assumptions`, and beside each an `Example` showing a non-trivial instance.

Naming: `Cnn_...` proves (part of) property `Cnn`; suffix `_partial` marks a weaker
statement than the property; suffix `_refuted` marks a concrete counterexample to
the property as stated (a defect of the code as transcribed).

## Trusted base

* The Coq 8.16.1 kernel (no `Admitted`, no own axioms, no disabled checks).
* What `Print Assumptions` prints beneath each theorem.  It is "Closed under the global
  context" everywhere: no axiom is used, not even one of the standard library.
* The transcription from Rust to Gallina (reviewed by hand, cited line by line).
* Libraries, by their documented behaviour and not verified:
  * `std`, `indexmap`, `hashbag`: hash maps and hash sets are lists or finite functions.  Where
    the order of iteration can matter it is arbitrary: the order of the list, or a parameter
    `ord` that may be any permutation and may differ from walk to walk.
  * `petgraph`: `add_edge`, `neighbors`, `Dfs`, `toposort`, `is_cyclic_directed` are written out;
    `tarjan_scc` is any list of components with its documented property (`is_scc`).
  * `dashmap`: each operation is atomic.  Rayon: threads interleave operation by operation in any
    order (`ProgModel`).
  * `rust_decimal`: 96 bits and a scale, compared by value.  Floats: bit patterns; the conversion
    to decimals and the float parser are parameters (`lib`).
  * `regex`: a parameter that gives `None` for patterns it refuses.  `time::Date`: a parameter that
    reads dates, which are ordered as day numbers.
  * `oxrdf`/`oxigraph`: terms are values, graphs lists of triples, stores do not fail.
    Blank node identifiers from a number are determined by it.
  * `rustemo` (property graph parsers): the model starts from the syntax trees.
* Machine integers are unbounded except in `CardModel`, `NumModel`, `LitModel`; strings are
  lists of bytes or code points, as the functions that look inside need; error messages are
  dropped.  Loops whose end is in question have fuel, and running out is a separate outcome
  that the theorems exclude or, where the code does not end, establish for every fuel.

Not modelled: the text level of parsers and serialisers (ShExC, Turtle, JSON; the decisions taken
by the ShExC literal grammar are in `LitModel` and `VsModel`), SPARQL execution, network and file
access, the command line, the Python bindings, the MCP server, visualisation, performance.

## Plan per property

| id | modelled | method |
|----|----------|--------|
| C01 | `rbe.rs` derivative matcher | denotational bag language; derivative lemma by induction on the expression; refutations for `{0,0}` groups, empty `OneOf`, `{m,n}` with m>n |
| C02 | same | corollary of C01: the language only sees multiplicities |
| C03 | `rbe.rs` interval, `interval.rs`, `max.rs` | induction on the expression with the invariant "i in interval iff restricted bag in E^i" |
| C04 | `rbe_struct.rs` | from C01 and C03; refutation for nested `{m,n}` |
| C05 | `rbe.rs` | refutation; proof for the interval path |
| C06 | `rbe.rs` open mode | interval path proved; derivative path refuted for `{0,n}` groups, proved without them |
| C07 | `feasibility.rs` | induction with four mutually dependent soundness invariants (zero, fx, fi, once) |
| C08 | `max.rs`, `cardinality.rs`, `min.rs` | arithmetic |
| C09 | `max.rs` visitors | case analysis; refutation for 0 |
| C10 | `rbe_table.rs` | cartesian product enumeration as a list; existence of an assignment; refutation for unmatched neighbours |
| C11 | `pending.rs` | finite relation semantics |
| C12-C14 | `engine.rs` `prove` | a shape system (monotone oracles per pair over a typing) with hypotheses, cache and touched flag; fuel = number of unproved pairs; invariants: cached entries are true in the (stratified) greatest fixpoint |
| C15 | `dependency_graph.rs` | edge-map model with overwrite; SCC by reachability; equivalence with "cycle through a negative edge of the stored graph"; refutation for overwritten polarity |
| C16 | `shape_expr.rs` `add_edges` | occurrence semantics; refutation for structurally equal duplicates; proof without them |
| C17 | `k_partitions.rs`, `partition.rs` | odometer = enumeration of all functions into k |
| C18, C19 | `class_partitions.rs` | stepping functions are successor functions of a well order; search = filtered enumeration |
| C20 | `inheritance_graph.rs` | DFS with visited list = reachability |
| C21 | `engine.rs` `check_node_shape` | split semantics of ShEx |
| C22 | `result_shape_map.rs` | state machine, induction over histories |
| C23, C24 | `prefix_map.rs` | association-list model over character lists; refutation for local parts with ':' |
| C25, C26 | `numeric_literal.rs` | rationals for decimals, option for unrepresentable; refutation for infinities and large values |
| C27, C36 | `value_set_value.rs`, `exclusion.rs` | per-kind specification; refutation for wildcard ranges |
| C28 | `neighs_rdf.rs` paths | worklist closure = reflexive transitive closure; refutation for literal intermediate nodes and inverse of composite paths |
| C29 | `validate.rs` + cache | big-step evaluation with cache; refutation for nested property shapes; proof for shapes without nesting |
| C30 | `ir/dg/mod.rs`, `ir/schema.rs` | Kahn levels, invariants by induction on rounds |
| C31, C32 | `constraints/core` | per-constraint equivalences with set statements |
| C33 | `report/mod.rs` | refutation of symmetry; proof for duplicate-free reports |
| C34 | `validator.rs` | case analysis over C15 |
| C35 | `extend_alternative.rs` | list-set algebra |
| C37 | `validator.rs`, `result_shape_map.rs` | end-to-end: pending queue, `prove`, report; on top of C12 and C22 |
| C38, C39 | `prefix_map.rs`, `iris.rs` | byte lists; equality as finite maps, hash as sorted fold |
| C40 | `numeric_literal.rs` digits | digit counts of a rational; refutation for 0.5 |
| C41-C43 | `literal.rs` conversions and checks | lexical spaces of XML Schema as inductive relations |
| C44, C45 | `cond_kind.rs` facets, `shex_grammar.rs` decimals | comparison of rationals |
| C46-C48 | `literal.rs`, `triple.rs` orders, SHACL value ranges | order laws; cyclic triples as refutations |
| C49 | `ast2ir.rs` value sets | compilation preserves membership; panic refutations |
| C50 | `rbe.rs`, `interval.rs` failure diagnosis | blame relation over bags |
| C51 | `ir/dg/mod.rs`, `ir/schema.rs` errors | depth first search = existence of a cycle |
| C52 | `ast2ir.rs`, `cond_kind.rs`, `match_cond.rs` | meaning of a node constraint part by part |
| C53, C54 | `validator/processor`, `validator/engine`, `validator/constraints` | programs as trees of cache operations; all interleavings; conformance as a solution of the equations of the SHACL definition |
| C55, C56 | `report/mod.rs`, `report/result.rs`, path parser | write then read; encodings of paths as an inductive relation |
| C57-C62 | `pgschema`: `condition.rs`, `value_type.rs`, `record_type.rs`, `base_type.rs`, `semantics`, `card.rs`, `value.rs` | typed meaning of conditions; choices of a specification; fuel bounded by the number of names |
| C63, C64 | `pg.rs`, `pg_builder.rs` | graph as a function of the statements; merging as union |
| C65 | `type_map.rs`, `validation_result.rs`, `map_builder.rs` | answers equal conformance (C59) association by association |
| C66 | `pgs_builder.rs` | meaning of a syntax tree given directly, compared with the built schema |
| C67 | `ast2ir.rs`, `schema_ir.rs` | each index codes a part of a definition (induction on fuel); the typing of labels extends to the other indices by height; greatest typings; end to end with C12 |
| C68 | `ast2ir.rs` (imports), `external_resolver.rs` | the visited documents are closed under imports; fuel by the documents left over; meaning depends on the set of schemas (C67 for labels declared repeatedly in the same way) |
| C69 | `ir/schema.rs`, `ir/{shape,node_shape,property_shape,component,reifier_info}.rs`, `ast/mod.rs`, `class.rs` | registration extends the labels and finishes every shape it adds (fuel by the names without a label); a compiled shape matches its source, component by component |
| C70 | `engine/{mod,native,sparql}.rs`, `index/class.rs` | the index holds the pairs of the graph; what is found for one target is one or two steps of the hierarchy; the SPARQL path is the definition of instance |
| C71 | `processor/mod.rs` with C30, C54, C69, C70 | what C54 asks for is carried from the syntax tree to the compiled shapes (ranks, needed pairs, paths); conformance by number and by name; a run always exists |
| C72 | `RdsModel.v`: `rdf/parser.rs`, `rdf/parsers/*` (not `sparql`), parser combinators with their mutable focus | every parser gives its declared value and leaves the focus where it was (`gives`, `stays`), for all graphs that fit the table of kinds and single values; candidates are exactly the shapes |
| C73 | C72 followed by C71 | well-formedness of the graph yields the hypotheses of C71 on the tree that is read |
| C74 | `schema_ir.rs` (`extend_alternatives`) | an alternative represents a resolution; induction along the rank of the label, merging = appending resolutions |
| C75 | `engine.rs` (`check_node_selection` and around) | class partitions = ways to share out (C18); a shape restriction that mentions all predicates is matched by the whole share; the odometer visits all selections |
| C76 | `engine.rs` (one alternative), `shape_expr.rs`, `schema_ir.rs` (`parents`, C20) | for shapes as ancestors the closure is the set of inherited shapes, and the check is that of one selection behind pre-filters; these are implied by sharing out if predicates are apart |
| C77 | `engine.rs` (`prove`, `dep`, C11 to C14) with C75, C76, `schema_ir.rs` (`descendants`, `is_abstract`), `shape_expr.rs` (`references`) | the references computed cover everything a shape is made of, so the check of shapes with EXTENDS depends on its dependencies only and improves with them; the generic theorem on `prove` then applies |
| C78 | `materializer.rs`, `in_memory.rs` (`add_bnode`, `add_triple`) | each call writes the arcs of its node once, and later calls leave them alone; the pairs of nodes and labels met on the way are a typing closed under the definitions; C67 carries it to the engine |
| C79 | `tap_reader.rs`, `tap_headers.rs`, `tap_shape.rs`, `tap_reader_state.rs` | each cell reader is equivalent to a relation on text (stripped, words, pieces, spelling); the loop over rows takes the longest run; induction over the rows left and the row put back |
| C80 | `tap2shex.rs`, `tap2shex_config.rs` | names and words as relations on text; a group of triple constraints on different predicates matches when each matches the arcs on its predicate; then both sides are the same greatest typing; C67 for the verdict of the engine |
| C81 | `shex_grammar.rs`, `shex_parser.rs`, `triple_expr.rs` | texts as tokens with a flag for white space; parsers as functions with nom's error/failure; concrete syntax trees with their tokens and meanings; each parser reads the tokens of its trees in front of what may follow; induction on the bound |
| C82 | `shex_compact_printer.rs`, `shex_parser.rs`, `deref_iri` of the trees | documents as tokens and white space; the sentence of C81 a schema is printed as; the reader does not see the case of keywords (a relation kept by every parser); names are shortened and completed by arbitrary consistent functions; separation by an automaton over the pieces |
| C83 | `shex_grammar.rs` (terminals), `grammar.rs` (white space), `shex_compact_printer.rs` | texts as lists of code points; the combinators of nom; a terminal is a set of words with meanings, a reader takes the longest; readers of prefix-free languages compose (`scan`), greedy ones by longest match (`reads`); printing by comparing lengths |
| C84 | `shapemap_grammar.rs`, `shapemap_parser.rs`, `shapemap_compact_printer.rs` | derivations that go through a text from position to position, with the terminals of C83; soundness for a relaxed grammar, completeness for one whose words end where they should; names resolved by two functions; a printed pair is derived again from its text |
| C85 | `shex_ast/src/ast/*.rs` (the serde instances), `prefixmap/src/iri/visitor.rs`, `prefix_map.rs`, `rudof_iri/src/iri/visitor.rs` | JSON values as trees; the reader of nested expressions gives the results of every member in both readings, so that it is structural; round trip as an equivalence, proved bottom up for names, values, facets, expressions and schemas; what is read is writable, by induction on JSON |
| C86 | `shapes_converter/src/shacl_to_shex/shacl2shex.rs` | compiled SHACL schemas of C69 to ShEx trees of C67; the meaning of a converted shape through the lemma on shapes with one constraint per predicate of C80; soundness and completeness against the conformance of C31; concrete worlds for the refutations |
| C87 | `shapes_comparator/src/{coshamo_converter,coshamo,shaco}.rs`, `shex_ast/src/ast/schema.rs` | the syntax trees of C85; maps as lists of entries; names through a relation between names and IRIs, so that the description of a group is stated without its resolver; the walks of `compare` by lookups |
| C88 | `shapes_converter/src/shex_to_sparql/*.rs`, `prefix_map.rs` | the syntax trees of C85 and the resolver of C87; references with fuel; queries mean their solutions, shapes the matching of bags of triples, written as a structural definition; numbered variables are different because decimal numerals are |
| C89 | `shex_ast/src/shexr/shexr_parser.rs`, combinators of `rdf_node_parser` | the parsers with a focus of C55 and C72 and their orders of sets; texts are numbers, a triple expression is its node; fuel for the depth only, lists end by C56; what a graph says is an inductive reading of the ShExR schema of the specification |
| C90 | `rudof_generate`: `shex_to_unified.rs`, `unified_constraints.rs`, `lib.rs`, `shape_processing.rs`, `parallel_generation.rs`, `config.rs`, `field_generators` | the tree of ShExJ (C85); hash maps have any order, random numbers are a stream of draws, panics and overflow checks are modelled; batches only group, so they are left out; fractions are rationals; the texts of strings, dates and decimals are taken from a library; the meaning of shapes is that of C88 |
| C91 | `rudof_generate/src/shape_processing.rs`: `topological_sort`, `process_shapes` | hash sets are lists, the keys of the map in any order, fuel for the recursion (proved to be enough); the futures that process shapes are joined in order, so they are left out |
| C92 | `rudof_generate/src/conformance_metrics.rs`, the counting in `converters/shex_to_unified.rs` | triples are a list in any order, percentages rationals; regular expressions and `f64` are a library whose reading of integers is assumed to keep their order; texts are bytes, characters counted as in UTF-8 |
| C93 | `rudof_generate/src/converters/shacl_to_unified.rs`; the generator of C90 | the shapes graph is the list of its shapes; literals are lexical form and datatype; components that are not converted are one kind with any meaning; the target class that nothing reads is left out |
| C94 | `rudof_mcp/src/server/streamable_http/middleware.rs`, parts of `http_server.rs` | texts are bytes; reading addresses and networks is a library, membership is written out; a request is the list of its headers; a panic is an answer of its own |
| C95 | `shex_ast/src/ir/actions/*.rs`, the actions of `ast2ir.rs`, `cond_kind.rs:122-130`, start actions of `engine.rs` | the regular expression is that of the code, with all its parses in the order of the regex crate; nodes and IRIs are a library; printing and the map are one state; actions of shapes, of EachOf and of OneOf, which nothing runs, are left out |
| C96 | `in_memory.rs:734-806`, `neighs_rdf.rs:203-245`, `backend.rs:187-219`, `endpoint.rs:565-750`, `rdf_data.rs:427-501`, `engine.rs:1618-1663` | endpoints have a graph and answer queries as SPARQL says or fail; the text of queries is left out, except that blank nodes in it are variables; Qlever and triple terms are left out |
| C97 | `shex2uml.rs:58-545,549-665`, `uml.rs:78-292` | annotations, node kinds and facets are texts of the schema; the prefix map is a library; hash maps are lists of pairs; the text of diagrams is left out, what is drawn is not |
| C98 | `show_node_info.rs:59-250,310-378`, `neighs_rdf.rs:167-222` | a graph in memory (C96); maps from predicates to nodes are lists of arcs; the overflow of the depth is an outcome |
| C99 | `show_node_info.rs:269-405`, `node_tools_impl.rs:97-224` | text is a list of code points; termtree, a dependency, is modelled from its documented layout; how predicates and terms are written is a library; the counts of arcs are left out |
| C100 | `visual_rdf_graph.rs:20-315,385-430`, `visual_rdf_node.rs:13-229`, `visual_rdf_edge.rs`, `usage_count.rs`, `literal.rs:1034-1140` | conversion and showing of literals and qualified names are a library; hash maps are lists of pairs; the text of diagrams is left out, what is drawn is not |
| C101 | `load_data.rs:18-328,455-464`, `run_query.rs:11-40`, `rdf_data.rs:24-104,146-205,385-412`, `in_memory.rs:117-220,584-601,1157-1172,1291-1318` | parsers, files, downloads, endpoints and answers to queries are a library; a parser gives a list of triples and errors; graphs are lists without repetition; blank nodes are ordinary terms |
| C102 | `load_data.rs:108-175`, `prefix_map.rs:111-143` | the regular expression is a function on text; only ASCII white space is trimmed |
| C103 | `service_description_parser.rs:40-482`, `service_description_vocab.rs`, `service_description.rs:56-175`, `rdf_node_parser/combinators.rs`, `mie.rs:146-160` | graphs are lists of triples, the order of a set of values is any permutation, reading an integer is a function on literals |
| C104 | `prefix_header.rs:6-54`, `add_prefix.rs`, `copy_prefix.rs`, `remove_prefix.rs`, `rename_prefix.rs`, `prefix_map.rs:104-152` | text is ASCII characters; the two regular expressions are written as a scanner |
| C105 | `query_solutions.rs`, `query_solution.rs`, `literal.rs:239-294`, `prefix_map.rs:363-481`, `rdf_data.rs:385-408`, `serialize_query_results.rs` | the crate csv is written out, the specification is a reader of RFC 4180; the layout of tables is a function; no triple terms and colours |
| C106 | `shell/repl.rs`, `shell/completer.rs`, `reset_*.rs`, `load_data.rs:267-276` | reading and writing of the configuration, floats, the parser of arguments, other commands and the contents of slots are parameters; splitting of lines and files offered are left out; ASCII white space |
| C107 | `api/{shex,shacl,pgschema,core}/implementations`, `shex_validation/src/validator.rs:44-88`, `commands/{shex,shacl,pgschema}_validate.rs` | readers, compilers and validators are parameters; base IRIs, prefixes of the shape map, and writing of results are left out; data are loaded by one call that succeeds |
| C108 | `rudof_mcp/src/service/{pagination,logging,state,mcp_service,handlers}.rs`, `tools/data_tools_impl.rs`, `builders/load_data.rs` | time is a number; graphs, N-Triples and JSON are parameters; sources are given as what they hold; files are bytes under two names with atomic renaming; the time of the last save is left out |
| C109 | `rudof_rdf/src/rdf_impl/qlever/{index_builder,graph_container,config,decompressor}.rs` | text is a list of characters, a path a folder and a name; Docker works; the index builder, the programs that unpack and the conversion of formats are parameters; the limit of five seconds, prefixes and the server are left out |
| C110 | `rudof_rdf/src/rdf_impl/qlever/{server,graph_container}.rs` | as C109; whether the server answers in time is given; of the container only the command is modelled; deleting a folder succeeds, links are left out |
| C111 | `rudof_rdf/src/rdf_impl/qlever/index_builder.rs:474-573` | numbers are exact instead of 64 bit floats; exponents, inf, nan and minus zero are left out; only ASCII white space is trimmed |

## Findings

Each `_refuted` theorem holds a concrete input on which the code, as transcribed, breaks the
property; the comment above the theorem describes it.  `MANIFEST.json` lists them per property.
Those that concern ordinary inputs include: a shape with `EXTRA` and a reference (C21), `[{0,0}]`
groups (C05), negative cycles hidden by a second edge (C15, C16, C34), two shapes that extend each
other (C12), decimals such as `0.05` and `-0.5` in ShExC (C45), `totalDigits` of 0.5 (C40), lengths
counted in bytes (C42), property paths that pass a literal or invert a composite path (C28), the
cache of nested SHACL results (C29), recursion through sibling shapes (C30), reports that lose
their messages in RDF (C55), open property graph types (C58, C59), type maps with expected failures
(C65), property types after the second (C66), triple expressions included in the start expression (C67), and a schema
with labelled triple expressions that one of its imports imports again (C68), negative counts and `sh:class` over two steps of `rdfs:subClassOf` (C69),
`sh:targetClass` in the native engine (instances of subclasses are no focus nodes, unlike in the SPARQL engine), targets that are blank nodes and targets that are not well written (C70, C71), what stands beside `sh:ignoredProperties` and is read after it (lost), parameter-only shapes (not read), a failing list in a shape (read under the name of another), an IRI in `sh:languageIn` (panic) and blank nodes in `sh:in` (dropped) (C72, C73), and shapes
with EXTENDS: restrictions with EXTRA or of some predicates only (so that the documented worked example is rejected), parents
that share a constraint, a predicate or a name, and conjunctions with a negation or a grandparent in a parent (C75, C76);
a node can have an abstract label through one conjunct of a declaration that extends it (C77);
materialised graphs need not validate: all alternatives of a choice are written, cardinalities, inverse and conjunctions
are ignored, and a recursive schema never ends (C78); a DCTAP row without a label cell keeps the label of the
shape before, cells of white space are properties and constraints, and generated identifiers can be the same for
two placeholders (C79). Converting profiles to ShEx drops the datatype of a statement that has
only one, with the list of values beside it, and all node kinds; a property that is not said to
be mandatory becomes mandatory; and the names of shapes are not separated by the delimiter (C80); a name whose prefix begins with a keyword is cut in two, so that `<A> . org:P <D> iri:Q <E>` is read as another schema, a second string facet after white space is refused, brackets overwrite the cardinality and label inside them, `(&<x>)` and an inline `EXTENDS` panic, `closed` must be in upper case, and a dangling `AND` is accepted (C81); what the printer writes for `{2,3}`, for numeric facets, for two `EXTENDS` and for annotations with actions is not read, `(A OR B) AND C` and `NOT (A AND B)` lose their parentheses, group cardinalities, labels, `ABSTRACT` and shape actions are not printed, alternatives and inclusions panic, and `EXTRA` runs into `EXTENDS` (C82); a quote inside a long string ends it after two quotes, the escape of a surrogate and a name that begins with a letter beyond ASCII panic, a dot behind a name or label and the backslash of an escape become parts of the name, the prefix `a..b:` is refused, a backslash given by number is resolved twice in a pattern, and strings with quotes, patterns with slashes, codes with `%` and names with `/` are printed without escapes (C83);
a printed shape map of two or more pairs can never be read, as the commas are
not printed, a shape behind a string is taken for its language, and literals as
nodes panic when they are printed (C84); in JSON, numbers of the derived types and dates become
plain literals, typed literals of the compact syntax become numbers or are refused, ranges without exclusions are
written as `null` and then refused (or panic, if the member is absent), facets change their order, and labels with `_:` inside become blank nodes (C85). The conversion of SHACL to ShEx makes properties mandatory and single, drops all components but
the first, sh:closed and sh:or, panics on most components, and with `add_target_class` yields shapes no node has (C86); comparing
shapes finds no property of a shape with a single constraint and calls properties with different datatypes equal (C87); the
SPARQL query of a shape gives properties with one local name one variable, asks for optional properties, and without
prefixes is no query (C88); ShExR is read without triple expressions, negations are read as constraints that accept everything,
and a conjunction inside itself is read for ever (C89). Generated data have a
value too many for every reference, panic for `{2,}` and for bounds outside the
default range, and have the type that closed shapes do not allow (C90). Shapes are ordered with
what they depend on last (C91). The metrics give 100 % to data with missing values (C92).
Of a SHACL shape with sh:targetClass the generator makes no node of that class, and the texts of paths become properties (C93).
The Origin guard takes brackets in a path for the host and cuts at the first colon, so that `http://evil.com/[::1]` and `http://localhost:80@evil.com` pass, and the header `][` makes the handler panic (C94).
Semantic actions run before the value is tested, so that the Map extension keeps nodes that do not match; in the validation of EXTENDS with alternatives contexts have no registry, so that constraints with actions never match; actions of shapes and groups are never run (C95).

The backend around a graph in memory returns early for no predicates, so that a closed shape without direct predicates accepts nodes with any triples, although the unit tests of `neighs` say otherwise for the graph alone; blank nodes are written into the queries of endpoints, where they match everything; closed shapes do not look at endpoints, and failing endpoints are an error for arcs but not for all triples (C96).

Diagrams of schemas repeat the guard of ranges for fixed numbers, so that `{2,5}` is drawn as 2 and `{2}` is an error; inverse and negated constraints and the cardinality of groups are not drawn; the constraint for NOT of a datatype is made and dropped, and is then an error; nodes are found by the text of names, so that two prefixed names of one IRI are two nodes (C97).

The information about a node subtracts from a depth of 0, which the command line allows; the list of predicates is not passed to incoming arcs; trees indent three columns below a last arc where the reader of the MCP service looks for four, so depths there are wrong; line breaks of literals are printed as they are and are then read as lines of their own (C98, C99).

The picture of a graph stops the program at a triple term inside a triple term (`todo!` in `visual_rdf_node.rs`); literals are boxed by the text shown, so `1` of type `xsd:long` and `1` of type `xsd:short` share a box; whether a triple term is asserted is looked up after its literal was converted to a number and back, so `01` is not found; boxes of predicates link to the IRI in angle brackets (C100).

Queries are answered over a copy of the data that is made at the first query and never renewed (`ensure_store` in `in_memory.rs:591-601`; neither `merge_from_reader` nor adding triples drops it), so what is loaded after a query is not seen by later queries (`C101_query_refuted`). Loading several sources with merging off keeps the last source only (`C101_replace_refuted`), because each source clears the data. Loading a property graph drops RDF data and the other way round, even when merging (`C101_kind_refuted`). A load that fails midway keeps what was read before the error (`C101_failed_adds_refuted`); a load from an endpoint drops the data before it looks up the name (`C101_failed_loses_refuted`). TriG and N3 reach `todo!`, and prefixes given with an empty list of sources reach a call to `unwrap` on no data (`C101_panics_refuted`). An endpoint IRI that differs from one in the catalog only in `http`/`https`, in case or in slashes at its end is taken for it (`C101_endpoint_refuted`). Prefixes given by the user as `PREFIX ex: <...>` declare a prefix named `PREFIX ex` (`C102_keyword_refuted`), and those of Turtle are refused (`C102_turtle_refuted`).

Descriptions of SPARQL services: the counts of properties, entities and documents are never read (`C103_counts_refuted`), nor are the partitions by property inside a partition by class, where `void:property` is read instead (`C103_partitions_refuted`). `optional` drops errors, so one partition without its class makes the default graph vanish and one named graph without its name the dataset (`C103_default_graph_refuted`, `C103_dataset_refuted`). A literal value of `sd:availableGraphs` reaches `expect` (`C103_panic_refuted`), and a language that is not one of three makes the whole description be refused although other features and formats are kept (`C103_language_refuted`).

Default prefixes are put in front of a source unless a regular expression finds a line that declares them. A line within a long string counts as a declaration, so the default is missing (`C104_string_refuted`). `add_prefix` checks the IRI but not the alias; an alias with a space spoils every source loaded later (`C104_alias_refuted`). Declarations after the first of a line, and `PREFIX` in Turtle, are not seen (`C104_one_line_refuted`, `C104_turtle_refuted`), which does no harm since the later declaration counts.

Tables of query results: a request for Markdown writes the rounded table, since the style is taken from default options (`C105_markdown_refuted`); the headings are those of the first solution, although each endpoint may order the variables of `SELECT *` in its own way (`C105_columns_refuted`), and another number of variables is an error in CSV (`C105_width_refuted`). An empty result is the text `No results`, also in CSV (`C105_empty_refuted`). Numbers are shown without their kind (`C105_kinds_refuted`), and datatypes are shortened with a fixed map in which the empty alias is `http://example.org/` (`C105_datatype_refuted`).

The shell: `reset` is said to be the same as starting a fresh shell but keeps the default prefixes and changes made by `config set` (`C106_all_refuted`), and no target clears results of validations (`C106_results_refuted`). `reset endpoint` forgets only the name, so that queries still go to the endpoint, and `reset data` leaves the name shown (`C106_endpoint_refuted`). `data FILE` clears the data before it is known whether the file can be read (`C106_keep_refuted`). Endpoints with a dot in their names are offered as keys that are then unknown (`C106_listed_refuted`), and a setting cannot be given the text `true` or `12` (`C106_scalar_refuted`). Two small gaps of completion are `C106_extra_refuted` and `C106_indent_refuted`.

Calls of the library in one session: `shex-validate --node` with a name that cannot be resolved fails but leaves an empty shape map, so that the next validation succeeds without judging anything (`C107_kept_refuted`), and nodes of earlier commands are judged again (`C107_node_refuted`). What the Map extension stored enters later validations (`C107_shex_refuted`). `shacl-validate` with new data and no `--shapes` replaces the loaded shapes by those within the data (`C107_shapes_refuted`). The lax mode has no effect under the default configuration (`C107_lax_refuted`), a change of configuration does not reach a loaded schema (`C107_config_refuted`), and the check of a schema ignores default prefixes (`C107_check_refuted`). `reset_pgschema_validation` clears the ShEx shape map where the type map is meant (`C107_reset_pg_refuted`). Results of an earlier schema stay until the next validation (`C107_stale_refuted`).

The MCP server: `load_rdf_data_from_sources` gives its list of data to the builder even when it is empty, so that a call with an endpoint always fails although the hint of the tool recommends it (`C108_endpoint_refuted`). A load that fails at a later source has merged the earlier ones without saving them (`C108_unsaved_refuted`). The state is saved after the lock is released and always under the same temporary name, so that two calls may save in the wrong order (`C108_order_refuted`) or leave the target empty (`C108_race_refuted`). The buffer is flushed only when dropped, where an error is not seen: on a full disk a truncated file replaces the old state and the save counts as done (`C108_full_refuted`). Empty graphs and property graphs do not survive a restart (`C108_empty_refuted`, `C108_pg_refuted`). The limiter of logs lets through twice the limit around the end of a window (`C108_rate_refuted`) and drops emergencies after a flood of debug messages (`C108_urgent_refuted`); fields may replace the message and are not cut (`C108_message_refuted`, `C108_field_refuted`).

QLever: `run_one_shot_with_stdin` reports a decompressor that breaks off only after the index builder has ended well, and the finished index of the part stays on the disk, where the next call takes it without an error (`C109_truncated_refuted`). `fingerprint_inputs` hashes paths but not contents, so a file that changed is served from the old index (`C109_stale_refuted`), and with an index folder that is given any other inputs get the index that is there (`C109_index_dir_refuted`). `convert_to_native` names its target after the stem of the source only: `/a/data.rdf` and `/b/data.rdf` are both written to `data.nt`, and the first is lost (`C109_convert_refuted`). `shell_quote` leaves an empty argument empty, so that it is lost (`C109_shell_refuted`), and a folder with a colon is not mounted (`C109_colon_refuted`). With `auto_delete_if_created`, ending the server calls `remove_dir_all` on the folder of the index, whatever else is in it: the data, when the index is in their folder (`C110_data_refuted`, a case that `build_argv_and_binds` provides for), other indexes (`C110_other_refuted`), and the index that another server is using (`C110_shared_refuted`). `parse_size_to_bytes` refuses `-1`, by which Docker is told not to limit swap (`C111_docker_refuted`).

## Mutation tests

`seeded/LOG.jsonl` has one line per wrong program: the definition, the edit, and the theorems that
no longer compile.  A survivor leads to a new theorem or a sharper one (`tightened`), and is run again.

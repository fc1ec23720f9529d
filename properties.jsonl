{"id": "C01", "title": "Derivative matching decides the bag language", "statement": "Rbe::match_bag_deriv in closed mode answers Ok on a bag exactly when the bag belongs to the language of the expression: a symbol a{m,n} stands for every bag of only a's with multiplicity between m and n, EachOf for the bag sum of its members, OneOf for the union, and * / + / {m,n} for sums of any / at least one / between m and n bags of the inner language.", "quantifier": "every regular bag expression whose choices are non-empty, whose cardinalities have min <= max and with no group repeated {0,0}, and every finite bag", "why_tests_cant": "Both the expressions and the bags are unbounded; a unit test fixes one expression and one multiplicity at a time while a wrong derivative shows only for particular nestings.", "anchors": ["rbe/src/rbe.rs: Rbe::match_bag_deriv, deriv_bag, deriv, deriv_and, is_nullable, mk_range, mk_range_symbol, mk_and, mk_or_values", "rbe/src/deriv_n.rs"]}
{"id": "C02", "title": "Bag matching does not depend on iteration order", "statement": "The verdict of derivative matching on a bag is the same for every order in which the (hash based) bag yields its elements.", "quantifier": "every well formed expression and every pair of permutations of the same list of symbols, closed mode", "why_tests_cant": "HashBag iterates in a randomised order per process, so one test run observes one schedule only.", "anchors": ["rbe/src/rbe.rs: Rbe::deriv_bag", "rbe/src/bag.rs: Bag::iter"]}
{"id": "C03", "title": "Interval matching decides the bag language of single-occurrence expressions", "statement": "For an expression in which no symbol occurs twice, the interval computed from a bag contains i exactly when the bag, restricted to the expression's symbols, is a sum of i bags of its language; hence match_bag_interval answers Ok exactly when the bag is in the language (closed mode additionally rejects foreign symbols).", "quantifier": "every single-occurrence expression without a group {m,n} below another repetition, every bag, both open and closed mode", "why_tests_cant": "The claim is about all natural numbers i, all bags and all expression trees; tests check particular intervals.", "anchors": ["rbe/src/rbe.rs: Rbe::interval", "rbe/src/interval.rs", "rbe/src/max.rs: div_up, div_down", "rbe/src/rbe_struct.rs: RbeStruct::match_bag_interval"]}
{"id": "C04", "title": "The two bag matchers agree", "statement": "RbeStruct::match_bag_interval and match_bag_deriv give the same verdict on the same expression and bag, so picking the fast path is unobservable.", "quantifier": "every expression and bag for which the fast path is taken", "why_tests_cant": "Agreement of two algorithms over an infinite input space; existing tests compare them on a handful of bags.", "anchors": ["rbe/src/rbe_struct.rs: RbeStruct::match_bag_interval", "rbe/src/rbe.rs: match_bag_deriv, interval"]}
{"id": "C05", "title": "A group repeated {0,0} admits only the empty bag", "statement": "An expression E{0,0} accepts the empty bag and no other bag.", "quantifier": "every inner expression E and every bag", "why_tests_cant": "The failure depends on the nullability of the derivative of E, which a test of a symbol{0,0} does not exercise.", "anchors": ["rbe/src/rbe.rs: Rbe::deriv (Repeat case), mk_range"]}
{"id": "C06", "title": "Open matching ignores foreign symbols and nothing else", "statement": "Matching a bag in open mode gives the same verdict as matching, in closed mode, the bag obtained by deleting the symbols that do not occur in the expression.", "quantifier": "every expression, every bag", "why_tests_cant": "Requires relating two runs over every bag and every set of foreign symbols.", "anchors": ["rbe/src/rbe.rs: Rbe::match_bag_deriv, deriv (open branches)", "rbe/src/rbe_struct.rs: match_bag_interval"]}
{"id": "C07", "title": "Feasibility refutations are sound", "statement": "If feasible(lo,hi) answers false then no bag between lo and hi pointwise is accepted by the expression.", "quantifier": "every expression, every pair of maps lo, hi and every bag between them (lo = 0 for arbitrary expressions; any lo when no symbol occurs in two branches)", "why_tests_cant": "A refutation claims something about every completion of a partial bag: exponentially many bags per call.", "anchors": ["rbe/src/feasibility.rs: Rbe::feasible, zero, fx, fi, once"]}
{"id": "C08", "title": "Cardinality tests and arithmetic mean what they say", "statement": "Cardinality::contains(n) holds exactly when min <= n <= max; nullable exactly when 0 is allowed by the lower bound; removing n occurrences from a cardinality accepts k further occurrences exactly when k + n was accepted, for n up to the bound; Max operations agree with the order and addition of the naturals extended with infinity.", "quantifier": "all naturals and all cardinalities", "why_tests_cant": "Arithmetic laws over unbounded numbers including the unbounded maximum.", "anchors": ["rbe/src/cardinality.rs", "rbe/src/max.rs", "rbe/src/min.rs"]}
{"id": "C09", "title": "Cardinality bounds survive serialisation", "statement": "A maximum cardinality written to its integer form (unbounded as -1) and read back through the signed-integer reader is the same maximum.", "quantifier": "all maxima", "why_tests_cant": "Only one value of the whole range (0) fails, and only when the deserializer presents it as a signed integer.", "anchors": ["rbe/src/max.rs: Serialize, MaxVisitor::visit_i64, visit_u64, From<i64>"]}
{"id": "C10", "title": "Neighbourhood matching finds a match exactly when one exists", "statement": "RbeTable::matches yields a successful assignment exactly when every given (predicate, value) pair can be assigned to a component of its predicate whose condition the value satisfies, so that the bag of chosen components is in the language; when one exists, an enumeration that is drained reports it.", "quantifier": "every table, every list of neighbours and every assignment", "why_tests_cant": "The assignments form a cartesian product of unbounded size; the claim ranges over all of them.", "anchors": ["rbe/src/rbe_table.rs: RbeTable::matches, IterCartesianProduct, EmptyIter", "rbe/src/empty_iter.rs"]}
{"id": "C11", "title": "Pending tables behave as finite relations", "statement": "Pending behaves as a finite ternary relation: insertion, merge and keyed insertion add exactly the given tuples, merge is associative, commutative and idempotent on contents, contains agrees with the iteration over pairs, pop removes exactly one tuple and draining a fully keyed table yields exactly its tuples, and len counts the (value, reference) pairs.", "quantifier": "every sequence of operations", "why_tests_cant": "Algebraic laws over all histories of operations.", "anchors": ["rbe/src/pending.rs"]}
{"id": "C12", "title": "Recursive ShEx validation terminates and computes the coinductive semantics", "statement": "Validating a node against a shape terminates on every finite graph and schema, and for schemas without negation the verdict is conformant exactly when the pair belongs to the greatest typing closed under the shape definitions.", "quantifier": "every finite graph, every finite schema (including mutually recursive shapes) and every pair", "why_tests_cant": "Recursion through hypotheses has unboundedly many interleavings of shapes and nodes; tests sample small cyclic graphs.", "anchors": ["shex_validation/src/engine.rs: Engine::prove, dep, check_node_idx"]}
{"id": "C13", "title": "Memoised verdicts never depend on the history of requests", "statement": "Whatever requests were made before on the same engine, and in whatever order, the verdict for a pair is the verdict a fresh engine would give.", "quantifier": "every finite sequence of validation requests", "why_tests_cant": "Order dependence of caches shows only for particular request histories; there are unboundedly many.", "anchors": ["shex_validation/src/engine.rs: Engine::prove (typing cache, hyp, hyp_touched), validate_pending"]}
{"id": "C14", "title": "Negation is complement on stratified schemas", "statement": "On a schema whose dependency graph has no cycle through a negation, a pair is reported non-conformant to S exactly when it is conformant to NOT S, and verdicts are those of the stratified semantics.", "quantifier": "every stratified schema, every finite graph, every pair", "why_tests_cant": "Universal over schemas and graphs; caching under hypotheses makes single tests inconclusive.", "anchors": ["shex_validation/src/engine.rs: prove, check_node_idx, check_node_shape_expr (Not)", "shex_ast/src/ir/dependency_graph.rs"]}
{"id": "C15", "title": "Negative-cycle detection is exact", "statement": "has_neg_cycle answers true exactly when the graph of the added edges has a cycle that goes through a negative edge.", "quantifier": "every finite sequence of edge insertions", "why_tests_cant": "Quantifies over all cycles of all graphs and all insertion orders.", "anchors": ["shex_ast/src/ir/dependency_graph.rs: add_edge, neg_cycles, has_neg_cycle", "shacl/src/ir/dg/mod.rs"]}
{"id": "C16", "title": "The dependency graph of a schema records every negated reference", "statement": "If the definition of a shape refers to another shape under an odd number of negations, the dependency graph has a negative edge between them; if under an even number, a positive one.", "quantifier": "every schema", "why_tests_cant": "The traversal keeps visited lists and a single weight per edge, so losses depend on the order and repetition of references.", "anchors": ["shex_ast/src/ir/shape_expr.rs: add_edges", "shex_ast/src/ir/schema_ir.rs: build_dependency_graph"]}
{"id": "C17", "title": "k-partition enumeration is complete and duplicate free", "statement": "The k-partition iterator leaves out the values that every bucket filter rejects on their own, yields every way of distributing the others over k buckets that respects the bucket filters, each exactly once, and then stops.", "quantifier": "every list of values, every k and every filter", "why_tests_cant": "k^n outputs; completeness and absence of duplicates are statements about the whole run of the iterator.", "anchors": ["shex_validation/src/k_partitions.rs", "shex_validation/src/partition.rs"]}
{"id": "C18", "title": "Class-based partition search loses no valid partition", "statement": "The class-based enumeration for EXTENDS yields only genuine partitions of the neighbourhood and yields every partition in which each bucket's expression accepts its part.", "quantifier": "every neighbourhood, every list of buckets", "why_tests_cant": "Pruning soundness concerns the partitions that were not generated.", "anchors": ["shex_validation/src/class_partitions.rs"]}
{"id": "C19", "title": "Permutation and composition stepping is exhaustive", "statement": "Starting from the sorted arrangement, next_permutation visits every distinct arrangement of a multiset exactly once in increasing order and then reports the end; next_composition visits every composition of n into e parts exactly once.", "quantifier": "every list / every n and e", "why_tests_cant": "Exhaustiveness over factorially many states.", "anchors": ["shex_validation/src/class_partitions.rs: next_permutation, next_composition, first_composition"]}
{"id": "C20", "title": "Inheritance queries are reachability", "statement": "descendants(s) is exactly the set of shapes other than s from which s can be reached through EXTENDS edges, parents(s) the set reachable from s, and has_cycles tells whether some shape reaches itself.", "quantifier": "every finite inheritance graph", "why_tests_cant": "Reachability over all graphs, including cyclic ones.", "anchors": ["shex_ast/src/ir/inheritance_graph.rs"]}
{"id": "C21", "title": "CLOSED and EXTRA follow the ShEx definition", "statement": "A node satisfies a shape exactly when its neighbourhood splits into a part matched by the triple expression and a remainder which is empty for the predicates of the shape unless the predicate is EXTRA and the value matches none of the shape's constraints for it, and, when CLOSED, has no other predicate.", "quantifier": "every shape, every neighbourhood, every EXTRA set", "why_tests_cant": "The definition quantifies over all splits of the neighbourhood.", "anchors": ["shex_validation/src/engine.rs: check_node_shape", "rbe/src/rbe_table.rs"]}
{"id": "C22", "title": "Result shape maps accumulate verdicts monotonically", "statement": "After any sequence of add_result calls the status recorded for (node, shape) is the first definite verdict given for the pair if there is one, else pending if any was given; other pairs are unaffected; contradictory definite verdicts never overwrite one another silently.", "quantifier": "every sequence of add_result calls", "why_tests_cant": "A statement about all histories.", "anchors": ["shex_ast/src/shapemap/result_shape_map.rs: add_result, get_info"]}
{"id": "C23", "title": "Qualified names resolve back to the IRI they abbreviate", "statement": "Whenever qualify abbreviates an IRI as alias:local, resolving that text in the same prefix map returns the same IRI.", "quantifier": "every prefix map and every IRI", "why_tests_cant": "Fails only for local parts with particular characters; the space of IRIs and maps is unbounded.", "anchors": ["prefixmap/src/prefix_map.rs: qualify, resolve, resolve_prefix_local"]}
{"id": "C24", "title": "Prefix map updates are those of a finite map", "statement": "After adding, removing or merging, each alias resolves to the last IRI given for it, merge lets the argument win, and other aliases are unaffected; the abbreviation chosen by qualify uses a longest matching namespace.", "quantifier": "every sequence of updates and every alias", "why_tests_cant": "History quantified.", "anchors": ["prefixmap/src/prefix_map.rs: add_prefix, merge, remove_prefix, qualify"]}
{"id": "C25", "title": "Numeric facets agree with numeric order", "statement": "minInclusive, minExclusive, maxInclusive and maxExclusive accept a numeric value exactly when the mathematical inequality holds.", "quantifier": "every pair of numeric literals", "why_tests_cant": "Fails only for values outside the decimal range (or not finite); the numeric space is unbounded.", "anchors": ["rudof_rdf/src/rdf_core/term/literal/numeric_literal.rs: less_than, less_than_or_eq", "shex_ast/src/ast/cond_kind.rs"]}
{"id": "C26", "title": "Numeric literal equality is an equivalence compatible with hashing and ordering", "statement": "Equality of numeric literals is reflexive, symmetric and transitive, equal literals hash alike, and comparing equal literals reports Equal.", "quantifier": "every triple of numeric literals", "why_tests_cant": "Transitivity and hash compatibility quantify over all triples of values of 15 variants.", "anchors": ["rudof_rdf/src/rdf_core/term/literal/numeric_literal.rs: PartialEq, Hash, partial_cmp"]}
{"id": "C27", "title": "Value sets accept exactly the values they describe", "statement": "A value is accepted by a value set exactly when it is one of the listed values or belongs to a listed stem or stem range of its kind and to none of the exclusions.", "quantifier": "every value set and every RDF term", "why_tests_cant": "Infinite sets of terms described by stems and wildcards.", "anchors": ["shex_ast/src/ir/value_set.rs", "shex_ast/src/ir/value_set_value.rs: match_value", "shex_ast/src/ir/exclusion.rs"]}
{"id": "C28", "title": "SHACL paths follow the relational semantics", "statement": "The value nodes computed for a property path are exactly the nodes reachable according to the SHACL path semantics, and the computation terminates on cyclic graphs.", "quantifier": "every finite graph, every path expression, every focus node", "why_tests_cant": "Transitive closures over arbitrary (cyclic) graphs.", "anchors": ["rudof_rdf/src/rdf_core/neighs_rdf.rs: objects_for_shacl_path"]}
{"id": "C29", "title": "Cached SHACL results equal recomputed results", "statement": "Validating a focus node against a shape gives the same results whether or not the pair was validated before.", "quantifier": "every schema, every graph, every order of validation", "why_tests_cant": "The cache is filled in a history- and schedule-dependent order.", "anchors": ["shacl/src/validator/engine/validate.rs", "shacl/src/validator/cache/"]}
{"id": "C30", "title": "SHACL shapes are scheduled once, after their dependencies", "statement": "Every shape with targets of an accepted shapes graph is scheduled in exactly one level, and in a later level than every shape it refers to.", "quantifier": "every acyclic dependency graph", "why_tests_cant": "Quantifies over all dependency graphs.", "anchors": ["shacl/src/ir/dg/mod.rs: topological_levels", "shacl/src/ir/schema.rs: shapes_with_targets_by_level"]}
{"id": "C31", "title": "SHACL logical constraints follow their truth tables", "statement": "sh:and, sh:or, sh:not and sh:xone report a violation for a value node exactly when respectively some, all, not-the-inner, or not-exactly-one of the referenced shapes is violated.", "quantifier": "every list of referenced shapes and every combination of outcomes, including failing evaluations", "why_tests_cant": "All combinations of outcomes of unboundedly many operands, including errors.", "anchors": ["shacl/src/validator/constraints/core/logical/"]}
{"id": "C32", "title": "SHACL counting and pair constraints count distinct value nodes", "statement": "minCount, maxCount, qualified counts, equals, disjoint, lessThan report violations exactly when the corresponding statement about the sets of value nodes is false.", "quantifier": "every set of value nodes and every bound", "why_tests_cant": "Universal over finite sets and bounds.", "anchors": ["shacl/src/validator/constraints/core/"]}
{"id": "C33", "title": "Validation reports compare as collections of results", "statement": "Two validation reports are equal exactly when they contain the same results; equality is symmetric.", "quantifier": "every pair of reports", "why_tests_cant": "Needs reports with repeated results.", "anchors": ["shacl/src/validator/report/mod.rs: PartialEq for ValidationReport"]}
{"id": "C34", "title": "Rejecting schemas with negative cycles", "statement": "With the negation requirement checked, a validator is only built for schemas whose dependency graph has no cycle through negation, and is built for all such schemas.", "quantifier": "every schema and configuration", "why_tests_cant": "All schemas.", "anchors": ["shex_validation/src/validator.rs: Validator::new, with_neg_cycle_check"]}
{"id": "C35", "title": "EXTENDS alternatives compose as a union of merges", "statement": "Merging extend alternatives keeps exactly the buckets and constraints of both, in order of first occurrence, without duplicates; merging is idempotent and associative; cross_merge combines every pair.", "quantifier": "every pair and triple of alternatives and lists of alternatives", "why_tests_cant": "Algebraic laws over unbounded lists.", "anchors": ["shex_ast/src/ir/extend_alternative.rs"]}
{"id": "C36", "title": "Language tag stems match subtag-wise", "statement": "A language stem matches a tag exactly when the stem's subtags are a case-insensitive prefix of the tag's subtags.", "quantifier": "every pair of tags", "why_tests_cant": "Unbounded strings; off-by-one at subtag boundaries.", "anchors": ["shex_ast/src/ir/exclusion.rs: lang_stem_matches", "shex_ast/src/ir/value_set_value.rs"]}
{"id": "C37", "title": "Validating a shape map reports every requested pair once", "statement": "The result shape map of validating a list of (node, label) pairs has an entry exactly for the requested pairs; pairs with an unknown label are non-conformant; every other pair is conformant exactly when the node conforms to the shape; combining the entries never panics.", "quantifier": "every schema without negation or inheritance, every graph, every list of requested pairs and every hash iteration order", "why_tests_cant": "Unbounded lists of pairs with repetitions, recursion through arbitrary graphs.", "anchors": ["shex_validation/src/validator.rs: validate_shapemap, fill_pending, result_map", "shex_ast/src/shapemap/result_shape_map.rs", "shex_ast/src/ir/schema_ir.rs: add_shape, find_ref_shape"]}
{"id": "C38", "title": "A prefixed name denotes its namespace followed by its local part", "statement": "Resolving prefix:local in a prefix map returns the concatenation of the namespace of the prefix and the local part, as Turtle, SPARQL and ShEx prescribe, and fails when the prefix is unknown.", "quantifier": "every prefix map, prefix and local part", "why_tests_cant": "Fails only for namespaces ending in particular characters; the spaces of namespaces and names are unbounded.", "anchors": ["prefixmap/src/prefix_map.rs: resolve_prefix_local", "rudof_iri/src/iri/iris.rs: extend"]}
{"id": "C39", "title": "Prefix map equality ignores order and agrees with hashing", "statement": "Two prefix maps are equal exactly when they give every alias the same namespace, whatever the insertion order, and equal prefix maps feed the same data to the hasher.", "quantifier": "every pair of prefix maps", "why_tests_cant": "All permutations of unboundedly many entries.", "anchors": ["prefixmap/src/prefix_map.rs: PartialEq, Hash"]}
{"id": "C40", "title": "Digit facets count digits as XML Schema does", "statement": "totalDigits t and fractionDigits f accept an exact numeric value exactly when it can be written as an integer of at most t digits divided by a power of ten not above 10^t, respectively with at most f decimal places; the spelling of the literal (trailing zeros, sign) plays no role.", "quantifier": "every integer or decimal literal and every bound", "why_tests_cant": "Fails only for values with particular digit patterns; the numeric space is unbounded.", "anchors": ["rudof_rdf/src/rdf_core/term/literal/numeric_literal.rs: total_digits, fraction_digits", "shex_ast/src/ast/xs_facet.rs", "shex_ast/src/ast/cond_kind.rs"]}
{"id": "C41", "title": "Datatype constraints accept exactly the lexical space", "statement": "A literal satisfies a datatype constraint exactly when it carries this datatype and its text is in the lexical space of the datatype (for the datatypes SPARQL knows, xsd:int included).", "quantifier": "every literal term and every datatype", "why_tests_cant": "Fails only for particular texts (two signs, minus zero, more than 128 bits) out of an unbounded space.", "anchors": ["rudof_rdf/src/rdf_core/term/literal/literal.rs: check_literal_datatype, parse_*, TryFrom<oxrdf::Literal>", "shex_ast/src/ast/cond_kind.rs: check_node_datatype"]}
{"id": "C42", "title": "String facets see the characters that are written", "statement": "LENGTH, MINLENGTH, MAXLENGTH count the characters of the lexical form of a literal as it is written in the data.", "quantifier": "every literal and every bound", "why_tests_cant": "Needs non-ASCII characters or non-canonical spellings of particular datatypes.", "anchors": ["rudof_rdf/src/rdf_core/term/triple.rs: Object::length", "shex_ast/src/ast/cond_kind.rs: check_node_length", "rudof_rdf/src/rdf_core/term/literal/literal.rs: lexical_form"]}
{"id": "C43", "title": "Literals survive the conversion to nodes and back", "statement": "Turning a literal term into a node and the node back into a term gives the same term, so the arcs into a literal are found when it is a focus node.", "quantifier": "every literal term", "why_tests_cant": "Depends on the spelling of the literal; the space of spellings is unbounded.", "anchors": ["rudof_rdf/src/rdf_core/term/literal/literal.rs: TryFrom<oxrdf::Literal>, From<ConcreteLiteral>", "shex_validation/src/engine.rs: neighs, get_rdf_node"]}
{"id": "C44", "title": "Numeric facets compare the number that is written", "statement": "A numeric facet holds for a literal exactly when the literal is well-typed of a numeric datatype and the number it denotes satisfies the comparison.", "quantifier": "every literal term and every bound", "why_tests_cant": "Unbounded numeric and lexical space, all numeric datatypes.", "anchors": ["shex_ast/src/ast/cond_kind.rs: check_node_min_inclusive and siblings", "shex_ast/src/node.rs: as_checked_object", "rudof_rdf/src/rdf_core/term/literal/literal.rs: check_literal_datatype"]}
{"id": "C45", "title": "Decimal facet bounds denote the number written in ShExC", "statement": "The bound of a numeric facet given as a decimal in ShExC is the number that is written.", "quantifier": "every decimal token of the grammar", "why_tests_cant": "Fails only for zeros after the point, numbers between -1 and 0 and long fractions.", "anchors": ["shex_ast/src/compact/shex_grammar.rs: decimal", "rudof_rdf/src/rdf_core/term/literal/numeric_literal.rs: decimal_from_parts"]}
{"id": "C46", "title": "The order of literals is a strict partial order compatible with equality", "statement": "Comparing two literals the other way round gives the opposite result, less-than is transitive, and literals compare as Equal exactly when they are equal.", "quantifier": "every pair and triple of literals", "why_tests_cant": "Transitivity and antisymmetry over all triples of literals of mixed datatypes.", "anchors": ["rudof_rdf/src/rdf_core/term/literal/literal.rs: PartialOrd for ConcreteLiteral"]}
{"id": "C47", "title": "The order of nodes is a total order", "statement": "Ord::cmp on nodes is reflexive, antisymmetric and transitive, as sorting requires.", "quantifier": "every pair of nodes", "why_tests_cant": "Needs pairs of incomparable literals; a sort panics or not depending on input order.", "anchors": ["rudof_rdf/src/rdf_core/term/triple.rs: Ord for Object", "shex_ast/src/shapemap/result_shape_map.rs: get_comparator"]}
{"id": "C48", "title": "SHACL value ranges compare numbers across numeric datatypes", "statement": "sh:minInclusive, minExclusive, maxInclusive, maxExclusive are satisfied exactly when the literal is comparable with the bound and the comparison of the values holds; sh:lessThan never holds between an IRI and a literal.", "quantifier": "every pair of literals", "why_tests_cant": "All pairs of datatypes and values.", "anchors": ["shacl/src/validator/constraints/core/value_range/", "shacl/src/validator/constraints/core/property_pair/less_than.rs", "rudof_rdf/src/rdf_core/term/literal/literal.rs: PartialOrd"]}
{"id": "C49", "title": "Compiling a value set resolves every prefixed name", "statement": "Compiling a value set replaces every prefixed name by the IRI it denotes, and fails with an error, never a panic, exactly when some prefix is not declared.", "quantifier": "every value set of a schema and every prefix map", "why_tests_cant": "All positions in which a prefixed name can occur: values, stems, exclusions, stem exclusions.", "anchors": ["shex_ast/src/ir/ast2ir.rs: create_value_set, cnv_value, cnv_iri_exclusion, iri_ref2iri_s"]}
{"id": "C50", "title": "Reported cardinality failures are real", "statement": "A cardinality failure reported for a neighbourhood names a triple constraint of the shape, its cardinality and the number of its occurrences, which is outside the cardinality and is to blame for the failure; and every such triple constraint is reported.", "quantifier": "every expression, every bag, open or closed matching", "why_tests_cant": "Quantifies over all expressions and bags; the tests check single messages.", "anchors": ["rbe/src/rbe_struct.rs: diagnose_failure", "rbe/src/rbe.rs: symbol_cardinalities"]}
{"id": "C51", "title": "The recursion reported for a SHACL shapes graph is the recursion it has", "statement": "A shapes graph is reported to have negative cycles exactly when some shape negates a shape that leads back to it, and the cycles listed with the error contain exactly the shapes that are on a cycle.", "quantifier": "every shapes graph, every order of registration", "why_tests_cant": "Quantifies over all shapes graphs; which sign an edge ends up with depends on the order of traversal.", "anchors": ["shacl/src/ir/dg/mod.rs: neg_cycles, cycles", "shacl/src/ir/component.rs: add_edges", "shacl/src/ir/schema.rs: compile, build_dependency_graph"]}
{"id": "C52", "title": "A node satisfies a node constraint exactly when it satisfies each of its parts", "statement": "The condition compiled from a node constraint accepts a node exactly when the node has the node kind, the datatype, satisfies every facet and is in the value set, for those of these parts that are there; compiling fails exactly when an IRI or prefixed name in the datatype or the value set cannot be resolved.", "quantifier": "every node constraint, every node", "why_tests_cant": "Quantifies over all combinations of parts and all nodes.", "anchors": ["shex_ast/src/ir/ast2ir.rs: cnv_node_constraint, node_constraint2match_cond", "shex_ast/src/ast/cond_kind.rs: eval", "rbe/src/match_cond.rs: matches"]}
{"id": "C53", "title": "Parallel validation reports the same results under every schedule of threads", "statement": "Validating the shapes of each level in parallel threads that share one cache reports the same results whatever the interleaving of the threads and whatever order of levels that respects the references among shapes.", "quantifier": "every shapes graph without recursion, every data graph, every interleaving of the threads of every level", "why_tests_cant": "A test observes one interleaving; the claim is about all of them.", "anchors": ["shacl/src/validator/processor/mod.rs: validate", "shacl/src/validator/cache/"]}
{"id": "C54", "title": "The SHACL report is empty exactly when every target conforms", "statement": "The validation report is empty exactly when every focus node of every targeted shape conforms to the shape, where conformance is defined by recursion over the shapes graph from the meaning of each constraint; and a shape reports no result for a focus node exactly when the node conforms.", "quantifier": "every shapes graph without recursion, every data graph, every target", "why_tests_cant": "Quantifies over all shapes graphs and data graphs.", "anchors": ["shacl/src/validator/engine/validate.rs", "shacl/src/validator/processor/mod.rs", "shacl/src/validator/constraints/core/"]}
{"id": "C55", "title": "A validation report written as RDF is read back unchanged", "statement": "Writing a report to a graph and reading it back gives a report with the same results, with sh:conforms true exactly when there are none; the blank nodes of the data stay apart from those made for the report.", "quantifier": "every report, every result path, every starting graph", "why_tests_cant": "Quantifies over all reports and all nested paths; tests write a few reports.", "anchors": ["shacl/src/validator/report/mod.rs: to_rdf, parse", "shacl/src/validator/report/result.rs: to_rdf, parse, path_to_rdf, path_list_to_rdf", "rudof_rdf/src/rdf_impl/oxigraph/in_memory.rs: add_bnode"]}
{"id": "C56", "title": "Reading a SHACL path gives the path that the graph encodes", "statement": "Reading a path from a node of any graph ends, gives the path that the node encodes, and fails when it encodes none.", "quantifier": "every graph, every node", "why_tests_cant": "Graphs with broken or cyclic lists and paths are not among the tests; the order in which constructs are tried matters.", "anchors": ["rudof_rdf/src/rdf_core/parser/rdf_node_parser/constructors/shacl.rs", "rudof_rdf/src/rdf_core/parser/rdf_node_parser/utils.rs: parse_list_recursive", "rudof_rdf/src/rdf_core/focus_rdf.rs: get_path_for"]}
{"id": "C57", "title": "Conditions and value types of a property graph schema accept exactly the values they describe", "statement": "Checking a condition on a value gives an answer exactly when each of its comparisons makes sense for the value, and then the answer is whether the condition holds; a value type accepts a set of values exactly when their number and kinds are allowed and each condition holds; the order in which the set is traversed does not matter.", "quantifier": "every condition, every value type however nested, every set of values", "why_tests_cant": "Quantifies over all nestings of conditions and types and all sets of values.", "anchors": ["pgschema/src/boolean_expr.rs: check", "pgschema/src/value_type.rs: conforms", "pgschema/src/card.rs: contains", "pgschema/src/property_value_spec.rs: TypeSpec::to_value_type"]}
{"id": "C58", "title": "A record conforms to a record type exactly when every key has values of its type and, unless the type is open, no other key is there; combining two types asks for both", "statement": "A record conforms to a record type exactly when each key of the type is there with values of the type of that key, and the record has no other keys unless the type is open; a record conforms to the combination of two types exactly when each of its keys is of one of the two, and its part on the keys of each type conforms to that type.", "quantifier": "every record, every record type, every pair of record types", "why_tests_cant": "Quantifies over all records and types, with shared and unshared keys.", "anchors": ["pgschema/src/record_type.rs: conforms, combine, compare_keys"]}
{"id": "C59", "title": "A node is accepted by a node type exactly when its labels and its properties come from one choice of the alternatives of the type", "statement": "A node conforms to a node type exactly when, for some choice of one side of each alternative, its labels are those of the choice and its properties are those of the same choice with values of their types.", "quantifier": "every schema, every node type with references to others, every node", "why_tests_cant": "Quantifies over all schemas and nodes; alternatives with labels and properties on both sides are not among the tests.", "anchors": ["pgschema/src/label_property_spec.rs: semantics", "pgschema/src/formal_base_type.rs: union, combine, conforms", "pgschema/src/property_value_spec.rs: semantics", "pgschema/src/pgs.rs: conforms_node"]}
{"id": "C60", "title": "Computing the semantics of a node type ends", "statement": "Computing the semantics of a specification ends for every schema, and reports a reference that cannot be resolved.", "quantifier": "every schema, every specification, every chain of references", "why_tests_cant": "A test that hits an endless recursion overflows the stack; the claim is about all chains of references.", "anchors": ["pgschema/src/label_property_spec.rs: semantics", "pgschema/src/pgs.rs: get_node_semantics"]}
{"id": "C61", "title": "The intersection of two cardinalities allows exactly the numbers that both allow", "statement": "A number is allowed by the intersection of two cardinalities exactly when it is allowed by both.", "quantifier": "every pair of cardinalities, every number", "why_tests_cant": "Quantifies over all pairs and numbers; there is no test.", "anchors": ["pgschema/src/card.rs: intersection, Max::min"]}
{"id": "C62", "title": "The order of property values is a total order", "statement": "The order of property values is total, antisymmetric with respect to equality, and transitive.", "quantifier": "every triple of values of any kinds", "why_tests_cant": "Quantifies over triples of values of mixed kinds; sorting a list that happens to be short does not notice.", "anchors": ["pgschema/src/value.rs: Ord, PartialOrd", "pgschema/src/record.rs: show_values"]}
{"id": "C63", "title": "The graph built from statements has a node for each node statement and an edge between the named nodes for each edge statement", "statement": "Building a graph from statements succeeds exactly when every edge comes after the nodes it names; the graph then has, for each node statement, a node of that name with the labels and values given, and for each edge statement, in order, an edge between the nodes named with its labels and values, and nothing else.", "quantifier": "every list of statements", "why_tests_cant": "Quantifies over all lists of statements, in all orders and with any names repeated.", "anchors": ["pgschema/src/parser/pg_builder.rs: get_statements, get_edge, get_node, get_properties", "pgschema/src/pg.rs: add_node, add_edge"]}
{"id": "C64", "title": "Merging two graphs never fails, unites the nodes with the same name and keeps all edges", "statement": "Merging a graph into another succeeds; the nodes of one name become one node with the labels and values of both, all other nodes are as before, and the edges of both are there, those of the second between the nodes that now have the names of its ends.", "quantifier": "every pair of graphs that can be built from statements, merged in any number", "why_tests_cant": "Quantifies over all pairs of graphs and all sequences of merges; the panic needs a name that is declared twice around an edge.", "anchors": ["pgschema/src/pg.rs: merge", "pgschema/src/node.rs: merge"]}
{"id": "C65", "title": "Validating a type map answers for each association whether it conforms, and the comparison lists those that are not as expected", "statement": "Validation of a type map gives, for each association in turn, whether the node or edge named conforms to the type; the whole is valid exactly when every association is as expected; the comparison with what is expected lists exactly the associations that are not.", "quantifier": "every schema, graph and type map", "why_tests_cant": "Quantifies over all schemas, graphs and type maps, with repeated and contradicting associations.", "anchors": ["pgschema/src/type_map.rs: validate, compare_with_result, find_association", "pgschema/src/validation_result.rs: add_association", "pgschema/src/pgs.rs: conforms_edge", "pgschema/src/edge_type.rs: conforms_edge"]}
{"id": "C66", "title": "The schema built from a text means what the text says", "statement": "A text of node and edge types is accepted exactly when its numbers are in range, its dates exist and no name is declared twice; a node conforms to a type of the schema exactly when its labels and properties come from one choice of the alternatives in the text of the declaration, each property having values of all the types written for it.", "quantifier": "every syntax tree of a schema, every node", "why_tests_cant": "Quantifies over all texts and all nodes; texts with three types for one property, or with properties and no labels, are not among the tests.", "anchors": ["pgschema/src/parser/pgs_builder.rs: get_create_types, get_label_property_spec, get_more_types, get_simple_type, get_cond, get_value, get_number", "pgschema/src/pgs.rs: add_node_spec, add_edge_spec, add_blank_node_spec, add_blank_edge_spec"]}
{"id": "C67", "title": "Compiling a schema preserves its meaning", "statement": "Compiling a ShEx syntax tree gives every declared label an index of its own and leaves a schema with the same meaning: the typings that give nodes exactly the shapes whose definition they satisfy are, on the labels, those that solve the compiled schema; a node has a shape in the greatest typing of the one exactly when it has it in the other; and the verdicts of the engine on the compiled schema are those of the syntax tree.", "quantifier": "every schema with its imports, graph, typing and node", "why_tests_cant": "Quantifies over all schemas, nested in any way, with inclusions, imports and recursion, and over all graphs.", "anchors": ["shex_ast/src/ir/ast2ir.rs: compile, collect_shape_labels, collect_shape_exprs, compile_shape_expr, triple_expr2rbe_with_refs, value_expr2match_cond, get_preds_triple_expr, collect_triple_expr_labels_schema", "shex_ast/src/ir/schema_ir.rs: add_shape, new_index, replace_shape, get_shape_label_idx"]}
{"id": "C68", "title": "Importing visits every imported document once, and the result means what all of them mean together", "statement": "Collecting the imports of a schema ends, also when documents import each other; it visits each document that is imported, directly or not, exactly once, and fails only if one of them cannot be had. EXTERNAL declarations get the first definition a resolver supplies and all others stay as they are. The compiled schema means what the schemas mean together, whatever the order and the ways in which they are imported.", "quantifier": "every set of documents, import graph, registry of resolvers, graph and node", "why_tests_cant": "Quantifies over all import graphs, with cycles and documents imported on several ways; a cycle through the schema itself is not among the tests.", "anchors": ["shex_ast/src/ir/ast2ir.rs: compile, collect_imports_labels, collect_imported_shape_labels, resolve", "shex_ast/src/ir/external_resolver.rs: rewrite_ast, lookup_decl"]}
{"id": "C69", "title": "Compiling SHACL shapes keeps their meaning", "statement": "A schema given as a syntax tree compiles exactly if every shape it refers to is there, all IRIs are absolute, all regular expressions are valid, property references of closed shapes are property shapes, reified paths are predicates and no shape depends on itself. Every shape then gets exactly one number, and a node conforms to a compiled shape if and only if it conforms to the shape as written.", "quantifier": "every syntax tree, data graph, node, vocabulary and assignment of conformance", "why_tests_cant": "Shapes refer to each other in any order and any depth, and registration is recursive with shared state; tests compile a few files and look at the validation results only.", "anchors": ["shacl/src/ir/schema.rs: register_shape, compile", "shacl/src/ir/node_shape.rs, property_shape.rs, component.rs, reifier_info.rs: compile", "shacl/src/ast/mod.rs: defined_properties_for", "shacl/src/validator/constraints/core/value/class.rs: validate_native"]}
{"id": "C70", "title": "The focus nodes of a shape are its targets", "statement": "For targets written as SHACL asks for it, the focus nodes found are nodes that a target selects, each listed once, with or without the class index; all such nodes are found if the class hierarchy is shallow enough, and the SPARQL engine finds all of them in any hierarchy.", "quantifier": "every data graph, list of targets, vocabulary and conversion of literals; every way of answering queries correctly", "why_tests_cant": "Instances depend on chains of rdfs:subClassOf of any length; two engines and two ways of looking up instances (index or graph) must give the same nodes, which tests compare on a few graphs with a flat hierarchy.", "anchors": ["shacl/src/validator/engine/mod.rs: focus_nodes", "shacl/src/validator/engine/native.rs: target_node_impl, target_class_impl, target_subject_of_impl, target_object_of_impl, implicit_target_class_impl", "shacl/src/validator/engine/sparql.rs: target_class, implicit_target_class", "shacl/src/validator/index/class.rs: build, instances_of, instances_of_with_subclasses"]}
{"id": "C71", "title": "A validation report is empty exactly if all targets conform to the shapes as written", "statement": "Starting from the syntax tree of a shapes graph: compiling, scheduling by levels, finding focus nodes and validating them in parallel with a shared cache ends with a report, and the report is empty if and only if every node that a target of a shape selects conforms to that shape as it is written.", "quantifier": "every syntax tree, data graph, rank of the shapes and every schedule of the threads", "why_tests_cant": "The claim goes through all stages; each stage has its own tests, and runs of the whole validator cover only single schedules and small files.", "anchors": ["shacl/src/validator/processor/mod.rs: validate, process", "shacl/src/ir/schema.rs: compile, topological_levels", "shacl/src/validator/engine/native.rs", "shacl/src/validator/validate.rs"]}
{"id": "C72", "title": "Reading a shapes graph yields the shapes that it describes", "statement": "For every well-formed shapes graph the reader ends and yields exactly one shape for every node that the graph makes a shape (by type, by target, or by being expected as a shape), under its own name, with the path, constraint components, property shapes, targets, severity and reifier that the triples of that node declare, and nothing else.", "quantifier": "every graph, every order in which the store returns triples, every shape in it", "why_tests_cant": "The parsers pass a mutable focus from one to the next and a failing parser may leave it elsewhere; whether something is lost or attributed to another shape depends on combinations of declarations that example files do not contain.", "anchors": ["shacl/src/rdf/parser.rs: parse, shapes_candidates", "shacl/src/rdf/parsers/components.rs: components", "shacl/src/rdf/parsers/shape_type: node_shape, property_shape", "shacl/src/rdf/parsers/other: closed, ignored_properties, has_value, in"]}
{"id": "C73", "title": "From a shapes graph to the report: empty exactly if all declared targets conform", "statement": "For a well-formed shapes graph, reading it, compiling it and validating a data graph ends with a report that is empty if and only if every node selected by a target declared in the shapes graph conforms to the shape that the graph describes.", "quantifier": "every shapes graph, data graph, order of triples and schedule of the threads", "why_tests_cant": "The claim spans reading, compiling, scheduling and validation; a loss in the first stage leads to reports that look right.", "anchors": ["shacl/src/rdf/parser.rs: parse", "shacl/src/ir/schema.rs: compile", "shacl/src/validator/processor/mod.rs: validate, process"]}
{"id": "C74", "title": "The alternatives of an extended shape are the ways to resolve it", "statement": "The alternatives computed for a label that is extended are exactly the ways to resolve it: through references, one disjunct of each disjunction, the first conjunct of a conjunction that leads to a shape, and all parents of a shape; each alternative lists the shapes that take arcs and the other conjuncts, each with the shapes that it is about.", "quantifier": "every schema without declarations that contain themselves, and every label", "why_tests_cant": "The alternatives are built by a recursion that merges lists over all combinations of parents; a lost alternative shows only for schemas that nest disjunctions, conjunctions and EXTENDS.", "anchors": ["shex_ast/src/ir/schema_ir.rs: extend_alternatives, extend_alternatives_rec, dereference, get_main_shape_constraints", "shex_ast/src/ir/extend_alternative.rs: merge"]}
{"id": "C75", "title": "A node has a shape that extends alternatives exactly if its arcs can be shared out", "statement": "The check of a node against a shape with EXTENDS, one of whose parents can be extended in several ways, ends, and answers yes exactly if for some choice of alternatives the arcs of the node can be shared out among the shape and the shapes that it inherits from so that each matches its share, what is left over is EXTRA or unmentioned, and every constraint of a parent holds of the shares it is about.", "quantifier": "every schema, graph, node, typing of the references and order of iteration of the hash maps", "why_tests_cant": "The check counts through all selections of alternatives and all partitions of the arcs; tests cover few arcs and the examples of the documentation.", "anchors": ["shex_validation/src/engine.rs: check_node_shape_extends, check_node_shape_extends_selections, check_node_selection, check_node_constraint_expr, try_split_constraint", "shex_validation/src/class_partitions.rs: class_partitions_iter"]}
{"id": "C76", "title": "A node has a shape that extends shapes exactly if its arcs can be shared out", "statement": "The check of a node against a shape with EXTENDS whose parents can each be extended in one way ends, and answers yes exactly if the arcs of the node can be shared out among the shape and its ancestors so that each matches its share, what is left over is EXTRA or unmentioned, and every constraint of an ancestor holds.", "quantifier": "every schema, graph, node, typing of the references and order of iteration of the hash maps", "why_tests_cant": "The check filters the arcs several times before it tries the partitions; an arc that one of the filters should not drop shows only if parents overlap or conjunctions stand between the shape and an ancestor.", "anchors": ["shex_validation/src/engine.rs: check_node_shape_extends, check_node_extends_main_shape, extends_closure, collect_constraint_exprs, collect_all_exprs_for_shape", "shex_ast/src/ir/schema_ir.rs: get_preds_extends, parents", "shex_ast/src/ir/shape_expr.rs: preds"]}
{"id": "C77", "title": "Validation with inheritance gives the greatest typing, stratum by stratum", "statement": "In a schema with EXTENDS, abstract shapes, recursion and stratified negation, validation ends without an error if inheritance is not cyclic and everything used is defined, and a node is reported conformant to a label exactly if it has it in the typing that is greatest stratum by stratum, where a node has a label by its own definition, unless it is abstract, or through a declaration that extends it.", "quantifier": "every schema, graph, list of pairs to validate, and order of iteration of the hash maps and of the dependencies", "why_tests_cant": "It needs recursion through extended and abstract shapes in cyclic data, where hypotheses, the cache, the descendants and the partitions of arcs interact, and all orders of iteration.", "anchors": ["shex_validation/src/engine.rs: prove, check_node_idx, dep, check_node_shape_expr, check_node_shape_extends", "shex_ast/src/ir/schema_ir.rs: descendants, is_abstract, build_inheritance_graph", "shex_ast/src/ir/shape_expr.rs: references"]}
{"id": "C78", "title": "Materialised graphs conform to their schema", "statement": "The graph materialised from a ShEx schema and a map of values validates against the schema: its root has the start shape, and the engine says so. Materialising ends, and writes nothing but arcs between the root, new blank nodes and values of the map.", "quantifier": "every schema, map of values, initial node and bound on the recursion", "why_tests_cant": "The tests materialise three small schemas and look for single triples; they never validate the result, and use no choices, cardinalities, inverse arcs, recursion or missing values.", "anchors": ["shex_ast/src/materialize/materializer.rs: materialize, generate_shape_expr, generate_triple_expr, apply_map_actions", "rudof_rdf/src/rdf_impl/oxigraph/in_memory.rs: add_bnode, add_triple", "shex_ast/src/ir/actions/map_action_extension.rs: run_action"]}
{"id": "C79", "title": "Tables of application profiles are read as they are written", "statement": "Reading a DCTAP table gives the shapes it describes. The rows are cut into runs: a shape goes from a row with its identifier to the last row before one that names another shape, rows without an identifier belong to the shape above, and empty rows before the first shape are skipped. Each shape has the identifier, label and parent of its first row, and one statement for every row of the run that has a property, in order, with what its cells say: mandatory and repeatable in any of the accepted spellings, node kinds, datatypes, value shape, list of values or pattern, label and note. A table with a word that means neither yes nor no, or an unknown node kind, in a row with a property is an error, and only such tables are.", "quantifier": "for all delimiters, headings, rows and lists of shapes (iff), where the table has a shape identifier column, rows are complete, and property and constraint cells are not filled with white space; termination for all tables and all placeholder configurations; distinctness of generated identifiers for all tables with one placeholder", "why_tests_cant": "unit tests read a few tables of two columns; the grouping depends on every sequence of identifiers, and each cell on arbitrary text", "anchors": ["dctap/src/tap_reader.rs: read_shape, next_record_with_id, same_shape_id, record2statement, get_property_id, parse_boolean, parse_node_type, read_value_constraint", "dctap/src/tap_headers.rs: from_record", "dctap/src/tap_shape.rs", "dctap/src/tap_reader_state.rs: placeholder_id", "dctap/src/node_type.rs: merge_node_type"]}
{"id": "C80", "title": "Converting a profile to ShEx keeps what it asks", "statement": "Converting a DCTAP profile to a ShEx schema succeeds exactly when every name in it can be resolved and it has no pattern. Names are resolved by the prefix map and the base. Each shape is declared once, in order, under its name, open, with the extensions it names. The nodes that have a shape by the schema are those that have it by the profile: each property has a value if it is mandatory, at most one unless it is repeatable, and the values have one of the datatypes, are in the list of values, and have one of the shapes named. The engine, validating with the compiled schema, answers so.", "quantifier": "for all profiles, prefix maps, bases, delimiters, graphs, nodes and labels; for the meaning: statements that say whether they are mandatory, have no node kind and no or several datatypes, about different properties within a shape, no extensions; recursion between shapes allowed", "why_tests_cant": "tests convert two small tables and compare the text of the schema; whether the schema means the same depends on all graphs and on recursion between the shapes", "anchors": ["shapes_converter/src/tap_to_shex/tap2shex.rs: convert, tapshape_to_shape_expr, statement_to_triple_expr, parse_shape_ref, parse_node_constraint, parse_constraint, get_min, get_max", "shapes_converter/src/tap_to_shex/tap2shex_config.rs: resolve_iri"]}
{"id": "C81", "title": "Reading the compact syntax: sentences are read as the trees they mean", "statement": "A text whose tokens form a sentence of the ShEx compact grammar is read, whatever the white space between the tokens, as the statements and the expression trees the sentence means: OR, AND and NOT bind in this order, groups and alternatives, brackets, cardinalities, senses, labels, annotations, actions, qualifiers of shapes, node constraints with facets, directives, start, abstract and external shapes. The grammar gives such a text one meaning.", "quantifier": "for all documents of the grammar, all layouts and all bounds; plain sentences: facets of strings stand first, numbers fit, brackets around expressions without attributes, no EXTENDS inside a triple constraint, no prefix that begins with a keyword; keywords in upper case; value sets, literals and code as single tokens", "why_tests_cant": "tests read some dozens of schemas; alternatives of a backtracking parser interact, and which beginnings of words are taken for keywords depends on every name in a schema", "anchors": ["shex_ast/src/compact/shex_grammar.rs: shex_statement, shape_expression, shape_or, shape_and, shape_not, shape_atom, shape_definition, triple_expression, group_triple_expr, unary_triple_expr, bracketed_triple_expr, triple_constraint, cardinality, many1_sep", "shex_ast/src/compact/shex_parser.rs: ShExParser::parse, StatementIterator", "shex_ast/src/ast/triple_expr.rs: with_id, with_min, with_max, with_sem_acts, with_annotations"]}
{"id": "C82", "title": "Printing a schema in the compact syntax and reading it back", "statement": "A schema that uses the part of the language the printer writes faithfully is printed without a panic, and the text is read as the same schema: the same prefixes, base, start expression and shapes, imports and start actions up to the spelling of their names. Two such schemas with one text are the same. The keywords of a sentence may be spelled in small and capital letters. The tokens that are printed are separated, so that they are the tokens of the characters.", "quantifier": "for all schemas that are printable, all ways of shortening, completing and resolving names that are consistent with the declared prefixes, all bounds; printable: no alternatives, inclusions, labels, group cardinalities, ranges, numeric facets, abstract shapes, shape actions or several extensions, and operands that need no parentheses", "why_tests_cant": "tests print a handful of schemas and compare strings; whether a printed text is read as the same schema depends on the printer, the grammar and the prefixes together, for every schema", "anchors": ["shex_ast/src/compact/shex_compact_printer.rs: pp_schema, pp_shape_expr, pp_shape, pp_triple_expr, pp_cardinality, pp_node_constraint, pp_xsfacets, pp_annotations, pp_actions, pp_extends, pp_extra, pp_iri_ref", "shex_ast/src/compact/shex_parser.rs: ShExParser::parse", "shex_ast/src/ast: deref_iri of ShapeExpr, Shape, TripleExpr, NodeConstraint, SemAct, Annotation", "prefixmap/src/prefix_map.rs: qualify"]}
{"id": "C83", "title": "Reading and writing the terminals of the compact syntax", "statement": "From a text, the longest word of each terminal of the ShEx grammar is read, with the meaning the grammar gives it, and a text is refused only if it starts with no such word: numbers and language tags always; strings, IRIs, names, labels, literals, regular expressions and codes outside the stated differences. White space and comments are passed over completely. What the printer writes for a string, an IRI, a regular expression or a code is read back exactly if it has no character that would need an escape.", "quantifier": "for all texts (all sequences of Unicode code points); for all strings, IRIs, patterns, flags and codes and whatever follows them", "why_tests_cant": "tests read a few dozen literals and names; the differences (a quote inside a long string, a dot behind a name, a letter beyond ASCII, a surrogate) are single characters in particular places among infinitely many texts", "anchors": ["shex_ast/src/compact/shex_grammar.rs: string, string_literal1, string_literal2, string_literal_long1, string_literal_long2, uchar, echar, iri, iri_ref, prefixed_name, pname_ln, pname_ns, pn_prefix, pn_local, plx, percent, pn_local_esc, one_if, blank_node_label, numeric_literal, raw_double_literal, raw_decimal_literal, raw_integer_literal, integer, lang_tag, rdf_literal, regexp, pattern, unescape_pattern, flags, code, code_str", "shex_ast/src/compact/grammar.rs: tws0, comment, multi_comment", "shex_ast/src/compact/shex_compact_printer.rs: pp_string, pp_pattern, pp_iri_unqualified, pp_iri_ref, pp_action"]}
{"id": "C84", "title": "Reading and writing query shape maps", "statement": "A text that is a sentence of the grammar of query shape maps (pairs of a node, a triple pattern with a focus, or a query, and a shape or START) is read as the map it means, with all names of nodes and of shapes resolved in their own prefix maps, and refused if a name cannot be resolved; what is read is such a sentence; the program panics only on the terminals named in C83. A printable pair is read back as it was written. Refuted: empty maps, statuses, blank nodes in triple patterns and shapes behind strings are refused although the grammar has them; a printed map of two or more pairs is never readable; literals as nodes panic when they are printed; queries with a quote are not read back; what follows a single selector is dropped.", "quantifier": "for all texts (all sequences of Unicode code points), all resolutions of names, all shape maps and all ways of writing names and numbers", "why_tests_cant": "tests read a handful of maps; the grammar has infinitely many texts, the keywords are read without regard to case or to where a word ends, and printed maps are only compared with expected texts, not read again", "anchors": ["shex_ast/src/compact/shapemap_grammar.rs: shapemap_statement, association, rest_associations, shape_spec, node_selector, object_term, triple_pattern, node_or_wildcard, focus_object, subject_focus, predicate, rdf_type, focus, extended", "shex_ast/src/compact/shapemap_parser.rs: ShapeMapParser::parse, parse_shape_selector, parse_node_selector, ShapeMapStatementIterator", "shex_ast/src/compact/grammar.rs: tag_no_case_tws, token_tws", "shex_ast/src/shapemap/association.rs: Association::new", "shex_ast/src/compact/shapemap_compact_printer.rs: pp_shapemap, pp_association, pp_node_selector, pp_pattern, pp_object_value, pp_literal, pp_shape_selector"]}
{"id": "C85", "title": "Writing schemas as JSON and reading them back", "statement": "A schema is read back from its ShExJ form exactly when it is writable: absolute IRIs as labels without a blank node mark inside, names that cannot be taken for IRIs, literals of no built-in type, numbers that are integers of 64 bits, decimals or doubles, ranges with exclusions, facets of different kinds in one fixed order, unique prefixes and no source IRI. Schemas that are not writable come back different or are refused. What has been read from any JSON value is read back when written, provided no label IRI contains the mark of blank nodes. Facets of different kinds come back in the fixed order. Reading panics only on a range of literals without exclusions. Refuted: numbers of the derived types and dates become plain literals, typed literals of the compact syntax become numbers or are refused, ranges without exclusions and references to START are written and then refused, equal facets are refused, label IRIs with the mark become blank nodes, different schemas have the same JSON, and a range of literals without exclusions panics.", "quantifier": "for all schemas (all syntax trees), all JSON values, and all libraries of numbers, IRIs and language tags (for the theorem on what has been read: those that satisfy the stated laws)", "why_tests_cant": "tests compare some schemas with their JSON files; the trees and the JSON values are infinite, most losses need a value the test files do not contain, and derived instances have no tests of their own", "anchors": ["shex_ast/src/ast/schema.rs: Schema (derived Serialize, Deserialize)", "shex_ast/src/ast/shape_expr.rs: ShapeExpr, ShapeExprWrapper", "shex_ast/src/ast/triple_expr.rs: TripleExpr, TripleExprWrapper", "shex_ast/src/ast/shape_decl.rs: ShapeDecl", "shex_ast/src/ast/shape.rs: Shape", "shex_ast/src/ast/node_constraint.rs: NodeConstraint Serialize, Deserialize", "shex_ast/src/ast/value_set_value.rs: ValueSetValue Serialize, Deserialize", "shex_ast/src/ast/object_value.rs: ObjectValue Serialize, Deserialize, get_type_str", "shex_ast/src/ast/exclusion.rs: Exclusion Deserialize, parse_literal_exclusions, parse_iri_exclusions, parse_language_exclusions", "shex_ast/src/ast/shape_expr_label.rs: TryFrom, Serialize", "shex_ast/src/ast/triple_expr_label.rs: TryFrom, Serialize", "shex_ast/src/ast/annotation.rs: Annotation Serialize, Deserialize", "shex_ast/src/ast/serde_string_or_struct.rs: deserialize_string_or_struct", "prefixmap/src/iri/visitor.rs: IriRefVisitor", "prefixmap/src/prefix_map.rs: PrefixMap Serialize, Deserialize", "rudof_iri/src/iri/visitor.rs: IriVisitor"]}
{"id": "C86", "title": "Converting SHACL shapes to ShEx", "statement": "A compiled SHACL schema is converted to ShEx exactly when its node shapes are named by IRIs or blank nodes and every property they list is a property shape with a predicate for a path and no components but sh:or, sh:datatype and sh:class of an IRI; every other component panics. For shapes whose properties are different, a node has the ShEx shape exactly when it has one value for every property, for which the first component holds, and, with the option for target classes, one type, which is a target class; so with that option no node at all has a shape without a target class. Nodes with the ShEx shape conform to the SHACL shape if that has nothing but property shapes with at most one test, and conforming nodes have the ShEx shape if moreover nothing is deactivated, they have one value for every property, nothing has two types and there are no subclasses. Refuted without these: properties become mandatory and single, all components but the first are dropped, so are those of node shapes (sh:closed among them) and sh:or, deactivated shapes are enforced, sh:class asks for the class to be the only type, two property shapes for one property ask for two values, and sh:minCount panics.", "quantifier": "for all compiled SHACL schemas, targets, graphs and nodes, both settings of add_target_class, and all worlds of SHACL and ShEx that agree on datatypes", "why_tests_cant": "the converter has no tests of its own; whether the same nodes conform is a statement about all graphs, which no test makes", "anchors": ["shapes_converter/src/shacl_to_shex/shacl2shex.rs: convert, convert_shape, rdfnode2label", "shapes_converter/src/shacl_to_shex/shacl2shex.rs: node_shape2shape_expr, convert_target_decls, target2value_set_value, merge_triple_exprs", "shapes_converter/src/shacl_to_shex/shacl2shex.rs: property_shape2triple_constraint, components2shape_expr, component2shape_expr, create_class_constraint, shacl_path2predicate", "shapes_converter/src/shacl_to_shex/shacl2shex_config.rs: add_target_class"]}
{"id": "C87", "title": "Comparing two shapes", "statement": "Comparing two descriptions puts every property with both descriptions among the equal ones if both have it, and with the one there is on its side if only one has it; the other way around the sides change places. A shape can be described exactly when the label is an IRI that names it, all labels before it resolve, and it is a shape whose expression is absent, one triple constraint, or a group of triple constraints, with a prefix map that resolves the predicates and values that are unrestricted, references, or have a datatype or node kind. The description of a group has exactly the properties of the group, each with its last constraint, so comparing two groups tells the common properties and those of each side. Refuted without this: a shape with a single constraint always has the empty description, so that none of its properties is ever compared; properties called equal can have different datatypes, and directions, cardinalities, CLOSED and EXTRA are never looked at; of two constraints on a property the first is lost; without a prefix map nothing can be described even if all names are IRIs; START, labels of blank nodes and references to triple expressions panic.", "quantifier": "for all pairs of schemas, labels and properties, both settings of ignore_value_constraints, and all libraries for IRIs", "why_tests_cant": "tests compare a few pairs of small schemas; the partition and the exact class of shapes that can be described are statements about all schemas, and a shape with a single constraint is the case the tests leave out", "anchors": ["shapes_comparator/src/coshamo_converter.rs: populate_from_shex, triple_expr2coshamo, triple_expr_as_constraint2coshamo, value_expr2value_constraint, shape2coshamo", "shapes_comparator/src/coshamo.rs: resolve, compare", "shapes_comparator/src/shaco.rs", "shex_ast/src/ast/schema.rs: find_shape, find_shape_by_iri_ref"]}
{"id": "C88", "title": "Converting ShEx to SPARQL", "statement": "A schema is converted to a query exactly when the shape with the given label, or else the start shape, or else the first one, is after following references a shape without inverse constraints and references to triple expressions, all of whose predicates that are IRIs start with a namespace if there are prefixes. The patterns are those of the constraints in order; every answer has a value for every property of the shape, and if different properties have different local names, none of which is that of the focus variable, the answers are exactly the nodes with a value for every property. Under the same condition nodes that have the shape are answers if every constraint has to be matched, and answers have the shape if it asks for at least one value of any kind, once for each property, and is open. The text of a query with prefixes, without base and with IRIs for predicates has the lines of a query. Refuted without these: properties with one local name must have the same value, a property with the name of the focus variable must have the node itself, optional properties and all members of a choice are asked for, numbers and values are not, references in a circle do not end, inverse constraints and unknown namespaces panic, and the text has no SELECT without prefixes, a bare IRI for a base, bare IRIs for prefixed names, and local names that are no names.", "quantifier": "for all schemas, labels, focus variables, graphs and nodes, all meanings of value expressions, all numbers of steps", "why_tests_cant": "the only test converts one schema with two properties; which nodes a query finds is a statement about all graphs, and names that collide or queries without prefixes are not tested", "anchors": ["shapes_converter/src/shex_to_sparql/shex2sparql.rs: convert, shape_expr2query, shape_expr2patterns, triple_expr2patterns, var_from_predicate", "shapes_converter/src/shex_to_sparql/select_query.rs: fmt", "shapes_converter/src/shex_to_sparql/triple_pattern.rs: show_qualified", "shapes_converter/src/shex_to_sparql/var.rs: generate", "prefixmap/src/prefix_map.rs: qualify, qualify_local, longest_prefix_match"]}
{"id": "C89", "title": "Reading ShExR", "statement": "Of a graph that describes a schema every declaration is read, and of its expression what is left when triple expressions, extra properties, datatypes, facets, the values next to a kind, the kind of what is no literal and values that are not all IRIs are dropped, and negations, references and external shapes are replaced by a constraint that every node satisfies; a schema without shapes is an error. So schemas made of conjunctions, disjunctions, shapes of which at most is said that they are closed, kinds and sets of IRIs are read as they are. Reading an expression never fails: whatever the graph, it gives an expression or does not end. Whatever is read declares the members of a list of the one schema in the graph, none abstract. A graph with one schema and a list of nodes that name expressions is always accepted, if nothing is inside itself. Refuted: a schema with a triple expression is never read; negations become a constraint that accepts everything; values next to a kind are lost because the focus stays on the kind; sx:nonliteral is not known; an expression inside itself is read for ever; a node with two types is read in the order of a set; a broken list is read as what its last cell says.", "quantifier": "for all graphs, nodes in focus, orders in which sets are walked, and numbers of steps", "why_tests_cant": "no test reads a schema from RDF; that reading never fails and what it drops are statements about all graphs", "anchors": ["shex_ast/src/shexr/shexr_parser.rs: parse, schema_parser, schema, shape_decl, shape_expr_, shape, closed, shape_and, shape_or, node_constraint, parse_nodekind, parse_value_set", "rudof_rdf/src/rdf_core/parser/rdf_node_parser/combinators.rs: Optional, Or, And, Then, List", "rudof_rdf/src/rdf_core/parser/rdf_node_parser/constructors/typing.rs: SingleInstanceParser", "rudof_rdf/src/rdf_core/parser/rdf_node_parser/constructors/validation.rs: HasTypeParser, IsIriParser", "rudof_rdf/src/rdf_core/vocabs/shexr.rs"]}
{"id": "C90", "title": "Generating data from ShEx schemas", "statement": "The number of values and of related entities that is chosen is within the bounds of the cardinality if it can be met, whatever the strategy and the random numbers. Of a schema of shapes of literals, each with a property once, a datatype for which values are made, integers with bounds within what is made, and at most one required value, the data that are generated are good, whatever the order of the maps, the random numbers and the strategy, if nothing is left out on purpose: generating never fails, there are as many entities of each shape as the configuration allots (with equal shares they add up to the number asked for and differ by one at most), no other nodes have the type, and every entity has its shape. Refuted: at least two values make generating panic or too few values; a reference gets a value twice, once as a nested entity and once as a relationship; closed shapes do not allow the type; of a choice all alternatives are made; a group is made once; value sets, kinds and wildcards get no value; one unknown datatype and no data are made; bounds outside the default range panic; of two lower bounds the last counts; two values may be the same; weighted shares do not add up; read in the other way facets are not seen.", "quantifier": "for all schemas, configurations, orders of hash maps, streams of random numbers, and with or without overflow checks", "why_tests_cant": "values are random and hash maps have any order: tests look at a few runs, while this is a statement about all of them", "anchors": ["rudof_generate/src/converters/shex_to_unified.rs: convert_schema, convert_cardinality", "rudof_generate/src/parallel_generation.rs: generate_data, calculate_shape_distribution, generate_single_entity, calculate_property_value_count, calculate_relationship_count, generate_relationships", "rudof_generate/src/shape_processing.rs: extract_shapes", "rudof_generate/src/lib.rs: convert_unified_to_shape_infos"]}
{"id": "C91", "title": "The order of shapes by their dependencies", "statement": "Sorting the graph of dependencies ends, gives up exactly if some shape depends on itself, in one or more steps, and else gives every shape that is declared or referred to exactly once, each before the shapes it refers to, whatever the order of the hash map. The dependencies of a schema with different labels are exactly the references in the constraints of triple expressions. Refuted: that what is depended on comes first, as generating needs it; that references inside conjunctions are seen, so that recursion there is not found; that only declared shapes are ordered.", "quantifier": "for all graphs, schemas and orders in which hash maps are walked", "why_tests_cant": "no test sorts shapes at all; that cycles are found exactly is a statement about all graphs", "anchors": ["rudof_generate/src/shape_processing.rs: topological_sort, get_topological_order, process_shapes, extract_dependencies_and_properties"]}
{"id": "C92", "title": "The conformance metrics of generated data", "statement": "If nodes have one type and no shape has a property twice, the number of valid triples is the number of triples that are valid: those that give a type that is a shape, and those whose property the shape of the subject has, with objects that satisfy all its constraints and no more values than allowed; the order of the triples does not matter. The percentages are between 0 and 100; validity is 100 if and only if there are triples and all are counted, and loss is 0 if and only if all that is asked of values is kept. All data made from easy schemas have 100 percent. Refuted: that 100 percent means conforming (missing values, and more than the one value of the default, are not seen); that data which conform have 100 percent (a property with two constraints); that the order does not matter (two types); that an empty graph has nothing invalid (0 percent); that 0 loss means that nothing is lost (closed shapes).", "quantifier": "for all graphs, models, schemas, configurations, random numbers and orders of hash maps", "why_tests_cant": "the only tests use fixed graphs with one type per node; the result for two types depends on the order in which the graph is walked", "anchors": ["rudof_generate/src/conformance_metrics.rs: from_graph_and_model, validate_property_triple, evaluate_constraint, value_matches_term", "rudof_generate/src/converters/shex_to_unified.rs: translation metrics"]}
{"id": "C93", "title": "Data generated from SHACL shapes conform to them", "statement": "Generating data from a SHACL shapes graph succeeds and gives data that conform to it: of every node shape there are as many entities as it is allotted, numbered from 1, each of which satisfies every property shape, and every focus node of a target satisfies its shape. The count of translated constraints is at most the count of constraints, and equal to it exactly if every component of every property shape is converted and the numbers of values are given once.", "quantifier": "all shapes graphs, configurations, sequences of random numbers, orders of hash maps and meanings of components that are not modelled; arithmetic with and without checks", "why_tests_cant": "A test looks at one shapes graph and one seed. Whether values lie within bounds given by any literals, whether counts are met for every strategy and whether the count of losses is exact are claims about all of them.", "anchors": ["rudof_generate/src/converters/shacl_to_unified.rs:55-252", "rudof_generate/src/lib.rs:84-131", "rudof_generate/src/parallel_generation.rs:213-388", "rudof_rdf/src/rdf_core/shacl_path.rs:106-151"]}
{"id": "C94", "title": "The guards of the HTTP server let through exactly the requests of granted hosts", "statement": "An Origin header that is a serialised origin is allowed if and only if its host is an address in a configured network, or localhost while a loopback address is granted; requests pass if and only if the origin is allowed or missing and the protocol version is supported or missing, a wrong origin is answered with 403 before the version is looked at, and nothing panics. The default configuration allows exactly 127.0.0.0/8, ::1 and localhost; a server starts only if all given networks are read. The server's own URI has its own address as host. Of other texts: whatever is allowed contains a part that may send, and panics are exactly those whose first bracket closes before one opens.", "quantifier": "all configurations, all header lists, all texts, all readers of addresses and networks", "why_tests_cant": "the tests of middleware.rs try a dozen well-formed origins; hosts hidden in paths, user information and wrong brackets are outside of every fixture", "anchors": ["rudof_mcp/src/server/streamable_http/middleware.rs:20-236", "rudof_mcp/src/server/streamable_http/http_server.rs:47-66", "rudof_mcp/src/server/streamable_http/http_server.rs:125-174"]}
{"id": "C95", "title": "Semantic actions do what their code says", "statement": "The regular expression of the Test extension accepts exactly the calls of its grammar, each in one way; print prints and fail fails with the message, and the two replacements one after the other give the unescaped text. Map puts the object at the IRI of its code and changes nothing else, or nothing at all on error. An action runs the first extension whose IRI is its name up to the fragment, and a schema is refused exactly when there is none. A value of a triple constraint with actions matches if and only if it has the value expression and all actions are fine, and what is then printed and mapped is what the actions do in order; start actions are run for every node, and none conforms if one of them fails.", "quantifier": "all codes, contexts, states, registries, lists of actions and values", "why_tests_cant": "the tests call nine codes; doubled replacements can go wrong only for particular runs of backslashes, and effects for values that do not match are not looked at", "anchors": ["shex_ast/src/ir/actions/test_action_extension.rs:41-100", "shex_ast/src/ir/actions/map_action_extension.rs:43-66", "shex_ast/src/ir/actions/semantic_actions_registry.rs:62-92", "rudof_iri/src/iri/iris.rs:103-111", "rudof_iri/src/iri/iris.rs:157-168", "shex_ast/src/ir/ast2ir.rs:659-756", "shex_ast/src/ast/cond_kind.rs:122-130", "shex_validation/src/engine.rs:79-110", "shex_validation/src/engine.rs:2074-2086"]}
{"id": "C96", "title": "The neighbourhood of a node is that of the data, cached or not", "statement": "A pattern over a graph in memory gives exactly the triples that suit it, each once, for every choice of fixed positions. Over data made of a primary backend and SPARQL endpoints with caches, whatever was asked before and whichever endpoints failed at whatever time, the arcs found for a node are exactly the direct and inverse arcs for the asked predicates that the graphs together have, each once, and there is an answer if all endpoints are up. A closed shape is refused exactly when the node has a predicate that the shape does not name. Direct arcs that were answered once are answered again without asking any endpoint.", "quantifier": "all graphs, endpoints, sequences of requests and failures, nodes and lists of predicates", "why_tests_cant": "the tests of neighs run on one small graph in memory without the backend that the tool puts around it; the cache needs sequences of requests and failures of endpoints", "anchors": ["rudof_rdf/src/rdf_impl/oxigraph/in_memory.rs:734-806", "rudof_rdf/src/rdf_core/neighs_rdf.rs:203-245", "rudof_rdf/src/rdf_impl/backend.rs:187-219", "rudof_rdf/src/rdf_impl/oxigraph/endpoint.rs:565-750", "sparql_service/src/srdf_data/rdf_data.rs:427-501", "shex_validation/src/engine.rs:668-673", "shex_validation/src/engine.rs:1618-1663"]}
{"id": "C97", "title": "The diagram of a schema shows its shapes", "statement": "A ShEx schema is drawn if and only if each of its shapes has a picture. The links of the diagram are then the references of all shapes, in order, each with its predicate and cardinality and leading to the node of the shape, or to the node of an operator whose members are the nodes of the shapes; the arcs of EXTENDS are those of the schema, in order; each name of a shape has one node, and the class at that node has the lines of the last shape of that name; no class is there that no shape declares or extends. What is drawn around one node is exactly the links and arcs that touch it and the components at their ends.", "quantifier": "all schemas of the converter, all prefix maps and all nodes", "why_tests_cant": "the tests of the converter compare no diagrams; nodes, operators and components are shared between shapes through tables that only sequences of declarations exercise", "anchors": ["shapes_converter/src/shex_to_uml/shex2uml.rs:58-545", "shapes_converter/src/shex_to_uml/shex2uml.rs:549-665", "shapes_converter/src/shex_to_uml/uml.rs:78-292"]}
{"id": "C98", "title": "The information about a node shows the walks around it", "statement": "For every graph, node, list of predicates and depth from 1, the tree of outgoing arcs has as branches exactly the walks from the node that are no longer than the depth and use only these predicates, and at each node each arc once; the tree of incoming arcs has exactly the walks to the node. What is printed is the same tree with the predicates of each node in order.", "quantifier": "all graphs, nodes, lists of predicates, depths and modes", "why_tests_cant": "the number of walks grows with the depth and graphs with cycles have walks of every length; tests use one small graph at depth 1 or 2", "anchors": ["rudof_lib/src/api/data/implementations/show_node_info.rs:59-250", "rudof_lib/src/api/data/implementations/show_node_info.rs:310-378", "rudof_rdf/src/rdf_core/neighs_rdf.rs:167-222"]}
{"id": "C99", "title": "The printed information about nodes is read back", "statement": "Reading what is printed about any list of nodes gives exactly their arcs, outgoing and incoming apart, in the order of the trees, each with its predicate, its other node and its depth.", "quantifier": "all lists of nodes with their trees and all ways of writing predicates and terms", "why_tests_cant": "whether a line is taken apart right depends on the characters of all texts and on where the arc is in the tree; tests read a few lines by hand", "anchors": ["rudof_lib/src/api/data/implementations/show_node_info.rs:269-405", "rudof_mcp/src/service/tools/node_tools_impl.rs:97-224"]}
{"id": "C100", "title": "The picture of an RDF graph shows its terms and triples", "statement": "The picture of an RDF graph has one box for each term that is a subject, an object or a part of a triple term that is an object, and one arrow for each triple, from the box of its subject to the box of its object, labelled with the predicate. It counts how each term is used. A triple term has a box that says whether the graph asserts the triple, linked to the boxes of its three parts. The diagram shows all boxes and arrows. This holds for graphs without triple terms in triple terms whose literals convert and are kept by the conversion. It is false in general: triple terms in triple terms stop the program, literals of different types that are shown alike share a box, an asserted triple is drawn as not asserted when its literal changes in the conversion, and boxes of predicates link to the IRI in angle brackets.", "quantifier": "for all graphs and all ways to convert and show literals", "why_tests_cant": "The number of boxes depends on how literals are shown and on the order in which equal terms are met; tests draw one small graph.", "anchors": ["rudof_rdf/src/rdf_core/visualizer/visual_rdf_graph.rs:20-315", "rudof_rdf/src/rdf_core/visualizer/visual_rdf_node.rs:13-229", "rudof_rdf/src/rdf_core/visualizer/visual_rdf_edge.rs:10-45", "rudof_rdf/src/rdf_core/visualizer/utils/usage_count.rs", "rudof_rdf/src/rdf_core/term/literal.rs:1034-1140"]}
{"id": "C101", "title": "Loading adds the data of the sources, and queries see all data loaded", "statement": "A load from files, URLs, text or standard input adds to the RDF data what the sources say, or puts it in their place when merging is off; it keeps the configuration and the endpoints in use, and the last declaration of a prefix counts. A load from an endpoint uses the endpoint of that name. A load that fails changes nothing, no load stops the program, and a query is answered over all data loaded so far and the endpoints in use. This holds for merging loads of readable sources, for requests that are refused before anything is read, and for queries that follow all loads. It is false in general: without merging only the last of several sources stays; a load that fails keeps what was read before the error, or loses the old data; TriG and N3 stop the program, as do prefixes without data; after a query, later loads are not seen by queries; and an endpoint IRI is taken for another endpoint that differs in scheme, case or a slash at the end.", "quantifier": "for all requests, all states, all sequences of loads, queries and resets, and all behaviours of the parsers, of the files and of the endpoints", "why_tests_cant": "Tests load once and query once; stale answers need a load, a query, a load and a query, and the loss of data needs a load that fails over data that are held.", "anchors": ["rudof_lib/src/api/data/implementations/load_data.rs:18-328", "rudof_lib/src/api/data/implementations/load_data.rs:455-464", "rudof_lib/src/api/query/implementations/run_query.rs:11-40", "sparql_service/src/srdf_data/rdf_data.rs:24-104", "sparql_service/src/srdf_data/rdf_data.rs:146-205", "sparql_service/src/srdf_data/rdf_data.rs:385-412", "rudof_rdf/src/rdf_impl/oxigraph/in_memory.rs:117-220", "rudof_rdf/src/rdf_impl/oxigraph/in_memory.rs:584-601", "rudof_rdf/src/rdf_impl/oxigraph/in_memory.rs:1291-1318"]}
{"id": "C102", "title": "The prefixes that users give with the data are declared", "statement": "The prefixes that users give in files, at URLs or as text are declared in the RDF data after a load, over those of the sources; the last declaration of a prefix counts. This holds for lines with a name, a colon and an IRI in angle brackets, with white space between and around, and for blank lines in files. It is false for lines with the keyword PREFIX, which becomes part of the name, and for declarations as in Turtle, which are refused.", "quantifier": "for all requests whose sources can be read, all states and all files of prefixes", "why_tests_cant": "The lines are cut by a regular expression over any text; tests try one or two prefixes.", "anchors": ["rudof_lib/src/api/data/implementations/load_data.rs:108-175", "prefixmap/src/prefix_map.rs:111-143"]}
{"id": "C103", "title": "Descriptions of SPARQL services are read as they are written", "statement": "When a graph describes one SPARQL service, the description read holds what the graph says of it: the title, the endpoint, the languages, features and result formats, the default dataset with its graphs, counts and partitions, and the graphs available, each once; a graph with none or several services is refused; whatever is read is in the graph; and no graph stops the program. It holds for graphs without counts of properties, entities and documents and without partitions inside partitions of classes, and the program is not stopped when the values of sd:graph and sd:availableGraphs are not literals. It is false in general: those counts and inner partitions are never read; a partition without its class makes the default graph vanish, and a named graph without its name the dataset, without an error; a literal among the available graphs stops the program; and a language besides the three known ones makes the whole description be refused.", "quantifier": "for all graphs, all orders in which the values of a property are visited, and all readings of literals as numbers", "why_tests_cant": "Tests read one well-formed description; what is dropped silently shows only when the description is compared with the graph, and the panics need values of the wrong kind.", "anchors": ["sparql_service/src/service_description_parser.rs:40-482", "sparql_service/src/service_description_vocab.rs", "sparql_service/src/service_description.rs:56-175", "rudof_rdf/src/rdf_core/parser/rdf_node_parser/combinators.rs", "rudof_rdf/src/rdf_core/parser/rdf_node_parser/constructors/property.rs", "mie/src/mie.rs:146-160"]}
{"id": "C104", "title": "Default prefixes give a meaning to the names a source does not declare, and to no others", "statement": "The default prefixes of a session are what the commands to add, copy, remove and rename make them, commands that fail change nothing, and an alias is there once. A source (Turtle data or shapes, SPARQL, ShExC) is read as if it began with a declaration of each default prefix that it does not declare itself: at each place, names declared by the source before it mean what the source says, and names that the source never declares mean what the defaults say. The commands are right for all sequences; the header is right for sources where declarations begin a line, where no other line begins with the word of a declaration, and for aliases without spaces and colons. It is false in general: a line in a long string is taken for a declaration, so the default is missing; aliases are not checked, and one with a space makes each later source unreadable; the second declaration of a line, and PREFIX in Turtle, are not seen, so that the header declares an alias that the source declares (the later one counts).", "quantifier": "for all sequences of commands, all sources of that form, all default prefixes and both syntaxes", "why_tests_cant": "Tests use one source with its prefixes at the top; strings that look like declarations and aliases that spoil all later loads are not tried.", "anchors": ["rudof_lib/src/utils/prefix_header.rs:6-54", "rudof_lib/src/api/prefixes/implementations/add_prefix.rs:6-13", "rudof_lib/src/api/prefixes/implementations/copy_prefix.rs:5-16", "rudof_lib/src/api/prefixes/implementations/remove_prefix.rs:3-13", "rudof_lib/src/api/prefixes/implementations/rename_prefix.rs:7-19", "prefixmap/src/prefix_map.rs:104-152", "rudof_lib/src/api/data/implementations/load_data.rs:195-214"]}
{"id": "C105", "title": "The tables of query results tell the solutions", "statement": "The table and the CSV text written for the results of a SELECT query have a column for each variable and a row for each solution; reading the CSV text by its standard gives the headings and the cells back, whatever characters they have; a cell is that of the value of the variable of its column, and different values have different cells. It holds for at least one solution, when all solutions have the same variables in the same order, and for IRIs, blank nodes, strings with or without language and literals of other datatypes, under prefixes with reasonable aliases. It is false in general: an empty result is the text No results, read as a column of that name; headings are those of the first solution, so that values of another endpoint that lists its variables in another order are under wrong headings; solutions with another number of variables are an error; kinds of numbers are not shown; datatypes are shortened with other prefixes than those of the table; and Markdown is never written.", "quantifier": "for all lists of solutions, all values, all prefixes and all characters in texts", "why_tests_cant": "Tests print one small table; commas, quotes and ends of lines in all positions, and results of several endpoints, are not tried.", "anchors": ["rudof_rdf/src/rdf_core/query/query_solutions.rs:66-69", "rudof_rdf/src/rdf_core/query/query_solutions.rs:104-118", "rudof_rdf/src/rdf_core/query/query_solutions.rs:149-262", "rudof_rdf/src/rdf_core/query/query_solution.rs:50-66", "rudof_rdf/src/rdf_core/query/mod.rs:10-50", "rudof_rdf/src/rdf_core/term/literal/literal.rs:239-294", "prefixmap/src/prefix_map.rs:363-400", "prefixmap/src/prefix_map.rs:472-481", "sparql_service/src/srdf_data/rdf_data.rs:385-408", "rudof_lib/src/api/query/implementations/serialize_query_results.rs:11-71"]}
{"id": "C106", "title": "The shell changes what is asked for and offers what can be typed", "statement": "In the interactive shell, a dotted key of the configuration names the value under its parts; a change is made just when the parts but the last lead to a table, is seen under its key and leaves all other keys alone, and a change that is refused changes nothing; the keys offered are those that can be read. Clearing targets clears the slots they own and nothing else, unknown targets clear nothing, and clearing all gives the session of a fresh shell. The endpoint shown is that of the data. The short form of a line is its long form, data without --merge are read as if none had been loaded and with it are added, and what is offered on Tab goes on from what was typed. It is false in general: endpoints with a dot in their names are offered as keys but not found; a setting cannot be given a text that looks like a number or a truth value; clearing all keeps default prefixes and changes of the configuration; results of validations are cleared by no target; clearing the endpoint leaves its data in use, and clearing the data leaves the name of the endpoint; a load that fails has lost the data; a second name is offered after endpoint, and no command behind a blank.", "quantifier": "for all trees of settings, all keys and values, all sessions, all lines and all places of the cursor", "why_tests_cant": "Tests type a few lines; orders of clearing and loading, keys within keys and the other slots after each target are not tried.", "anchors": ["rudof_cli/src/shell/repl.rs:161-255", "rudof_cli/src/shell/repl.rs:342-394", "rudof_cli/src/shell/repl.rs:405-479", "rudof_cli/src/shell/repl.rs:536-668", "rudof_cli/src/shell/repl.rs:710-785", "rudof_cli/src/shell/completer.rs:48-141", "rudof_lib/src/api/core/implementations/reset_all.rs:3-21", "rudof_lib/src/api/data/implementations/load_data.rs:267-276", "rudof_lib/src/rudof.rs:84-144"]}
{"id": "C107", "title": "A validation judges what was loaded last, and calls that fail change nothing", "statement": "A session holds a configuration, default prefixes, data, a ShEx schema with its validator and shape map, SHACL shapes, a schema and a type map of property graphs, and the results of each kind of validation. A ShEx schema is loaded just when it is read, compiled, and without negative cycles unless mode and configuration both allow them. A call that fails leaves the session as it was. Loading a schema and a shape map and validating gives results that depend on the configuration, the default prefixes and the data only; the same for SHACL shapes and for property graphs. A node given to the command is the one judged. The check of a schema agrees with loading it. Clearing one kind of validation makes it an error and leaves the others. It is false in general: a node that cannot be resolved leaves an empty shape map, with which the next validation passes judging nothing; what Map stored goes into later validations, and nodes of earlier commands are judged again; with new data and no shapes given, the loaded shapes are replaced; by default the lax mode refuses what the strict mode does; a change of the configuration does not reach a loaded schema; the check ignores default prefixes; clearing the validation of property graphs drops the shape map of ShEx and keeps the type map; results of an earlier schema remain when another is loaded.", "quantifier": "for all readers, compilers and validators, all sessions and all sequences of calls used by the commands", "why_tests_cant": "Tests make one validation in a fresh session; calls that follow failed ones, and second validations in the same session, are not tried.", "anchors": ["rudof_lib/src/api/shex/implementations/load_shex_schema.rs:22-193", "rudof_lib/src/api/shex/implementations/load_shex_schema_precompiled.rs:13-52", "rudof_lib/src/api/shex/implementations/load_shapemap.rs:15-98", "rudof_lib/src/api/shex/implementations/add_node_shape_to_shapemap.rs:9-67", "rudof_lib/src/api/shex/implementations/validate_shex.rs:10-62", "rudof_lib/src/api/shex/implementations/check_shex_schema.rs:9-86", "rudof_lib/src/api/shex/implementations/reset_shex.rs:3-9", "rudof_lib/src/api/shacl/implementations/load_shacl_schema.rs:14-139", "rudof_lib/src/api/shacl/implementations/validate_shacl.rs:11-39", "rudof_lib/src/api/shacl/implementations/reset_shacl_validation.rs:3-6", "rudof_lib/src/api/pgschema/implementations/load_pgschema.rs:5-39", "rudof_lib/src/api/pgschema/implementations/load_typemap.rs:6-36", "rudof_lib/src/api/pgschema/implementations/validate_pgschema.rs:8-36", "rudof_lib/src/api/pgschema/implementations/reset_pgschema_validation.rs:3-7", "rudof_lib/src/api/core/implementations/update_config.rs:3-5", "shex_validation/src/validator.rs:44-88", "rudof_cli/src/commands/shex_validate.rs:32-148", "rudof_cli/src/commands/shacl_validate.rs:30-85", "rudof_cli/src/commands/pgschema_validate.rs:34-61"]}
{"id": "C108", "title": "Listings of the MCP server are complete, its logs limited, and a restart finds what was loaded", "statement": "In the server for language models (MCP), following the cursors of a listing from the first page gives all entries once and in order, in pages of at most twenty, and cursors beyond the end are refused. Log messages are sent just to the level asked for, all of them up to the limit, and messages are cut at 2048 characters with a mark. The number of triples reported is that of the N-Triples; sources that can be read are merged in order, a call reported as an error of the tool changes nothing, and a restart has the graph that was loaded. A crash at any moment of saving leaves the old state or the new one. It is false in general: up to twice the limit of messages is sent within a window, and the most severe message is dropped when debug messages have used up the limit; a field may replace the message, and texts of fields are not cut; an endpoint can never be loaded, since the empty list of data is passed beside it; a load that fails at a later source changes the data but not the saved state; an empty graph is no data after a restart, and a property graph an empty graph; two calls at the same time may save in the wrong order, or share the temporary file and leave the target empty; when only the last part does not fit on the disk the save is taken as done and the old state is lost.", "quantifier": "for all lists and cursors, all sequences of messages and times, all graphs, sources and sequences of operations on the disk", "why_tests_cant": "Tests list one page, load one file and save to a disk with space; crashes, full disks, calls at the same time and floods of logs are not tried.", "anchors": ["rudof_mcp/src/service/pagination.rs:4-27", "rudof_mcp/src/service/handlers.rs:77-147", "rudof_mcp/src/service/resources/resources_impl.rs:29-69", "rudof_mcp/src/service/logging.rs:34-228", "rudof_mcp/src/service/state.rs:30-182", "rudof_mcp/src/service/mcp_service.rs:123-228", "rudof_mcp/src/service/tools/data_tools_impl.rs:113-237", "rudof_lib/src/api/data/builders/load_data.rs:49-107", "rudof_lib/src/api/data/implementations/load_data.rs:20-251", "rudof_lib/src/api/data/implementations/serialize_data.rs:8-64"]}
{"id": "C109", "title": "Files given to QLever reach its index", "statement": "The shell in the container reads the command line of the index builder as the arguments it was made of. Each input is given once and in order, with its format and graph: a packed one as the standard input, any other under a path by which the container sees that file and no other; only the folder of the index can be written. An index that is made new holds what the inputs hold, making it again changes nothing, and files and indexes that are there stay as they are. Two packed inputs are refused, as is one for which there is no program. A failure leaves no index behind. Sources in other formats, and texts that are read, are converted and give the index what they say. It is false in general: an empty argument is lost in the command; a folder with a colon in its name is not mounted; the name of a graph and the kind of packing run together, so that different inputs share a folder; a file that changed later is served from the old index; in a folder that is given, other inputs, or another text that is read, get the index of the first ones; when unpacking breaks off the call fails, but the next one takes the index of the part; of two files of one name in different folders that are converted, the last one is read twice.", "quantifier": "for all arguments, inputs, settings, files on the disk and existing indexes, and all behaviours of the builder and the programs that unpack", "why_tests_cant": "Tests look at the arguments made for one or two files and never build twice, after a change or after a failure, since this needs Docker.", "anchors": ["rudof_rdf/src/rdf_impl/qlever/index_builder.rs:57-290", "rudof_rdf/src/rdf_impl/qlever/index_builder.rs:298-473", "rudof_rdf/src/rdf_impl/qlever/index_builder.rs:595-735", "rudof_rdf/src/rdf_impl/qlever/graph_container.rs:65-105", "rudof_rdf/src/rdf_impl/qlever/graph_container.rs:128-146", "rudof_rdf/src/rdf_impl/qlever/graph_container.rs:425-540", "rudof_rdf/src/rdf_impl/qlever/config.rs:281-353", "rudof_rdf/src/rdf_impl/qlever/decompressor.rs:33-48"]}
{"id": "C110", "title": "A server of QLever is started with the settings that are given, and deletes no more than it made", "statement": "Each option of the server has the value that the settings give it, no option is given that they do not ask for, and the shell in the container reads the arguments as they were made. A server has an index to serve and knows whether the call that started it made this index. When the server ends nothing is deleted unless this was asked for; an index that was there before, or that was only opened, stays; one that was made is gone, and what is not in its folder stays. No call loses an index that is there. It is false in general: after an empty token the next option is taken for the token; with an index in the folder of the data the end of the server deletes the data; an index of another name in the same folder is deleted as well; of two servers of one index the end of the first takes the index from the second; when the server does not answer in time the index that was made stays, although deleting was asked for.", "quantifier": "for all settings, names, sources, files on the disk and existing indexes", "why_tests_cant": "Tests look for single options in commands of default settings; deleting is not tested, since it needs Docker.", "anchors": ["rudof_rdf/src/rdf_impl/qlever/server.rs:15-153", "rudof_rdf/src/rdf_impl/qlever/server.rs:155-272", "rudof_rdf/src/rdf_impl/qlever/graph_container.rs:65-151"]}
{"id": "C111", "title": "Limits of memory for containers are read as they are written", "statement": "A limit of memory or swap is taken just when it is a number, with or without a point and digits behind it or a plus before it, and the name of a unit, with white space around both, whose product is below 2^63; it is read as the whole bytes of this product: K, M, G and T, also with i or iB behind, or in small letters alone, are powers of 1024, KB, MB, GB and TB powers of 1000, and no unit means bytes. Limits that are not given are not set, and one that cannot be read is an error. It is false that what Docker takes is taken: -1 for no limit of swap, 512mb and 512b are refused, and 1GB is another size than 1G.", "quantifier": "for all texts of limits, with numbers taken as exact", "why_tests_cant": "Tests read a dozen sizes; which other texts are taken, and which of several units that fit the end of a text is used, is not tried.", "anchors": ["rudof_rdf/src/rdf_impl/qlever/index_builder.rs:474-500", "rudof_rdf/src/rdf_impl/qlever/index_builder.rs:533-573"]}

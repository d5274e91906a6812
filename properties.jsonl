{"id": "C01", "title": "Script comparison is a strict total order compatible with ==", "statement": "For scripts obtained by parsing or by the m/add/+ constructors in normal form, `<` is irreflexive, transitive, and for any two scripts exactly one of a<b, a==b, b<a holds, where a==b means that they print to the same string.", "quantifier": "all pairs and triples of normal-form scripts, of any layer, any size and any mix of null, multiplicative and additive scripts", "why_tests_cant": "sort() is used to define the canonical form of every paradigm; the order mixes six criteria (layer, class, cardinal, canonical bytes, children, values) and an inconsistency only shows on rare pairs with equal canonical bytes.", "anchors": ["ieml/dictionary/script/script.py: Script.__lt__, Script.__eq__, AdditiveScript.__order, MultiplicativeScript.__order"]}
{"id": "C02", "title": "The printed form of a script identifies it", "statement": "Two scripts print to the same string iff they are the same script up to the spelling of the empty script and one-element sums; hence ==, hash and dictionary keys by string never confuse two different scripts.", "quantifier": "all pairs of scripts the library can build", "why_tests_cant": "An ambiguity would be a collision between two unbounded families of trees.", "anchors": ["ieml/dictionary/script/script.py: AdditiveScript._do_precompute_str, MultiplicativeScript._do_precompute_str, MultiplicativeScript._render_children, NullScript._do_precompute_str"]}
{"id": "C03", "title": "Parsing a printed script gives the script back", "statement": "For every script s the library can build, script(str(s)) succeeds and is equal to s (same string, layer, cardinal, class and singular sequences).", "quantifier": "all scripts of layers 0 to 6", "why_tests_cant": "The round trip goes through a lexer, an LALR grammar over 7 layers and the normalising constructors; only induction covers every nesting.", "anchors": ["ieml/dictionary/script/parser/parser.py: ScriptParser.t_parse, p_term, p_script_lvl_*, p_sum_lvl_*, t_add_rules", "ieml/dictionary/script/parser/lexer.py: get_script_lexer", "ieml/dictionary/script/script.py"]}
{"id": "C04", "title": "A sum of scripts does not depend on order, repetition or hash seed", "statement": "AdditiveScript(children) gives the same script for every reordering and repetition of the children and for every iteration order of the Python set used to deduplicate; addition is commutative and idempotent up to ==, exceptions included.", "quantifier": "all lists of normal-form scripts of one layer, all permutations/duplications, all set iteration orders", "why_tests_cant": "Set order depends on PYTHONHASHSEED; a test sees one order per process.", "anchors": ["ieml/dictionary/script/script.py: AdditiveScript.__init__, Script.__add__", "ieml/dictionary/script/operator.py: add"]}
{"id": "C05", "title": "Script constructors only produce canonical scripts or raise", "statement": "Every successfully constructed multiplicative script has three children of the same layer, its own layer is one more (at most 6), no child is a one-element sum, empty children are null scripts; every sum has children of one layer, strictly increasing, none itself a sum. The constructors raise exactly on the documented bad inputs (no children, mixed layers, too many singular sequences).", "quantifier": "all argument lists built from previously constructed scripts", "why_tests_cant": "Closure over every history of constructions.", "anchors": ["ieml/dictionary/script/script.py: AdditiveScript.__init__, MultiplicativeScript.__init__, NullScript.__init__"]}
{"id": "C06", "title": "len() of a script equals the number of its listed singular sequences and is at most 360", "statement": "For every constructible script, len(s) == s.cardinal == len(s.singular_sequences), it is between 1 and 360, and it is 1 iff the script is not a paradigm.", "quantifier": "all constructible scripts", "why_tests_cant": "Needs induction over the tree; a test only samples.", "anchors": ["ieml/dictionary/script/script.py: AdditiveScript.__init__, MultiplicativeScript.__init__, Script.__len__, _compute_singular_sequences", "ieml/constants.py: MAX_SINGULAR_SEQUENCES"]}
{"id": "C07", "title": "Singular sequences are exactly the combinations of the script", "statement": "The set of singular sequences of a sum is the union of those of its terms; the set of singular sequences of a multiplication is the set of m(a,b,c) for all a,b,c taken in the singular sequences of substance, attribute and mode; each is itself singular with itself as only singular sequence, and has the layer of the script.", "quantifier": "all constructible scripts", "why_tests_cant": "Distributivity over an unbounded tree.", "anchors": ["ieml/dictionary/script/script.py: AdditiveScript._compute_singular_sequences, MultiplicativeScript._compute_singular_sequences, NullScript._compute_singular_sequences"]}
{"id": "C08", "title": "Singular sequences are listed in strictly increasing order, without repetition", "statement": "The list singular_sequences is sorted by `<`; it has no repetition iff the terms of every sum in the script are disjoint. For overlapping sums (e.g. 'O:U:.+wo.') cardinal over-counts the distinct singular sequences.", "quantifier": "all constructible scripts", "why_tests_cant": "Depends on total order and on disjointness of unbounded sums; overlaps are rare in samples.", "anchors": ["ieml/dictionary/script/script.py: _compute_singular_sequences, AdditiveScript.__init__ (cardinal)"]}
{"id": "C09", "title": "`in` between scripts is semantic inclusion", "statement": "a in b holds iff they have the same layer and every singular sequence of a is one of b; it is reflexive and transitive, and a in b and b in a iff they have the same singular sequences.", "quantifier": "all pairs and triples of constructible scripts", "why_tests_cant": "quantifies over all pairs/triples", "anchors": ["ieml/dictionary/script/script.py: Script.__contains__, Script.singular_sequences_set"]}
{"id": "C10", "title": "factorize preserves meaning", "statement": "Whenever factorize(s) or factorize([s1..sn]) returns a script, that script has exactly the same set of (promoted) singular sequences as its input, and its len is the number of distinct input singular sequences.", "quantifier": "all scripts / lists of scripts; all iteration orders of the sets used", "why_tests_cant": "The search uses sets and heuristics; the result depends on the hash seed.", "anchors": ["ieml/dictionary/script/tools.py: factor, pack_factorisation, factorize, promote"]}
{"id": "C11", "title": "factorize always returns", "statement": "factorize terminates with a script on every non-empty collection of scripts whose union has at most 360 singular sequences.", "quantifier": "all inputs", "why_tests_cant": "Termination/failure on rare configurations (missing corners of a cube) is not visible in samples.", "anchors": ["ieml/dictionary/script/tools.py: factor (_factors, _neighbours, relations)"]}
{"id": "C12", "title": "promote preserves meaning and reaches the layer", "statement": "promote(s, l) for s.layer<=l<=6 has layer l, the same number of singular sequences, and its singular sequences are the promotions of those of s; promote is the identity when l<=s.layer; promote composes.", "quantifier": "all scripts and layers", "why_tests_cant": "all inputs", "anchors": ["ieml/dictionary/script/tools.py: promote", "ieml/dictionary/script/operator.py: add"]}
{"id": "C13", "title": "Parsing accepts exactly the published grammar and normalises", "statement": "script(text) succeeds exactly when the token sequence is derivable in the grammar of the parser (with constructors succeeding), the value is the one given by the derivation, every derivation of a text gives the same value, and script(str(script(text))) == script(text).", "quantifier": "all strings", "why_tests_cant": "all strings; determinism over all derivations", "anchors": ["ieml/dictionary/script/parser/parser.py", "ieml/dictionary/script/parser/lexer.py"]}
{"id": "C14", "title": "Grammatical class of scripts", "statement": "The class of a multiplication is the class of its substance, the class of a sum is the maximum over its terms, null scripts are auxiliary; the class depends only on the printed form, and every singular sequence of a script has a class at most the class of the script.", "quantifier": "all constructible scripts", "why_tests_cant": "all inputs", "anchors": ["ieml/dictionary/script/script.py: AdditiveScript.__init__ 295, MultiplicativeScript.__init__ 418-423, NullScript.__init__"]}
{"id": "C15", "title": "Table cells cover each singular sequence exactly once", "statement": "For every script whose tables can be built, each distinct singular sequence appears in the cells of the tables, every cell is a singular sequence of the script, and for tables of a single multiplication each appears exactly once, at the coordinates of its components in the headers.", "quantifier": "all scripts with table headers of at most 12 entries", "why_tests_cant": "all shapes and nestings", "anchors": ["ieml/dictionary/script/script.py: Script._build_tables, AdditiveScript._compute_cells, MultiplicativeScript._compute_cells"]}
{"id": "C16", "title": "Table headers and sub-tables partition the table", "statement": "In a two or three dimensional table, the i-th row header contains exactly the cells of row i, the j-th column header those of column j, and each tab script those of its tab.", "quantifier": "all multiplications with two or three plural children", "why_tests_cant": "all shapes", "anchors": ["ieml/dictionary/script/script.py: MultiplicativeScript._compute_cells"]}
{"id": "C17", "title": "Addition of scripts is associative", "statement": "(a + b) + c and a + (b + c) give equal scripts or raise the same exception, for scripts a, b, c.", "quantifier": "all triples of scripts", "why_tests_cant": "A failing triple needs a repeated operand and a further sum; tests use distinct operands.", "anchors": ["ieml/dictionary/script/script.py: Script.__add__, AdditiveScript.__init__"]}
{"id": "C20", "title": "A polymorpheme does not depend on the order of its morphemes and groups", "statement": "PolyMorpheme(constant, groups) is the same (==, string, constant, groups) for every reordering of the constant, of the groups, and of the morphemes of each group, and empty scripts do not matter.", "quantifier": "all lists of morphemes and groups, all permutations", "why_tests_cant": "all permutations", "anchors": ["ieml/usl/polymorpheme.py: PolyMorpheme.__init__, _filter_empty"]}
{"id": "C21", "title": "Polymorpheme ordering", "statement": "do_lt on polymorphemes (through <) is a strict total order compatible with ==.", "quantifier": "all pairs/triples of polymorphemes", "why_tests_cant": "all triples", "anchors": ["ieml/usl/polymorpheme.py: PolyMorpheme.do_lt", "ieml/usl/usl.py: USL.__lt__"]}
{"id": "C22", "title": "Singular sequences of a polymorpheme respect the constant, the groups and the size limit", "statement": "Every singular sequence of a polymorpheme with groups has no group, contains every constant, contains only morphemes of the constant and of the groups, has between 1 and 5 morphemes, takes at most multiplicity morphemes from each group; the list has no repetition.", "quantifier": "all polymorphemes", "why_tests_cant": "unbounded number of groups, sizes and multiplicities", "anchors": ["ieml/usl/polymorpheme.py: compute_PM_singular_sequences, PolyMorpheme._compute_singular_sequences"]}
{"id": "C23", "title": "Polymorpheme, lexeme and word printing round trips through the parser", "statement": "Parsing str(u) gives back a USL equal to u.", "quantifier": "all polymorphemes, lexemes and words built from parsed parts", "why_tests_cant": "all structures", "anchors": ["ieml/usl/parser/parser.py: IEMLParser.parse", "ieml/usl/polymorpheme.py", "ieml/usl/lexeme.py", "ieml/usl/word.py"]}
{"id": "C24", "title": "Lexeme singular sequences are the product of flexion and content", "statement": "The singular sequences of a lexeme are exactly the lexemes made from a singular sequence of the flexion and one of the content; their number is the product.", "quantifier": "all lexemes", "why_tests_cant": "all inputs", "anchors": ["ieml/usl/lexeme.py: Lexeme._compute_singular_sequences"]}
{"id": "C25", "title": "Lexeme strings identify lexemes", "statement": "Two lexemes are == iff flexion and content are ==, for contents/flexions that are distinguishable by their string.", "quantifier": "all pairs of lexemes", "why_tests_cant": "all pairs", "anchors": ["ieml/usl/lexeme.py: Lexeme.__init__"]}
{"id": "C26", "title": "Role order is a strict total order", "statement": "On valid roles `<` is a strict total order compatible with == and sorted(roles) puts a prefix before its extensions.", "quantifier": "all lists of address scripts", "why_tests_cant": "unbounded length", "anchors": ["ieml/usl/syntagmatic_function.py: SyntagmaticRole.__lt__", "ieml/usl/constants.py: ADDRESS_SCRIPTS_ORDER"]}
{"id": "C27", "title": "Syntagmatic function list round trip", "statement": "from_list(as_list(sfun, ctx)) rebuilds an equal syntagmatic function of the same context type, for functions built by from_list; the order of the list does not matter.", "quantifier": "all lists of (role, lexeme) that form a function", "why_tests_cant": "unbounded trees of junctions, dependants and independants", "anchors": ["ieml/usl/syntagmatic_function.py: SyntagmaticFunction.from_list, as_list, JunctionSyntagmaticFunction._from_list, DependantQualitySyntagmaticFunction._from_list, ProcessSyntagmaticFunction._from_list"]}
{"id": "C28", "title": "Word singular sequences are the product over its roles", "statement": "The singular sequences of a word are the words obtained by choosing in every role a singular sequence of its lexeme; roles, focus and context type are unchanged, and their number is the product of the numbers for each lexeme.", "quantifier": "all words", "why_tests_cant": "unbounded number of roles", "anchors": ["ieml/usl/word.py: Word._compute_singular_sequences", "ieml/usl/syntagmatic_function.py: singular_sequences"]}
{"id": "C29", "title": "Malformed words are refused with a parse error", "statement": "For every list of addressed lexemes, from_list returns a function or raises ValueError (which IEMLParser turns into CannotParse).", "quantifier": "all lists of (role, lexeme)", "why_tests_cant": "malformed inputs are an unbounded family", "anchors": ["ieml/usl/syntagmatic_function.py: from_list, _from_list", "ieml/usl/parser/parser.py: IEMLParser.parse"]}
{"id": "C30", "title": "Path strings round trip", "statement": "path(str(p)) is equal to p for every path p; paths equal as strings dereference alike.", "quantifier": "all paths", "why_tests_cant": "all paths", "anchors": ["ieml/usl/decoration/path.py: UslPath.__str__", "ieml/usl/decoration/parser/parser.py: PathParser"]}
{"id": "C31", "title": "Every structure path dereferences to the element it is listed with", "statement": "For every (p, x) in u.iter_structure_path(), p.deference(u) == x.", "quantifier": "all polymorphemes, lexemes and words", "why_tests_cant": "all structures", "anchors": ["ieml/usl/decoration/path.py: deference", "ieml/usl/polymorpheme.py: iter_structure_path", "ieml/usl/lexeme.py: iter_structure_path", "ieml/usl/syntagmatic_function.py: iter_structure_path"]}
{"id": "C32", "title": "Path algebra: prefix, concatenation and split", "statement": "has_prefix is reflexive; for a path built by concatenation p.concat(q) has prefix p; remove_prefix undoes concat; head and tail of split_tail concatenate back to the path.", "quantifier": "all paths", "why_tests_cant": "all paths", "anchors": ["ieml/usl/decoration/path.py: has_prefix, concat, remove_prefix, split_tail"]}
{"id": "C33", "title": "A USL is rebuilt from its path/morpheme list", "statement": "usl(list(u.iter_structure_path_by_script_ss())) == u.", "quantifier": "all USL with at most three groups per polymorpheme", "why_tests_cant": "all structures, all dict/set orders", "anchors": ["ieml/usl/decoration/path.py: usl_from_path_values, build_usl_from_path_to_node", "ieml/usl/usl.py: usl"]}
{"id": "C34", "title": "Building an instanced USL leaves no literal behind", "statement": "After InstancedUSL(u, decorations) (whether it succeeds or raises), no component of u or of any other USL keeps a literal set by it.", "quantifier": "all USLs, decoration lists and interleavings of nested constructions", "why_tests_cant": "histories of object mutations, including failures", "anchors": ["ieml/usl/decoration/instance.py: LiteralContext, InstancedUSL.__init__, _compute_singular_sequences", "ieml/commons.py: DecoratedComponent"]}
{"id": "C35", "title": "Index keys sort like indices", "statement": "int2base(i) strings have a fixed width for i < 62**30, are injective, and their string order is the numeric order.", "quantifier": "all natural numbers i below the bound", "why_tests_cant": "unbounded numbers", "anchors": ["ieml/usl/__init__.py: int2base, get_index"]}
{"id": "C36", "title": "LastUpdatedOrderedDict keeps one entry per key in last-update order", "statement": "After any sequence of assignments the keys are distinct, ordered by last assignment, each with its last value.", "quantifier": "all sequences of assignments", "why_tests_cant": "all histories", "anchors": ["ieml/commons.py: LastUpdatedOrderedDict"]}
{"id": "C40", "title": "Descriptor database refines a multimap", "statement": "After any sequence of add_descriptor/remove_descriptor calls on an initially empty folder, get_values(ieml, language, descriptor) returns exactly the values added for that key and not removed since, in order of addition.", "quantifier": "all histories of calls, all values without line breaks", "why_tests_cant": "histories and values are unbounded; quoting makes collisions possible", "anchors": ["ieml/ieml_database/ieml_database.py: add_descriptor, remove_descriptor, get_descriptors, escape_value", "ieml/ieml_database/descriptors.py: Descriptors.get_values"]}
{"id": "C41", "title": "Removing a descriptor only touches its key", "statement": "remove_descriptor(ieml, language, descriptor[, value]) leaves every descriptor of other (ieml, language, descriptor) keys, and every other value of that key, unchanged.", "quantifier": "all database contents, keys and values", "why_tests_cant": "quantifies over all other keys/values", "anchors": ["ieml/ieml_database/ieml_database.py: remove_descriptor"]}
{"id": "C42", "title": "Escaped values are read back", "statement": "A value written by add_descriptor is read back as itself (after strip) by both readers (pandas csv, csv.reader).", "quantifier": "all strings", "why_tests_cant": "all strings", "anchors": ["ieml/ieml_database/ieml_database.py: escape_value, add_descriptor", "ieml/ieml_database/descriptors.py: from_csv_string"]}
{"id": "C43", "title": "Distinct USLs are stored in distinct files", "statement": "path_of gives different paths for different normalised IEML strings whenever the truncated hash of long names does not collide, and the same path for equal ones; file names are at most 100 characters plus extension.", "quantifier": "all pairs of IEML expressions", "why_tests_cant": "all pairs", "anchors": ["ieml/ieml_database/ieml_database.py: filename_of, path_of"]}
{"id": "C44", "title": "Structure keys are validated", "statement": "add_structure/add_descriptor never write a key outside STRUCTURE_KEYS/LANGUAGES/DESCRIPTORS_CLASS; inhibitions outside the allowed list and non boolean is_root are refused and nothing is written.", "quantifier": "all arguments", "why_tests_cant": "all arguments", "anchors": ["ieml/ieml_database/descriptors.py: normalize_key"]}
{"id": "C45", "title": "A transaction is atomic", "statement": "with db.commit(...): if the body raises, HEAD and every tracked/untracked non-dot file are as before; if it returns, HEAD is a new commit whose tree contains exactly the non-dot working files and whose only parent is the old HEAD; if nothing changed no commit is made.", "quantifier": "all initial repositories and all bodies (sequences of file writes/removals, raising at any point)", "why_tests_cant": "every crash point of the body", "anchors": ["ieml/ieml_database/git_interface.py: git_transaction, GitInterface.reset, status"]}
{"id": "C46", "title": "pull resolves conflicts in favour of the remote and reports the local version", "statement": "After a successful pull with conflicts every conflicting file has its remote content (or is removed when remotely deleted), non conflicting changes of both sides are kept, and the returned mapping contains the local descriptors of every conflicting ieml.", "quantifier": "all pairs of diverging histories", "why_tests_cant": "all divergences", "anchors": ["ieml/ieml_database/git_interface.py: GitInterface.pull"]}
{"id": "C47", "title": "Cached results are fresh", "statement": "A value returned through cache_results_watch_files equals what the wrapped function computes on the current content of the watched files, for any sequence of file edits and calls.", "quantifier": "all histories of edits and calls", "why_tests_cant": "all histories", "anchors": ["ieml/commons.py: FolderWatcherCache, cache_results_watch_files", "ieml/ieml_database/ieml_database.py: get_dictionary, get_list"]}
{"id": "C48", "title": "set_descriptors replaces exactly one descriptor class", "statement": "After set_descriptors(ieml, d, value) the values for (ieml, l, d) are exactly value[l] for every language, other classes and other iemls are unchanged, and nothing is committed when there is no change.", "quantifier": "all database contents and values", "why_tests_cant": "all contents", "anchors": ["ieml/ieml_database/transactions/DBTransaction.py: set_descriptors"]}
{"id": "C49", "title": "set_inhibitions replaces exactly the inhibitions of one root", "statement": "After set_inhibitions(ieml, inhibitions) the inhibition values of that root are exactly the given ones, and the other structure entries are unchanged.", "quantifier": "all database contents and lists of inhibitions", "why_tests_cant": "all contents", "anchors": ["ieml/ieml_database/transactions/DBTransaction.py: set_inhibitions"]}
{"id": "C50", "title": "Root paradigms of a dictionary are disjoint and cover its scripts", "statement": "A Dictionary is only built when the root paradigms are pairwise disjoint, and then every script of the dictionary has all its singular sequences inside the roots and each singular sequence belongs to exactly one root.", "quantifier": "all lists of paradigms and structure tables", "why_tests_cant": "all inputs", "anchors": ["ieml/dictionary/dictionary.py: Dictionary.__init__"]}
{"id": "C51", "title": "Dictionary index is a bijection sorted like scripts", "statement": "d.scripts is strictly increasing, d.index[s]=i iff d.scripts[i]==s.", "quantifier": "all dictionaries", "why_tests_cant": "all inputs", "anchors": ["ieml/dictionary/dictionary.py: Dictionary.__init__, __getitem__, __contains__"]}
{"id": "C52", "title": "Table forest is well founded and ranks increase towards children", "statement": "Following parent from any table reaches its root in finitely many steps; a non-set table's rank is greater than its parent's when the parent is not a table set and the rank of a root is 0; a table's script is included in its parent's.", "quantifier": "all dictionaries", "why_tests_cant": "all forests", "anchors": ["ieml/dictionary/table/table.py: Table.rank, accept_script", "ieml/dictionary/table/table_structure.py: TableStructure._define_root, _build_tables"]}
{"id": "C53", "title": "Relations are consistent with their inverses", "statement": "contains/contained and father_x/child_x are transposed; opposed, associated, crossed, twin and table_i are symmetric; identity is the identity; associated, opposed(for different scripts), twin are irreflexive.", "quantifier": "all dictionaries", "why_tests_cant": "all pairs of scripts of all dictionaries", "anchors": ["ieml/dictionary/relation/relations.py: _compute_relations, _compute_siblings, _compute_table_rank", "ieml/constants.py: INVERSE_RELATIONS"]}
{"id": "C54", "title": "contains is inclusion inside a root paradigm", "statement": "For scripts s,t of the same root, s contains t iff t in s; contains is reflexive and transitive.", "quantifier": "all dictionaries", "why_tests_cant": "all pairs", "anchors": ["ieml/dictionary/relation/relations.py: _compute_contains"]}
{"id": "C55", "title": "father/child follow the multiplicative structure", "statement": "The fathers of s through substance (attribute, mode) are the largest sub-scripts, present in the dictionary, met when descending in the substance (attribute, mode) of s or of its terms.", "quantifier": "all dictionaries", "why_tests_cant": "all trees", "anchors": ["ieml/dictionary/relation/relations.py: _compute_father"]}
{"id": "C56", "title": "Inhibitions suppress relations", "statement": "A relation listed as inhibited for a root paradigm never holds between two scripts of that root.", "quantifier": "all dictionaries and inhibitions", "why_tests_cant": "all inputs", "anchors": ["ieml/dictionary/relation/relations.py: _compute_father, _compute_siblings", "ieml/constants.py: INHIBITABLE_RELATIONS"]}
{"id": "C57", "title": "USL parsing fails only with CannotParse", "statement": "For every text, parsing it as a USL either returns a USL (or script) or raises CannotParse; no other exception escapes.", "quantifier": "all texts", "why_tests_cant": "malformed texts are unbounded; escapes come from rare combinations (a word whose roles are inconsistent, a huge paradigm)", "anchors": ["ieml/usl/parser/parser.py: IEMLParser.parse", "ieml/usl/parser/lexer.py: get_lexer"]}
{"id": "C58", "title": "The USL parser accepts exactly its grammar", "statement": "A text is accepted by the USL parser exactly when its tokens derive from the documented grammar and the structure denotes a USL; the structure is unique and the USL returned is the one it denotes (which parenthesis is flexion or content, which lexeme has the focus, which group has which multiplicity).", "quantifier": "all texts", "why_tests_cant": "the grammar is recursive: token sequences are unbounded and the LALR conflict is resolved silently", "anchors": ["ieml/usl/parser/parser.py: IEMLParser (docstring grammar)", "ieml/usl/parser/lexer.py: get_lexer"]}
{"id": "C59", "title": "Concatenated paths dereference in sequence", "statement": "When p.concat(q) puts the components of q after those of p, p.concat(q).deference(u) is q.deference(p.deference(u)), with the same exception when one of the two steps fails.", "quantifier": "all paths p and q such that q begins with a kind of component that p lacks and that may follow the last component of p, and all USLs u", "why_tests_cant": "The pairs of paths and the USLs are unbounded; tests only use a few literal paths.", "anchors": ["ieml/usl/decoration/path.py: UslPath.concat, UslPath.deference"]}
{"id": "C60", "title": "An instanced USL has exactly the decorations it was given", "statement": "InstancedUSL(u, ds).decorations are the decorations ds, and more precisely: the listed paths of u whose component received a value, with the last value it received.", "quantifier": "all USLs, all lists of decorations, all sharings of components between paths", "why_tests_cant": "which components are shared (scripts are cached by their parser) depends on the USL and on everything parsed before", "anchors": ["ieml/usl/decoration/instance.py: InstancedUSL.__init__, list_decorations, Decoration.apply", "ieml/usl/polymorpheme.py: PolyMorpheme.iter_structure_path"]}
{"id": "C61", "title": "Decorations of the singular sequences of an instanced USL", "statement": "The singular sequences of an instanced USL are those of its USL, in the same order. One in which no decoration of the instance finds a component is returned as the plain USL; each other one is an instanced USL carrying exactly the decorations which find a component in it, listed at every place of the objects they name. A decoration which finds nothing there is never an error.", "quantifier": "all instanced USLs, identities of objects and set orders", "why_tests_cant": "Which decorations survive depends on the paths of every singular sequence and on the sharing of objects; tests look at one decoration of one USL.", "anchors": ["ieml/usl/decoration/instance.py: InstancedUSL._compute_singular_sequences, Decoration.apply", "ieml/usl/decoration/path.py: UslPath.contained, UslPath.deference"]}
{"id": "C62", "title": "The factorisation does not depend on the run", "statement": "factorize(s) is the same script in every run of the program, so that a script stored after factorisation is still its own factorisation in another run (the database transactions assert factorize(s) == s).", "quantifier": "all scripts; all pairs of iteration orders of the sets used", "why_tests_cant": "The order of a set of strings changes with the hash seed from one process to the next: a test process sees one order.", "anchors": ["ieml/dictionary/script/tools.py: factor, factorize", "ieml/ieml_database/transactions/DBTransaction.py: 21"]}
{"id": "C63", "title": "opposed, associated, crossed and twin follow the substance, attribute and mode", "statement": "For two non-empty scripts s and o of a dictionary whose paradigms are given in their printed form, s and o are opposed (associated, crossed, twin) iff they differ, are in a common root for which the relation is not inhibited, have as many singular sequences, and are multiplications with exchanged substance and attribute (same substance and attribute and different modes; substances and attributes respectively opposed; each with its substance as attribute).", "quantifier": "all dictionaries and all pairs of their scripts", "why_tests_cant": "all pairs of scripts of all dictionaries", "anchors": ["ieml/dictionary/relation/relations.py: _compute_siblings"]}
{"id": "C64", "title": "table_k relates the scripts which share a table of rank k", "statement": "For k from 0 to 5, table_k relates s and o iff some table of rank k of the dictionary includes both.", "quantifier": "all dictionaries, ranks and pairs of their scripts", "why_tests_cant": "all forests", "anchors": ["ieml/dictionary/relation/relations.py: _compute_table_rank", "ieml/dictionary/table/table.py: Table.rank"]}
{"id": "C65", "title": "A dictionary contains what it is given", "statement": "Every script of a dictionary is a given paradigm or a singular sequence of one; ignored paradigms are absent; every given paradigm which is not ignored and is inside the roots is present, as is every root and every singular sequence of a root.", "quantifier": "all lists of paradigms and structure tables", "why_tests_cant": "all inputs", "anchors": ["ieml/dictionary/dictionary.py: Dictionary.__init__"]}
{"id": "C66", "title": "A dictionary is built from every list of disjoint roots", "statement": "Given paradigms of which some are stated to be roots, pairwise disjoint, building the Dictionary succeeds.", "quantifier": "all lists of paradigms and structure tables with disjoint roots", "why_tests_cant": "all inputs", "anchors": ["ieml/dictionary/dictionary.py: Dictionary.__init__", "ieml/dictionary/table/table_structure.py: TableStructure", "ieml/dictionary/relation/relations.py: RelationsGraph"]}
{"id": "C67", "title": "The place of a paradigm among the tables of its root", "statement": "In the tables of a root, the table of a paradigm hangs under the smallest table which accepts it, among the root and the tables with more singular sequences; a paradigm which none of them accepts has no table and is not in the dictionary. A table of two dimensions accepts what has a cell in every row, or in every column, or is a block of at least two rows and two columns evenly spread, and a script is regular exactly when it is one row or one column; an irregular table of two dimensions has no table under it. A table of one dimension accepts the scripts whose cells follow each other. A set of tables accepts the unions of its tables, unless it is itself under a set. The rank follows from the parent: 0 for the root, the rank of a parent which is a set (at least 1), two more when regular, one more otherwise, 6 for a cell.", "quantifier": "all lists of paradigms and structure tables for which the dictionary is built, all pairs of table and script", "why_tests_cant": "a relation between every table of a dictionary and every paradigm", "anchors": ["ieml/dictionary/table/table.py: Table2D.accept_script", "ieml/dictionary/table/table.py: Table1D.accept_script", "ieml/dictionary/table/table.py: TableSet.accept_script", "ieml/dictionary/table/table_structure.py: TableStructure._define_root"]}
{"id": "C68", "title": "The same files give the same dictionary", "statement": "Building the dictionary twice from the same paradigms and the same structure gives dictionaries which answer every question alike: the same scripts in the same order, the same objects of every relation, the same root, table, parent and rank of every script. It does not depend on the order in which Python walks through its sets, which changes from one run to another.", "quantifier": "all lists of paradigms and structure tables, all pairs of orders of the sets of scripts", "why_tests_cant": "the order of a set of objects hashed by their text changes with the seed of the process; a test sees one order", "anchors": ["ieml/dictionary/table/table_structure.py: TableStructure._define_root", "ieml/dictionary/dictionary.py: Dictionary.__init__", "ieml/dictionary/relation/relations.py: RelationsGraph"]}
{"id": "C69", "title": "The cells of the table of a polymorpheme", "statement": "The table of a polymorpheme with no repeated morpheme, whose columns are on one of its groups and whose rows are on another (or on all the others), has a column for each choice of morphemes of the columns and a row for each choice of the rows; the cell where they meet is the polymorpheme with its constants, both choices, and the groups that are in neither. No two cells are equal. When every group is in the rows or in the columns, the cells are the singular sequences of the polymorpheme, each once.", "quantifier": "all polymorphemes, all pairs of groups, all orders of the sets of scripts and of paths", "why_tests_cant": "the cells come from paths rebuilt into USLs for every pair of choices; tests look at one table", "anchors": ["ieml/usl/table.py: UslTable2D.cells, column_paths_variation, row_paths_variation, constant_paths", "ieml/usl/polymorpheme.py: PolyMorpheme._compute_singular_sequences"]}
{"id": "C70", "title": "The order and the headers of the table of a polymorpheme", "statement": "The headers of the rows are in the order of USLs, and so are the cells of each row and of each column. There is one header for each row; its singular sequences are the cells of the row. The same holds of the headers of columns. The table does not depend on the order in which Python walks through its sets.", "quantifier": "all polymorphemes, all pairs of groups, all pairs of orders of the sets", "why_tests_cant": "orders of sets change from one process to another, and headers and cells are computed apart", "anchors": ["ieml/usl/table.py: UslTable2D.columns, rows, cells", "ieml/usl/usl.py: USL.__lt__"]}
{"id": "C71", "title": "Adding a paradigm to a root", "statement": "Adding a morpheme paradigm succeeds exactly when the paradigm is factorised, is not singular, is not in the dictionary and is inside one of its roots. It then has exactly the given translations and comments and no other descriptor, is stated not to be a root and has no other structure; nothing else in the folder changes, and there is one more commit. It is then in the dictionary, whose roots do not change. When it fails, the folder is as before.", "quantifier": "all histories of the folder, all paradigms, all translations and comments, all orders of files and sets", "why_tests_cant": "the plan depends on the dictionary read from the folder, and the writes on what the files hold", "anchors": ["ieml/ieml_database/transactions/DBTransaction.py: DBTransactions.add_morpheme_paradigm", "ieml/ieml_database/ieml_database.py: IEMLDatabase.get_dictionary, add_descriptor, add_structure"]}
{"id": "C72", "title": "Creating a root paradigm", "statement": "Creating a root paradigm succeeds when the paradigm is factorised, is not singular, has no descriptor and shares no singular sequence with the roots; the folder then has the new root and its tables. When it fails, the folder is as before.", "quantifier": "all folders, all paradigms, all inhibitions, translations and comments", "why_tests_cant": "a refusal has to be shown for every folder and every paradigm", "anchors": ["ieml/ieml_database/transactions/DBTransaction.py: DBTransactions.create_root_paradigm", "ieml/dictionary/table/table_structure.py: TableStructure.root"]}
{"id": "C73", "title": "Moving a paradigm", "statement": "Updating a paradigm that is not a root to another one succeeds when both are factorised, the first is in the dictionary, the second is not, and the second is inside a root or disjoint from all of them. The descriptors of the old paradigm become those of the new one, the old one has no descriptor and no structure left, and the new one is stated not to be a root; nothing else changes. A root is only updated to a paradigm that contains it. When it fails, the folder is as before.", "quantifier": "all histories of the folder, all pairs of paradigms, all orders of files and sets", "why_tests_cant": "moving is removing and adding in files that other paradigms share", "anchors": ["ieml/ieml_database/transactions/DBTransaction.py: DBTransactions.update_morpheme_paradigm"]}
{"id": "C74", "title": "Deleting a root", "statement": "Deleting a root succeeds exactly for a factorised script which is a root of the dictionary. The root has no structure left; when asked to, the descriptors of the scripts inside it are removed, and no other descriptor and no other structure changes. The dictionary read afterwards has the other roots, and no other. When it fails, the folder is as before.", "quantifier": "all histories of the folder, all scripts, all orders of files and sets", "why_tests_cant": "which descriptors are removed depends on the dictionary read from the folder", "anchors": ["ieml/ieml_database/transactions/DBTransaction.py: DBTransactions.delete_morpheme_root_paradigm"]}
{"id": "C75", "title": "Deleting a paradigm", "statement": "Deleting a paradigm succeeds exactly for a factorised script of the dictionary which is not singular. It has no descriptor and no structure left, nothing else changes, and it is not in the dictionary read afterwards, whose roots are the same except for the paradigm itself. When it fails, the folder is as before.", "quantifier": "all histories of the folder, all scripts, all orders of files and sets", "why_tests_cant": "removing rewrites files that hold other records", "anchors": ["ieml/ieml_database/transactions/DBTransaction.py: DBTransactions.delete_morpheme_paradigm"]}
{"id": "C76", "title": "Which polymorphemes and lexemes pass their test", "statement": "PolyMorpheme(constant, groups).check() returns when, leaving out the empty scripts, no morpheme is given twice, every morpheme is a singular sequence and every group with a morpheme has a multiplicity between 1 and 3 and at least as many morphemes; it raises ValueError otherwise, and never anything else. check_lexeme asks this of the two polymorphemes of a lexeme. The singular sequences of a polymorpheme which passes the test pass it.", "quantifier": "all lists of morphemes and groups, all orders of sets", "why_tests_cant": "the test sorts, counts and compares lists of any length; unit tests try a few lists", "anchors": ["ieml/usl/polymorpheme.py: check_polymorpheme, PolyMorpheme.__init__, _compute_singular_sequences", "ieml/usl/lexeme.py: check_lexeme, Lexeme.check"]}
{"id": "C77", "title": "Which words pass their test", "statement": "Word.check() of a word made from a list of addressed lexemes, with one of its own addresses as focus, returns exactly when every address of the word which is not a junction has a lexeme and all these lexemes pass their test; it raises ValueError otherwise, and never anything else: the tests of the addresses never fail. The singular sequences of a word which passes the test pass it.", "quantifier": "all lists of addressed lexemes accepted by the parser, all depths of functions, all orders of sets", "why_tests_cant": "the test walks a tree of any depth, and tests every address at every level of it", "anchors": ["ieml/usl/word.py: check_word", "ieml/usl/syntagmatic_function.py: SyntagmaticFunction.check and its overrides", "ieml/usl/constants.py: check_address_script, assert_all_in, assert_only_one_from, assert_atmost_one_from, assert_no_one_from"]}
{"id": "C78", "title": "The list of all described expressions", "statement": "IEMLDatabase.get_list() returns, once each, exactly the expressions which have a descriptor and whose text is read with morphemes of the dictionary only. Each has the values that get_descriptors().get_values gives it, per class of descriptors and language and in that order; it says what kind of expression it is, its grammatical class and whether it is a singular sequence, a paradigm or a root. The list is sorted by key, the morphemes first and in the order of the dictionary, and different expressions have different keys.", "quantifier": "all folders, all dictionaries and descriptors read from them, all orders of files and sets", "why_tests_cant": "the list depends on the whole dictionary and on every descriptor of the folder", "anchors": ["ieml/ieml_database/ieml_database.py: IEMLDatabase.get_list", "ieml/usl/__init__.py: get_index, _polymorph_idx, int2base", "ieml/usl/parser/parser.py: IEMLParser.p_morpheme"]}
{"id": "C79", "title": "A killed transaction is undone or done", "statement": "If the process is killed at any moment of `with db.commit(...)` (between or during the changes of the body, while staging, between the index, the objects of the commit and HEAD, or during the roll back), opening the folder again gives a folder with nothing to commit, which is either as before the transaction (same HEAD, same visible files) or has the whole transaction as its last commit. Until it is opened again no transaction starts, unless it is in one of these two states.", "quantifier": "all folders with nothing to commit, all bodies, all moments of the kill and all contents of the file being written", "why_tests_cant": "the moments of a kill, and the states of half written files, cannot be enumerated by tests", "anchors": ["ieml/ieml_database/git_interface.py: git_transaction.__enter__, git_transaction.__exit__, GitInterface.reset, GitInterface.checkout, GitInterface.__init__"]}
{"id": "C80", "title": "Schedules of several users of one folder", "statement": "Whatever the order in which users of one folder enter, change files, return, raise, are killed or open the folder: commits are only added, each on top of the HEAD of the moment and with the visible files of the folder, and HEAD is always a commit; nobody enters while visible changes are not committed. When nobody else is inside a transaction at the moment one commits, every transaction which returns is committed and every commit stays in the history of HEAD.", "quantifier": "all numbers of users, all interleavings of their steps of any length, all changes, exceptions and kills", "why_tests_cant": "the interleavings are unbounded and are not under the control of a test", "anchors": ["ieml/ieml_database/git_interface.py: git_transaction, GitInterface.reset"]}
{"id": "C81", "title": "A committed transaction is not undone by another user", "statement": "In every schedule, a transaction which returns is committed with its own changes only and stays in the history of HEAD.", "quantifier": "all interleavings of the steps of several users of one folder", "why_tests_cant": "needs every interleaving", "anchors": ["ieml/ieml_database/git_interface.py: git_transaction.__enter__, git_transaction.__exit__"]}
{"id": "C82", "title": "Order of expressions", "statement": "`<` between words is irreflexive, asymmetric and transitive; it raises in both directions or in none, exactly when at the first role where the two words differ only one of them has a lexeme; otherwise, of two words whose focus is a lexeme, either they are == or exactly one is smaller. Between USLs of all kinds, polymorphemes are smaller than lexemes, and these than words, so that a list of USLs is sorted in one way only.", "quantifier": "all words built from addressed lexemes, all polymorphemes and lexemes, all scripts, with or without decorations", "why_tests_cant": "orders are laws on all pairs and triples of unbounded trees", "anchors": ["ieml/usl/usl.py: USL.__lt__, USL.__eq__", "ieml/usl/word.py: Word.do_lt", "ieml/usl/syntagmatic_function.py: SyntagmaticFunction.__lt__, __eq__", "ieml/dictionary/script/script.py: Script.__lt__", "ieml/usl/decoration/instance.py: InstancedUSL"]}
{"id": "C83", "title": "`in`, len and singular sequences of expressions", "statement": "`a in b` says that every singular sequence of a is one of b: it is reflexive and transitive, grows with len, and does not depend on the order of Python sets. No expression has the same singular sequence twice, each is its own only singular sequence, is in the expression and of its kind. A word is in another exactly when they have the same focus and addresses and each lexeme is in the lexeme at the same address; a lexeme exactly when its flexion and content are in those of the other. Only a word with an address without lexeme makes `in` or len raise.", "quantifier": "all polymorphemes, lexemes and words whose focus is a lexeme; all orders of sets", "why_tests_cant": "set inclusion over products of unbounded size, for all pairs and triples of expressions and all set orders", "anchors": ["ieml/usl/usl.py: USL.__contains__, __len__, cardinal, singular_sequences_set, is_singular", "ieml/dictionary/script/script.py: Script.__contains__, __eq__", "ieml/usl/word.py: _compute_singular_sequences", "ieml/usl/lexeme.py: _compute_singular_sequences"]}
{"id": "C84", "title": "Lookups with a partial key, and get_descriptor", "statement": "get_values_partial lists, once each and in the order of the keys, exactly the keys having the given parts and at least one value, with all the values of each in the order of the table; it raises exactly on an unknown language or class and on a key without any part. get_descriptor gives every class and language with the values get_values gives, raising exactly when the expression has a row of an unknown class; after any history of calls it is the table of the multimap. The same of the structure, also where Structure.get_values raises.", "quantifier": "all tables, all partial keys, all histories of calls and orders of files", "why_tests_cant": "every table and every subset of the parts of the key, and unbounded histories", "anchors": ["ieml/ieml_database/descriptors.py: Descriptors.get_values_partial, get_descriptor, from_csv_string", "ieml/ieml_database/ieml_database.py: Structure.get_values_partial"]}
{"id": "C85", "title": "IEMLDatabase.list lists what is described", "statement": "After any history of calls, list(type, paradigm) has once each expression which has a descriptor, is of the class asked for and, if asked, is or is not a paradigm, and nothing else; without the directory of the class it raises FileNotFoundError. With parse=True the texts which raise CannotParse are left out, in order, and any other exception goes through.", "quantifier": "all histories of calls, types, orders of files and digests without collision between the expressions named", "why_tests_cant": "unbounded histories over a pipeline of find, cat, cut and uniq", "anchors": ["ieml/ieml_database/ieml_database.py: IEMLDatabase.list, path_of"]}
{"id": "C86", "title": "enumerate_partitions lists the selections of variable parts", "statement": "For every USL, enumerate_partitions gives exactly the sets of variable parts none of which is inside another, each set once, and the number of the smallest parts. It answers for every usable expression in which no lexeme is missing, and raises AttributeError for the others.", "quantifier": "all USLs and orders of sets", "why_tests_cant": "the number of selections is exponential in the parts; the two tests of the library fix one word each", "anchors": ["ieml/usl/table.py: enumerate_partitions", "ieml/test/test_variations.py"]}
{"id": "C87", "title": "simplify_word removes exactly the empty leaves", "statement": "For every word: simplify_word raises TypeError if its function is a junction, IndexError if a lexeme which is not empty or the focus is in a junction, ValueError for a process of empty lexemes with the focus on an actant; otherwise it gives a word of the parser with the same focus and context, whose addresses are, in the same order and with the same lexemes, those above the focus or above a lexeme which is not empty. No lexeme is lost or moved, no empty leaf is left but at the focus, and a second time changes nothing.", "quantifier": "all words made from addressed lexemes", "why_tests_cant": "all trees of lexemes with any nesting of qualities, junctions and any focus; the library has no test of it and scripts/database_management/normalize_database.py migrates the descriptors to its result", "anchors": ["ieml/usl/word.py: simplify_word", "ieml/usl/syntagmatic_function.py: _from_list", "scripts/database_management/normalize_database.py"]}
{"id": "C88", "title": "The difference of two commits shows exactly the changed records", "statement": "Between any two commits, GitInterface.diff has one entry for each file of text whose text changed, saying whether it is new or removed, and taking its deleted lines out of the old version and putting its added lines in, in order, gives the new version. Between two commits of the database it never raises; it has an entry for a file exactly when the records of its expression changed, under that expression, and the deleted and added lines read as the records taken away and put in.", "quantifier": "all repositories and pairs of commits, all histories of calls on the database, all alignments and hunks git may choose, all orders of the files", "why_tests_cant": "no test calls it; the alignment is chosen by libgit2 and the expression is cut out of the last line shown, whichever it is", "anchors": ["ieml/ieml_database/git_interface.py: GitInterface.diff"]}
{"id": "C89", "title": "The table of a lexeme shows every flexion with every content", "statement": "With the flexion of a lexeme in the columns and its content in the rows (named, or left to what is not in the columns), UslTable2D has a column for each singular sequence of the flexion and a row for each choice in the groups of the content; the cell where they meet is the lexeme with that flexion and the constants and the choice as content. Cells are distinct, in the order of USLs, and the same whatever the order of sets; the header of a row has the whole flexion and the content of the row, and the row is its paradigm; the cells are the singular sequences of the lexeme.", "quantifier": "all lexemes that the paths of their morphemes determine without repeated morphemes in the content, all orders of sets of scripts and paths", "why_tests_cant": "the cells are rebuilt from paths, through dictionaries of morphemes and products of sets; the tests print tables of some lexemes without checking them", "anchors": ["ieml/usl/table.py: UslTable2D", "ieml/usl/decoration/path.py", "ieml/usl/decoration/path.py: usl_from_path_values"]}
{"id": "C90", "title": "The table of a word shows every flexion of an actor with every content of an actor", "statement": "With the flexion of one actor of a word in the columns and the content of an actor (the same or another) in the rows, UslTable2D never raises; it has a column for each singular sequence of the flexion and a row for each choice in the groups of the content, and the cell where they meet is the word with that flexion for the one actor, the constants and the choice as content of the other, and every other flexion and content, the focus and the context unchanged. No two cells are equal; the header of a row is the word with its choice and the whole flexion. When the word has no other groups, its cells are its singular sequences.", "quantifier": "all words whose actors have lexemes their paths determine, all pairs of actors, all orders of sets of scripts and of paths, all orders of words", "why_tests_cant": "tests show tables of a few words and check no cell; the constants of the other actors go through path texts, sets and a dictionary of bins which can lose or merge them", "anchors": ["ieml/usl/table.py: UslTable2D", "ieml/usl/decoration/path.py: usl_from_path_values"]}
{"id": "C91", "title": "Renaming the entries of a database keeps their descriptors", "statement": "normalize_database.py gives every described expression whose text is not the wanted one (its normal form, simplified if it is a word) the wanted text: afterwards the values of the expression are found under the new text, after those it had, in every language and class, and the structure likewise; every other entry is unchanged. factorize_db.py moves the scripts it is given in the same way.", "quantifier": "all folders written by any sequence of additions and removals under texts kept as given, all parsers and plans of new texts, all orders of files", "why_tests_cant": "there is no test of the scripts; what they lose depends on which texts are normal forms and on which entries share one, and is seen only after the commit", "anchors": ["scripts/database_management/normalize_database.py: 37-107", "scripts/factorize_db.py: 28-54", "ieml/ieml_database/ieml_database.py: remove_descriptor, remove_structure, path_of"]}
{"id": "C92", "title": "Rewriting a word removes the listed flexions and nothing else", "statement": "rewrite_word of scripts/database_management/rewrite_words.py gives a word with the same focus, whose lexemes are those of the word without the flexions listed for the kind of function at their address (infinitive, optative and active of a process, singular and indefinite of an actant or a dependant quality), every lexeme which is not empty being kept; a second time changes nothing.", "quantifier": "all words the parser can make", "why_tests_cant": "there is no test of the script; the outcome depends on the shape of the tree of functions, on junctions and on groups, which the words at hand do not cover", "anchors": ["scripts/database_management/rewrite_words.py: 20-44", "ieml/usl/syntagmatic_function.py: _from_list"]}
{"id": "C93", "title": "The descriptors of a list of files are those of the files listed", "statement": "IEMLDatabase.get_descriptors(files_list) reads the files of the list, each once and no other: after any history of calls, given the paths of some expressions it gives exactly the records of these expressions.", "quantifier": "all lists of file names, all histories of calls, all expressions", "why_tests_cant": "no test gives a list; the names go through two programs with their own escapes, so that only some names are changed on the way", "anchors": ["ieml/ieml_database/ieml_database.py: get_descriptors 194-212, path_of 118-147"]}

# Design of the formal model of IEMLdev/ieml

## Method

The Python code is modelled as total, computable Gallina functions in
`rocq/theories`, one definition per function, branch by branch.

* Exceptions are values: `res A := Ok a | Err e`, with one constructor per exception the code can raise.
* Loops are structural recursions or folds. A search whose termination is not
  structural takes fuel; running out of fuel is a separate error value that the
  theorems exclude or show impossible.
* Non determinism (iteration order of `set`/`dict`, hash functions, files
  written by git) is a parameter of the function, universally quantified in the
  theorems (for instance: *for every permutation function*).
* Only Coq's standard library is used; no axiom is used or added.

Files: `*Model.v` (or the plain name) hold definitions only, each citing
`file:lines` of /repo; `*Spec.v` hold the small independent specifications;
`*Proofs.v` hold lemmas; `Properties*.v` hold the property theorems, each with
`Print Assumptions` and a concrete instance beside it.

## Properties and plan

| id | what is modelled | how it is proved |
|----|------------------|------------------|
| C01 | `Script.__lt__` and the attributes it reads | induction on scripts; comparison function shown antisymmetric, transitive; equality case through printing injectivity |
| C02 | `_do_precompute_str` of the three classes | through C03: parse is a left inverse of str on normal forms |
| C03, C13 | lexer, grammar (executable parser and derivation relation) | induction on scripts over the parser's stack; soundness and completeness of the executable parser |
| C04 | `AdditiveScript.__init__` with an arbitrary order of the set | uniqueness of sorted lists for a total order |
| C05, C06, C14 | the constructors | invariant `wf` preserved by every constructor |
| C07, C08, C09 | `_compute_singular_sequences`, `__contains__` | equality with a denotation (sets of singular trees); refutation for overlapping sums |
| C10, C11 | `factor`, `pack_factorisation`, `factorize` | induction on fuel, set orders as parameters; refutation of totality by a five element cube |
| C62 | the same, run with two set orders | refutation by computation; independence of the order at layer at most 1 |
| C12 | `promote` | induction on the number of layers |
| C15, C16 | `_build_tables`, `_compute_cells`, headers and table scripts (`Tables.v`), empty cells as `None` | every table is related by induction to an array of words; then counting of words. Overlapping sums refuted |
| C20, C21, C22 | `polymorpheme.py` | permutations of lists, counting; `C22_exceeded` characterises the groups whose multiplicity is exceeded |
| C23, C25 | printing and the USL parser | parser on tokens, round trip; which texts are read as expressions that are read back, and their characters (`Properties44.v`) |
| C24, C28 | `_compute_singular_sequences` of lexeme, word | product of lists; `C24_exact` says for which lexemes the product claim holds, and `C24_single` which polymorphemes with groups have one singular sequence; `C28_exact` the same for words, `C83_lexemes_exact` for `in` |
| C26, C27, C29 | `SyntagmaticRole`, `from_list`, `as_list` | induction on function trees |
| C30-C33 | `decoration/path.py` | induction on paths / structures |
| C34, C60, C61 | `LiteralContext`, `InstancedUSL` as a heap of literal cells over arbitrary object identities (`Instance.v`) | invariant on the heap, exceptions at any point; threads refuted |
| C35 | `int2base` | arithmetic on N |
| C36 | `LastUpdatedOrderedDict` | fold over assignments |
| C40-C44, C48 | descriptor files as lists of lines, `normalize_key`, `escape_value`, CSV reader | refinement to a multimap, induction over histories; only the texts named in a history matter to the parser (`RestrictProofs.v`), so the theorems hold of the parser of USLs itself (`Properties44.v`, with C23) |
| C45, C46 | git as an abstract store (trees, commits, index) | all bodies, all exceptions |
| C47 | `FolderWatcherCache` | induction over histories of edits and calls |
| C57, C58 | `IEMLParser`: lexer as a function on characters, recursive descent for the LALR grammar, actions | equivalence with an inductive grammar (`UslGrammar.v`) |
| C59 | `UslPath.concat`, `deference` | induction on the first path; concatenation is an attachment of trees |
| C50-C56, C63-C68 | `Dictionary.__init__`, `TableStructure`, `Table*`, `RelationsGraph` (`Dictionary.v`): matrices as lists of pairs of indices | invariant of loading (`DictLoadProofs.v`), invariant of a tree of tables (`DictTableProofs.v`), one characterisation per relation (`DictRelProofs.v`, `DictSibProofs.v`, `DictTopProofs.v`) against `DictionarySpec.v`; acceptance as a property of sets of coordinates (`DictAcceptProofs.v`), choice of the parent by the order of insertion (`DictParentProofs.v`), exchange of neighbours in the queue of paradigms and relations as sets of pairs for the order of sets (`DictDetProofs.v`), totality of each step from the invariant of the previous one and a bound of ranks by depth (`DictBuildProofs.v`) |
| C69, C70 | `UslTable2D` (`UslTable.v`, ieml/usl/table.py without `enumerate_partitions`) of polymorphemes | the USL rebuilt from a set of paths is determined by the morphemes at each place (`UslTableProofs.v`, on the lemmas of C33); adding the same morphemes to two choices keeps their order (`UslTableOrderProofs.v`); choices as functions from groups to at most one morpheme for the exactness (`UslTableSsProofs.v`); specification in `UslTableSpec.v` |
| C71–C75 | the five transactions on paradigms (`Paradigms.v`, DBTransaction.py 75-286) on the folders of C40 and the dictionaries of C49 | the folder is the multimap of C40, the dictionary read from it is described by the records of the multimap (`ParadigmsDictProofs.v`), each transaction is a list of operations whose effect on the multimap is computed (`ParadigmsStepProofs.v`, `ParadigmsUpdateProofs.v`); `Properties22.v` holds the cases and the refutations |
| C76–C77 | `check_polymorpheme`, `check_lexeme` (`Usl.v`), the tests of addresses, functions and words (`Check.v`) | sortedness of what the constructor builds follows from the orders of C20; the words by induction on functions, every address being made of qualities and junctions with at most one independant quality |
| C78 | `get_list` (`Listing.v`, ieml_database.py 226-260), `get_index`, the parser with a dictionary | invariant of the loop over the sorted rows (`ListingProofs.v`); the sort keeps the order of equal keys; specification in `ListingSpec.v`; what the code does of texts with decorations is any function with the text, type and key it gives (`decorated_ok`) |
| C79–C81 | a transaction killed at any moment, and events of several users of one folder (`Schedule.v`, git_interface.py 53-166) | what each kill leaves is an inductive relation; invariants of one event lifted to all schedules (`ScheduleProofs.v`); specification in `ScheduleSpec.v`; witnesses for C81 |
| C82 | `<` of words, of functions and of expressions of all kinds (`UslOrder.v`, usl.py 32-41, word.py 80-82, syntagmatic_function.py 57-65) | completed to a total order on lists of pairs, with which every answer agrees; the text of a word determines its pairs and its focus (`UslOrderProofs.v`); what two words hold at each role in `UslOrderSpec.v` |
| C83 | `in`, `len`, `is_singular` and singular sequences of expressions (`Member.v`, usl.py 43-58, 78-101, script.py 156-166) | texts of the sequences as sets without repetition; two words have the same text exactly when they have the same focus, context and rows in any order (`MemberProofs.v`), so containment of words is containment address by address |
| C84 | `get_values_partial`, `get_descriptor`, `Structure.get_values_partial` (`Query.v`, descriptors.py 84-107, ieml_database.py 62-75) | grouping the sorted rows by key lists each key once, in order (`QueryProofs.v`); the loop of `get_descriptor` as one update per row group; the histories by C40 and C44 |
| C85 | `IEMLDatabase.list` (`Query.v`, ieml_database.py 149-176) on the layout of `DatabasePath.v` | the lines of one file are adjacent, so that `uniq` leaves one; the files below a directory are those of the class and number (`ContentProofs.v`); a history depends on the parser only through the texts it names (`RestrictProofs.v`), so that digests need only be distinct among these |
| C86 | `enumerate_partitions` (`Partitions.v`, table.py 194-219) | the tree of paths is transported to a tree of texts, whose selections are shown to be the antichains of its nodes, each once, and whose leaves are its maximal nodes (`PartitionsProofs.v`) |
| C87 | `simplify_word` (`Simplify.v`, word.py 26-42) | the kept entries are those of an explicitly pruned function (`SimplifyProofs.v`), which `_from_list` gives back (C25); addresses through junctions make `_from_list` raise |
| C88 | `GitInterface.diff` (`Diff.v`, git_interface.py 401-429) | what libgit2 answers is a relation (any alignment of the lines, any hunks); counted on the alignment (`DiffProofs.v`), then on the records of the files of a history (C40, C43); specification in `DiffSpec.v` |
| C89 | the tables of lexemes (`UslTable.v`, same model), flexion in the columns and content in the rows | the lexeme rebuilt from paths is determined by its morphemes (`LexBuildProofs.v`); columns, rows and cells step by step (`LexTableProofs.v`); order and singular sequences (`LexTableSsProofs.v`); specification in `LexTableSpec.v` |
| C90 | the tables of words (`UslTable.v`, same model), flexion of an actor in the columns and content of an actor in the rows | a word is determined by the lists of morphemes of its roles (`WordBuildProofs.v`), a lexeme with a part of its lists replaced by those lists (`LexPartProofs.v`); columns, rows and cells step by step (`WordTableProofs.v`); cells as words, distinct (`WordTableSsProofs.v`), and the singular sequences of the word (`WordTableExactProofs.v`, `Properties37.v`); the same with the rows not named (section Unnamed of `WordTableProofs.v`, `Properties39.v`); specification in `WordTableSpec.v` |
| C91 | the scripts that rename entries, `normalize_database.py` 37-107 and `factorize_db.py` 28-54 (`Migrate.v`) | a folder with unnormalised texts is written by a parser that keeps texts as they are (`verbatim`), so that the refinement of C40 applies to it and every call of the script, with the real parser, is a call under the normal form; copies and removals one after the other (`MigrateProofs.v`, `Properties40.v`); specification in `MigrateSpec.v`. The clone, the commit, printing and the questions to the user are left out |
| C92 | `rewrite_word` of `scripts/database_management/rewrite_words.py` 20-44 (`Rewrite.v`) | the function with other lexemes at its addresses (`relabel`), the class of the function at an address is determined by the last script of the address (`RewriteProofs.v`); with the addresses of C87 (`Properties41.v`); specification in `RewriteSpec.v` |
| C93 | `get_descriptors(files_list)` (`FilesList.v`, ieml_database.py 194-212), with `echo -ne` and `xargs -0 cat` of GNU | the length of what is printed counts the digits taken into separators, hence exactly which lists arrive (`FilesListProofs.v`); the records by C40 in the layout of C43 (`Properties42.v`, `Properties43.v`); specification in `FilesListSpec.v` |

## Trusted base

* The kernel of Coq 8.16.1, and `coqchk` when the compiled files are checked again.
* Assumptions: `Print Assumptions` stands under every property theorem and answers
  `Closed under the global context` for each of them. No axiom of the standard library is used by
  a theorem. (`coqchk -o` also lists `Coq.ssr.ssrunder.Under_rel.*`: these are fields of a module
  type of the standard library that is loaded with it; no theorem depends on them.)
* No axiom, `Variable` outside a section, functor or module type is declared. Parameters such as the
  order of a set are arguments of the functions and are quantified in the statements.
* The reading of Python by the model: that each definition does what the cited lines do. Nothing was
  run; the code was read as text. This is the main part of the trusted base.
* PLY, pygit2, pandas, numpy, the file system and the shell are modelled by what the code relies on,
  in the comments of the definitions which stand for them:
  * PLY: the lexer tries the rules in the order of the functions and skips illegal characters; the
    LALR automaton accepts the grammar of the docstrings. `ScriptGrammar.v` and `UslGrammar.v` state
    this grammar as relations, and the executable parsers are proved to agree with them (C03, C13, C57, C58).
  * pygit2: whole trees, commits, index and working directory, with files as texts (`Git.v`, `Pull.v`).
  * pandas: `read_csv` of the four-column files with a blank as separator, with missing values and
    quoting (`Database.v`).
  * GNU `echo`, `xargs` and `cat`: escapes, separators and missing files (`FilesList.v`); what `cat` does
    with an argument that begins with a dash is a parameter.
  * numpy and scipy: matrices are lists of pairs of indices or lists of lists (`Dictionary.v`, `Tables.v`).

### Simplifications that hold everywhere

* A `str` is a sequence of 8-bit characters; U+2019 is one of them. Unicode normalisation does not occur in the code.
* Integers are natural numbers (`nat` or `N`): negative multiplicities and indices are outside the model.
* Caches of computed attributes (`_str`, `_singular_sequences`, `_relations`, ...) are left out, since what they
  hold is a function of immutable arguments; the exceptions are `FolderWatcherCache` (C47) and `LiteralContext` (C34), which are modelled with their state.
* The type tests of constructors are left out where the arguments of the model are typed; the comments say so.
* Recursion limits, memory and time are not modelled.

## What is modelled

| /repo | model |
|-------|-------|
| `ieml/constants.py` | the constants, in the file which uses them |
| `ieml/commons.py` | `Commons.v` (`LastUpdatedOrderedDict`), `Cache.v` (`FolderWatcherCache`, `cache_results_watch_files`), `Instance.v` (`LiteralContext`, `DecoratedComponent`) |
| `ieml/dictionary/script/script.py`, `operator.py` | `Script.v`, `Tables.v` |
| `ieml/dictionary/script/parser/*` | `ScriptParser.v` |
| `ieml/dictionary/script/tools.py` | `Factor.v` |
| `ieml/dictionary/dictionary.py`, `table/*`, `relation/*` | `Dictionary.v` |
| `ieml/ieml_database/descriptors.py`, `ieml_database.py` | `Database.v`, `DatabasePath.v`, `Paradigms.v`, `Listing.v`, `Query.v`, `FilesList.v` |
| `ieml/usl/__init__.py` | `Commons.v` (`int2base`), `Listing.v` |
| `ieml/ieml_database/git_interface.py` | `Git.v`, `Pull.v`, `Diff.v` |
| `ieml/ieml_database/transactions/DBTransaction.py` | `Transactions.v`, `Paradigms.v` |
| `ieml/usl/polymorpheme.py`, `lexeme.py`, `usl.py` | `Usl.v`, `UslOrder.v`, `Member.v` |
| `ieml/usl/syntagmatic_function.py`, `word.py` | `Sfun.v`, `Check.v`, `UslOrder.v`, `Simplify.v` |
| `ieml/usl/parser/*` | `UslParser.v` |
| `ieml/usl/decoration/path.py`, `decoration/parser/*` | `Path.v` |
| `ieml/usl/decoration/instance.py` | `Instance.v` |
| `ieml/usl/table.py` | `UslTable.v`, `Partitions.v` |
| `ieml/usl/constants.py` 408-504 | `Check.v` |

## What is not modelled

* `ieml/usl/distance/*`: imports modules that do not exist, cannot be loaded. `ieml/usl/phrase.py`: unused.
* `ieml/usl/variation.py`: the class is imported and not used by the modelled code.
* `ieml/usl/constants.py` 461-488 and 506-585: the tests of flexions by grammatical class, whose only call is commented out (`lexeme.py` 17-19).
* `DBTransactions.update_all_ieml` (355-371), a migration which calls methods with other arguments than they have.
* `ieml/tools.py`, `scripts/*` but for what C91 and C92 cover, the exceptions' messages, logging, documentation and notebooks.
* Network access and credentials of git. Concurrent processes are modelled on the files of one git folder (`Schedule.v`), a step of one process being a change of files, an entry or an exit as a whole; not on the cache folder.

## Findings

The statements below are properties a user would expect, which the model refutes by a concrete
input. Each is a theorem (`..._refuted`), beside the part of the property which is proved.

| theorem | what happens |
|---------|--------------|
| `C01_one_term_sums_refuted` | `wo.+wo.` is a sum of one term: it is `==` to `wo.` and ordered differently |
| `C08_len_overcounts_overlapping_sums_refuted` | `len` counts twice a singular sequence of two terms of a sum |
| `C10_refuted, C11_refuted` | `factorize` can lose a script, and can raise KeyError (five corners of a cube) |
| `C62_refuted` | `factorize` depends on the iteration order of sets, so that the assertion `factorize(s) == s` of the transactions can hold in one run and fail in another |
| `C15_refuted, C16_refuted` | with overlapping terms cells are empty, headers and cells disagree, or KeyError |
| `C17_sum_associative_refuted, C17_exceptions_refuted` | the sum of scripts is not associative for one-term sums, and the exceptions depend on the order |
| `C22_multiplicity_refuted` | more morphemes than the multiplicity of a group are taken in a singular sequence |
| `C22_no_morpheme_refuted` | a polymorpheme has a singular sequence without morpheme |
| `C23_*_refuted` | texts printed by USLs which their parser refuses or reads as something else |
| `C24_product_refuted, C28_product_refuted` | a USL with one singular sequence is taken as singular although it still has groups |
| `C27_order_refuted` | whether a list of addressed lexemes is accepted depends on its order |
| `C28_missing_lexeme_refuted, C29_*_refuted, C57_cannot_parse_refuted` | AttributeError, IndexError and UnboundLocalError instead of an error of the parser |
| `C30_*, C31_*, C32_*, C33_*_refuted` | paths which are printed and not read, designate another element, or do not rebuild the USL |
| `C34_threads_refuted, C60_refuted` | decorations leak between threads, and between the places of one morpheme |
| `C40_structure_get_values_refuted, C49_unique_keys_refuted, C73_accepts_refuted` | reading one key of the structure raises unless some key has two values |
| `C41_*, C42_*, C44_*, C48_*_refuted` | descriptors with quotes, line breaks, carriage returns, `None` or an empty text are lost, changed, or block every update |
| `C43_slash_refuted` | an expression with `/` has no file |
| `C46_*_refuted` | `pull` raises NameError or UnboundLocalError on two kinds of conflicts |
| `C47_*_refuted` | a stale cached result is returned |
| `C50, C51, C55, C56, C64, C65, C66, C67_*_refuted` | scripts without table or silently left out, wrong index, relations that differ from their definition, dictionaries which cannot be built |
| `C68_twin_paradigms_refuted` | the same files give two dictionaries, depending on the order of a set |
| `C69_*, C70_column_headers_refuted` | cells of a table of a polymorpheme which are no singular sequence; wrong headers of columns |
| `C71_*, C74_*, C75_*_refuted` | accepted and committed transactions after which no dictionary can be read, or which do not show; a paradigm which cannot be deleted |
| `C72` | `create_root_paradigm` never succeeds: it raises for every folder and every script (`C72_create_never`) |
| `C76_*, C77_same_text_refuted` | `Lexeme.check()` tests nothing, the parser tests nothing, and equal words can be judged differently |
| `C78_words_refuted`, `C78_a_described_word_breaks_the_list` | `get_list()` raises KeyError as soon as a word is described, since the grammatical class of a word is a script |
| `C78_types_refuted` | `get_list()` shows a lexeme with the type 'word': `get_index` and `TYPES` number words and lexemes differently |
| `C78_keys_refuted`, `C78_groups_refuted` | the key of a polymorpheme leaves out its groups, and one which has only groups raises KeyError |
| `C81_*_refuted` | two users can be inside a transaction of one folder: the one who raises, or who returns with changes after the other has committed, resets HEAD to where it entered, so that the commit of the other is dropped; a commit takes the half made changes of the other |
| `C82_*_refuted` | comparing two words raises when one has a lexeme where the other has a junction or nothing, so that a list of words cannot be sorted; two `==` words with `<`; a script and a USL are compared in one direction only; a decorated USL is smaller than nothing |
| `C83_*_refuted` | two different expressions each in the other; an expression without singular sequence is in every other one, even of another kind; a script is in the polymorpheme of the same text but not conversely |
| `C84_*_refuted` | `get_values_partial(None)` raises KeyError instead of listing all; an empty language is accepted and selects nothing; the expression is not normalised |
| `C85_*_refuted` | `list('word')` on a database without words raises FileNotFoundError; `list(paradigm=True)` ignores its argument |
| `C86_*_refuted` | the selections of `enumerate_partitions` include the empty one, and the number of dimensions of a word is one too large, since the path `>` of the word is counted: the library's own test (`test_variations.py` 13-16) waits for 1 and the model gives 2 |
| `C87_*_refuted` | `simplify_word` raises IndexError or TypeError for every word with a lexeme in a junction, and ValueError for a process of empty lexemes with the focus on an actant; with the focus on an empty junction it gives a word with `None`, which the parser refuses |
| `C88_*_refuted` | `GitInterface.diff` raises IndexError for any changed file of text without quotes, and for a descriptor file without final line feed; files with a zero are not shown; an expression with a literal is cut at its first quote |
| `C89_*_refuted` | the table of a lexeme with its content in the columns raises KeyError when the flexion has a constant and a group; headers of columns have the morphemes of every row; a group beside five constants of a flexion is shown nowhere |
| `C90_other_groups_refuted` | the cells of a table of a word with groups beside the two axes are not singular sequences |
| `C90_unnamed_rows_refuted` | a table of a word without named rows raises KeyError when the flexion of another actor has a group |
| `C90_column_headers_refuted` | the headers of columns of a table of a word have every morpheme of the rows as a constant |
| `C91_fails_refuted` | `normalize_database.py` raises on a database without structure, and when a value of a renamed entry is a text such as `null`, which pandas reads as missing |
| `C91_unnormalised_refuted` | `normalize_database.py` leaves an entry whose text is no normal form where it is, and removes everything under its normal form, the copy included: `normalize=False` comes after the key is normalised |
| `C92_groups_refuted`, `C92_idempotent_refuted` | `rewrite_word` drops the groups of every flexion, so that a paradigm becomes a singular word; a lexeme of which nothing is left is left out only when the script is run again |
| `C93_relative_folder_refuted`, `C93_digit_refuted` | `get_descriptors(files_list)` finds none of the paths of the library in a database opened with a relative folder; a name which begins with a digit 0-7 is glued to the one before it |

{
 "claims": [
  {
   "property": "C01",
   "status": "proved",
   "theorems": [
    "C01_order_is_strict_and_total",
    "C01_order_respects_equality",
    "C01_one_term_sums_refuted"
   ],
   "note": "Total order on every constructible script that is not a one-term sum; the refuted theorem shows that restriction is necessary."
  },
  {
   "property": "C02",
   "status": "proved",
   "theorems": [
    "C02_string_identifies_script",
    "C02_equal_scripts_have_equal_attributes"
   ],
   "note": "For every constructible script."
  },
  {
   "property": "C03",
   "status": "proved",
   "theorems": [
    "C03_parse_of_printed_script"
   ],
   "note": "For every constructible script and every set order."
  },
  {
   "property": "C04",
   "status": "proved",
   "theorems": [
    "C04_sum_ignores_set_order",
    "C04_sum_ignores_order_and_repetition",
    "C04_sum_commutative",
    "C04_sum_idempotent"
   ],
   "note": "Exceptions included (same_result)."
  },
  {
   "property": "C05",
   "status": "proved",
   "theorems": [
    "C05_multiplications_are_canonical",
    "C05_sums_are_canonical",
    "C05_multiplication_outcome",
    "C05_multiplication_meaning",
    "C05_sum_meaning",
    "C05_sum_outcome"
   ],
   "note": "Shape of every constructible script, and exact outcome (success or exception) of both constructors."
  },
  {
   "property": "C06",
   "status": "proved",
   "theorems": [
    "C06_len_is_number_of_singular_sequences"
   ],
   "note": ""
  },
  {
   "property": "C07",
   "status": "proved",
   "theorems": [
    "C07_singular_sequences_are_the_words",
    "C07_word_identifies_singular_script",
    "C07_sequences_of_a_sum",
    "C07_sequences_of_a_multiplication"
   ],
   "note": "Stated against the denotation `means` (words of letters) and as the equations for sums and multiplications."
  },
  {
   "property": "C08",
   "status": "proved",
   "theorems": [
    "C08_singular_sequences_are_sorted",
    "C08_len_overcounts_overlapping_sums_refuted"
   ],
   "note": "The refuted theorem is the counter-example named in the property (overlapping sums are over-counted)."
  },
  {
   "property": "C09",
   "status": "proved",
   "theorems": [
    "C09_in_is_inclusion",
    "C09_in_is_a_preorder"
   ],
   "note": ""
  },
  {
   "property": "C10",
   "status": "partial",
   "theorems": [
    "C10_script",
    "C10_singular_sequences",
    "C10_list_partial",
    "C10_refuted"
   ],
   "note": "Proved for every script and every iteration order of sets (C10_script, C10_singular_sequences). For lists it is proved when no element is a one-term sum (C10_list_partial); with one a singular sequence can be lost (C10_refuted)."
  },
  {
   "property": "C11",
   "status": "partial",
   "theorems": [
    "C11_refuted",
    "C11_refuted_one_term_sum",
    "C11_outcome_partial",
    "C11_list_outcome_partial",
    "C11_easy_partial",
    "C11_easy_list_partial",
    "C11_empty"
   ],
   "note": "Refuted: KeyError on a script of layer 1 with five singular sequences; IndexError on lists with a one-term sum. Proved: termination, KeyError is the only exception for scripts and for lists of regular scripts up to 360 sequences, and a script is returned for flat sets and products of them."
  },
  {
   "property": "C12",
   "status": "proved",
   "theorems": [
    "C12_promote",
    "C12_promote_low_and_high",
    "C12_promote_composes"
   ],
   "note": "Also the IndexError above layer 6."
  },
  {
   "property": "C13",
   "status": "proved",
   "theorems": [
    "C13_parser_follows_the_grammar",
    "C13_grammar_is_unambiguous",
    "C13_parser_is_deterministic",
    "C13_parser_normalises",
    "C13_errors"
   ],
   "note": "Grammar as an inductive derivation relation (ScriptGrammar.v)."
  },
  {
   "property": "C14",
   "status": "proved",
   "theorems": [
    "C14_class_is_the_largest_class_of_the_words",
    "C14_class_formulas",
    "C14_class_of_singular_sequences"
   ],
   "note": ""
  },
  {
   "property": "C15",
   "status": "partial",
   "theorems": [
    "C15_every_singular_sequence_is_shown",
    "C15_exactly_once_partial",
    "C15_outcome_partial",
    "C15_coordinates_partial",
    "C15_refuted"
   ],
   "note": "Every singular sequence is shown and every non-empty cell is one, for all scripts. Exactly once, at its coordinates, and the ValueError of more than 12 headers: when no sum in the script has overlapping terms. With overlapping terms cells can be empty and KeyError can be raised (C15_refuted)."
  },
  {
   "property": "C16",
   "status": "partial",
   "theorems": [
    "C16_headers_partial",
    "C16_refuted"
   ],
   "note": "For scripts without overlapping sums; C16_refuted shows a row of empty cells under a header when terms overlap."
  },
  {
   "property": "C17",
   "status": "partial",
   "theorems": [
    "C17_sum_associative_partial",
    "C17_sum_associative_refuted",
    "C17_exact",
    "C17_distinct",
    "C17_exceptions_refuted"
   ],
   "note": "False in general: (a+a)+b drops a, and the exceptions can differ. C17_exact says for which triples of regular scripts both sums give equal scripts or the same exception."
  },
  {
   "property": "C20",
   "status": "proved",
   "theorems": [
    "C20_polymorpheme_is_unordered",
    "C20_components_are_unordered"
   ],
   "note": "Equality of constructed polymorphemes characterised exactly (iff), for regular scripts (C01: one-term sums excluded)."
  },
  {
   "property": "C21",
   "status": "proved",
   "theorems": [
    "C21_polymorpheme_order",
    "C21_lexeme_order"
   ],
   "note": "Also proved for lexemes. Between USLs of different types < is not modelled here."
  },
  {
   "property": "C22",
   "status": "partial",
   "theorems": [
    "C22_singular_sequences",
    "C22_contents",
    "C22_multiplicity_partial",
    "C22_multiplicity_refuted",
    "C22_no_morpheme_refuted",
    "C22_exceeded"
   ],
   "note": "The exact set of singular sequences and their contents are proved. The multiplicity claim is refuted by a valid polymorpheme; C22_exceeded says for exactly which groups of which polymorphemes it fails. A polymorpheme without constant has an empty singular sequence (refuted)."
  },
  {
   "property": "C23",
   "status": "partial",
   "theorems": [
    "C23_polymorpheme_partial",
    "C23_lexeme_partial",
    "C23_word_partial",
    "C23_script_refuted",
    "C23_class_mark_refuted",
    "C23_empty_group_refuted",
    "C23_missing_lexeme_refuted",
    "C23_junction_focus_refuted",
    "C23_text_partial",
    "C23_normal_form_partial",
    "C23_parsed_partial"
   ],
   "note": "Round trip proved for every polymorpheme, lexeme and word whose groups have a morpheme, whose morphemes do not begin by a class mark and whose focus is the address of a lexeme. Refuted for the empty polymorpheme and one-morpheme polymorphemes (read as scripts), morphemes E:.b.E:?:.-, empty groups, words with a missing lexeme, junction focuses. C23_text_partial: all four kinds of USL at once, scripts included; C23_normal_form_partial: the normal form of the text of such a USL is its own normal form. C23_parsed_partial: so is any USL the parser gives, if no morpheme of the text is a one-term sum or begins by a class mark, no group is empty, no lexeme is missing and the focus is on a lexeme."
  },
  {
   "property": "C24",
   "status": "partial",
   "theorems": [
    "C24_product_partial",
    "C24_exact",
    "C24_single",
    "C24_exact_valid",
    "C24_product_refuted"
   ],
   "note": "The claim is false for lexemes whose two parts have one singular sequence each and of which one has groups, and C24_exact shows that these are the only exceptions. C24_single and C24_exact_valid say which they are: parts with groups and exactly five constants."
  },
  {
   "property": "C25",
   "status": "proved",
   "theorems": [
    "C25_lexeme_strings"
   ],
   "note": "For lexemes of regular scripts."
  },
  {
   "property": "C26",
   "status": "proved",
   "theorems": [
    "C26_strict_total_order",
    "C26_prefix_first"
   ],
   "note": "Strict total order compatible with == on the roles the constructor accepts; in a sorted list a proper prefix never follows its extension."
  },
  {
   "property": "C27",
   "status": "partial",
   "theorems": [
    "C27_round_trip",
    "C27_no_lexeme_lost",
    "C27_order_partial",
    "C27_order_refuted"
   ],
   "note": "Round trip proved for every function from_list returns, and no lexeme is lost. Independence of the order is proved for every permutation of the list of the function (equality as the code defines it); refuted for lists with an address as_list does not give back, accepted in one order and refused in another."
  },
  {
   "property": "C28",
   "status": "partial",
   "theorems": [
    "C28_product",
    "C28_product_partial",
    "C28_singular",
    "C28_product_refuted",
    "C28_missing_lexeme_refuted",
    "C28_exact"
   ],
   "note": "Exactly one word per choice of a singular sequence of each lexeme, same roles, focus and context, number the product, for all words with a lexeme at each address (C28_product). False: a word with a role without lexeme raises AttributeError; a lexeme with groups and a single singular sequence is kept as it is. C28_exact: the lexemes of the singular sequences are the combinations of the singular sequences of the parts exactly when the word has none or no lexeme is one of those of C24_exact."
  },
  {
   "property": "C29",
   "status": "partial",
   "theorems": [
    "C29_only_value_or_index_error",
    "C29_value_error_partial",
    "C29_index_error_refuted",
    "C29_focus_accepted",
    "C29_focus_refuted",
    "C29_word_errors"
   ],
   "note": "from_list always answers and only raises ValueError or IndexError; only ValueError under a guard; IndexError cases refute the full claim, and a focus outside the function raises UnboundLocalError."
  },
  {
   "property": "C30",
   "status": "partial",
   "theorems": [
    "C30_round_trip_partial",
    "C30_same_text_same_element",
    "C30_round_trip_refuted",
    "C30_same_text_refuted"
   ],
   "note": "Round trip proved for the paths the parser gives (role, lexeme part, place of a morpheme) with a one-digit multiplicity; equal texts designate equal elements for all such paths. Refuted: group without multiplicity, multiplicity of two digits, '>' with a child, empty role; two constructible paths of the same text that designate different elements."
  },
  {
   "property": "C31",
   "status": "partial",
   "theorems": [
    "C31_elements_partial",
    "C31_all_elements_partial",
    "C31_listing",
    "C31_elements_refuted"
   ],
   "note": "Proved for every element of every built polymorpheme, lexeme and word, except the paths '>flexion' listed for the constant and the groups of a flexion, which designate the whole flexion (refutation); proved for those too when no flexion has a group. The listing raises only for a word with a missing lexeme."
  },
  {
   "property": "C32",
   "status": "partial",
   "theorems": [
    "C32_prefix_of_itself",
    "C32_concat_has_prefix_partial",
    "C32_concat_remove_partial",
    "C32_split_tail_partial",
    "C32_refuted"
   ],
   "note": "has_prefix is reflexive for all paths; concat has the first path as prefix for all paths without a component '>'; remove_prefix undoes concat and split_tail is undone by concat for paths of components of different kinds. Refutations for the other paths."
  },
  {
   "property": "C33",
   "status": "partial",
   "theorems": [
    "C33_rebuild_partial",
    "C33_rebuild_refuted"
   ],
   "note": "Proved for USLs built by the constructors whose listed leaf paths and values carry the USL: distinct morphemes, multiplicities 1-9, flexions made of one constant per category, at most three groups, no class-mark morpheme, focus on a role that is filled. Missing (and refuted or excluded): repeated morphemes, multiplicity 0 or >= 10, flexions outside the categories, two constants of one category, focus on a junction, missing lexemes."
  },
  {
   "property": "C34",
   "status": "partial",
   "theorems": [
    "C34_no_literal_left",
    "C34_history",
    "C34_steps",
    "C34_threads_refuted"
   ],
   "note": "Proved for all sequences of constructions (returning or raising at any decoration), computations of singular sequences with their nested contexts, and from_usl, whatever objects the paths share. Refuted for threads that interleave: the program has one context."
  },
  {
   "property": "C35",
   "status": "partial",
   "theorems": [
    "C35_index_keys_have_fixed_width",
    "C35_index_keys_sort_like_indices",
    "C35_large_indices_refuted"
   ],
   "note": "Proved below 62^30; refuted for larger indexes."
  },
  {
   "property": "C36",
   "status": "proved",
   "theorems": [
    "C36_items_are_the_last_assigned"
   ],
   "note": ""
  },
  {
   "property": "C40",
   "status": "partial",
   "theorems": [
    "C40_database_is_a_multimap_partial",
    "C40_structure_is_a_multimap",
    "C40_structure_get_values_refuted",
    "C40_exact"
   ],
   "note": "Refinement of a multimap over all histories, all file orders, descriptors and structure. Partial because values with quotes, line breaks, carriage returns or texts pandas reads as missing are excluded (refuted there, see C41, C42). C40_exact: what is read after any history, quotes, line breaks and such texts included, in the layout of the library."
  },
  {
   "property": "C41",
   "status": "partial",
   "theorems": [
    "C41_other_keys_are_untouched",
    "C41_removed_values_partial",
    "C41_same_or_quoted_meaning",
    "C41_quoted_value_refuted",
    "C41_value_in_all_languages_refuted",
    "C41_carriage_return_refuted",
    "C41_quoted_expression_refuted",
    "C41_removed_exact",
    "C41_own_parser"
   ],
   "note": "Other keys untouched for all histories; what is removed within a key is characterised exactly; four concrete violations proved. C41_removed_exact: the same for every key at once, in the layout of the library. C41_own_parser: the same for a parser of which only the texts named are known to have normal forms that are read back, such as the parser of USLs."
  },
  {
   "property": "C42",
   "status": "partial",
   "theorems": [
    "C42_lines_are_read_back_partial",
    "C42_values_are_read_back_partial",
    "C42_line_break_refuted",
    "C42_distinct_values_refuted",
    "C42_missing_value_refuted",
    "C42_added_exact",
    "C42_own_parser"
   ],
   "note": "Every value without line break is read back by the csv machine; line breaks and pandas missing-value texts are refuted. C42_added_exact: a value added after any history is read back without its surrounding blanks exactly when it then has no line break and is no such text, and the other keys are as they were. C42_own_parser: the same for a parser of which only the texts named are known to have normal forms that are read back, such as the parser of USLs."
  },
  {
   "property": "C43",
   "status": "partial",
   "theorems": [
    "C43_distinct_files",
    "C43_file_names_are_short",
    "C43_layout",
    "C43_history",
    "C43_database_is_a_multimap_partial",
    "C43_slash_refuted",
    "C43_own_parser",
    "C43_usls_partial",
    "C43_texts_partial"
   ],
   "note": "Injectivity of the paths for expressions without / and |, provided truncated digests of long expressions do not collide (the digest is a parameter). C43_history: only the expressions named in a history need not collide, so that C40, C41 and C44 apply to the layout of the library and its own parser. C43_own_parser: only the texts named in the history need have normal forms that are read back, not all texts; C43_usls_partial: so what is read after any history on the texts of USLs of C23, with the parser of USLs itself. C43_texts_partial: the same stated on the texts given."
  },
  {
   "property": "C44",
   "status": "partial",
   "theorems": [
    "C44_descriptor_keys",
    "C44_structure_keys_partial",
    "C44_missing_value_refuted",
    "C44_stored_rows_are_legal"
   ],
   "note": "Exact acceptance condition for non-empty values; missing values are not validated (refuted)."
  },
  {
   "property": "C45",
   "status": "proved",
   "theorems": [
    "C45_dirty_is_refused",
    "C45_failure_is_rolled_back",
    "C45_failed_commit_is_rolled_back",
    "C45_no_change_no_commit",
    "C45_commit",
    "C45_history"
   ],
   "note": "Model of the repository (commits, index, files); any function as the body of the transaction, any failure point of the commit."
  },
  {
   "property": "C46",
   "status": "partial",
   "theorems": [
    "C46_pull_partial",
    "C46_reported_descriptors",
    "C46_pull_succeeds",
    "C46_fast_forward",
    "C46_locally_deleted_refuted",
    "C46_structure_conflict_refuted"
   ],
   "note": "Any three-way text merge, any conflict order. The property asks for local descriptors of every conflict; two cases where pull raises instead are refuted (file deleted locally, conflicts only in structure files)."
  },
  {
   "property": "C47",
   "status": "partial",
   "theorems": [
    "C47_cached_results_are_fresh_partial",
    "C47_database_writes_such_files",
    "C47_ambiguous_text_refuted",
    "C47_unwatched_files_refuted"
   ],
   "note": "Fresh for every history when contents are made of the lines the database writes and the digest is injective on the texts reached; in general the digest text is ambiguous and get_list depends on files it does not watch (both refuted)."
  },
  {
   "property": "C48",
   "status": "partial",
   "theorems": [
    "C48_set_descriptors_partial",
    "C48_failure_changes_nothing",
    "C48_missing_value_refuted"
   ],
   "note": "Exact effect when the texts are stored as they are (no line break, no text read as missing); refuted for such texts."
  },
  {
   "property": "C49",
   "status": "partial",
   "theorems": [
    "C49_set_inhibitions_partial",
    "C49_unique_keys_refuted"
   ],
   "note": "Exact effect when Structure.get_values answers; it raises TypeError when no structure key is repeated (refuted)."
  },
  {
   "property": "C50",
   "status": "partial",
   "theorems": [
    "C50_disjoint_roots",
    "C50_roots",
    "C50_cover_partial",
    "C50_stated_roots",
    "C50_cover_refuted"
   ],
   "note": "Disjointness and the stated roots are proved for every dictionary. The cover is proved when no root is also ignored; without it, refuted: the singular scripts of an ignored root stay in the dictionary in no root."
  },
  {
   "property": "C51",
   "status": "partial",
   "theorems": [
    "C51_index_partial",
    "C51_lookup",
    "C51_index_refuted"
   ],
   "note": "Proved for paradigms given in their printed form; refuted for two spellings of one script."
  },
  {
   "property": "C52",
   "status": "proved",
   "theorems": [
    "C52_forest",
    "C52_ranks",
    "C52_one_table",
    "C52_root_of"
   ],
   "note": "Every table climbs to the table of its root; ranks, inclusion, uniqueness of the table of a script, root_of."
  },
  {
   "property": "C53",
   "status": "proved",
   "theorems": [
    "C53_inverse",
    "C53_identity",
    "C53_named",
    "C53_irreflexive"
   ],
   "note": "All nineteen relations with their inverses; identity; siblings are irreflexive."
  },
  {
   "property": "C54",
   "status": "proved",
   "theorems": [
    "C54_contains",
    "C54_order"
   ],
   "note": "contains is inclusion of singular sequences, reflexive and transitive, for all scripts of a dictionary."
  },
  {
   "property": "C55",
   "status": "partial",
   "theorems": [
    "C55_fathers_partial",
    "C55_largest_refuted"
   ],
   "note": "Exact description proved: the first scripts of the dictionary met from the terms of the substance (attribute, mode). Refuted as stated: a substance which is a sum and is in the dictionary is passed over for its terms."
  },
  {
   "property": "C56",
   "status": "partial",
   "theorems": [
    "C56_siblings_partial",
    "C56_fathers_refuted"
   ],
   "note": "Proved for the sibling relations; refuted for father_substance, father_attribute and father_mode, which can be inhibited without effect."
  },
  {
   "property": "C57",
   "status": "partial",
   "theorems": [
    "C57_errors",
    "C57_cannot_parse_partial",
    "C57_cannot_parse_refuted"
   ],
   "note": "The exact set of exceptions with their causes is proved; CannotParse only, when the text is not a word and no morpheme has too many singular sequences. Refuted by texts raising TooManySingularSequences, IndexError and UnboundLocalError."
  },
  {
   "property": "C58",
   "status": "proved",
   "theorems": [
    "C58_parser_follows_the_grammar",
    "C58_one_structure",
    "C58_no_other_condition"
   ],
   "note": "The grammar of the docstrings is an inductive relation on tokens, the meaning a separate relation; the model of the PLY parser returns a USL exactly when both hold. Unique structure is a separate theorem. Tokens are those of the lexer, which skips characters it does not know."
  },
  {
   "property": "C59",
   "status": "proved",
   "theorems": [
    "C59_deference_in_sequence"
   ],
   "note": "For the concatenations that put the components one after the other (C32)."
  },
  {
   "property": "C60",
   "status": "partial",
   "theorems": [
    "C60_decorations",
    "C60_own_decorations_partial",
    "C60_refuted"
   ],
   "note": "The exact list of decorations is characterised for every sharing of objects; it is the given list when each decorated object is listed once with its own path. Refuted for a morpheme at two places, for constants, groups and whole lexemes, and for flexion paths on polymorphemes. The order of paths (sorted) is any permutation."
  },
  {
   "property": "C61",
   "status": "proved",
   "theorems": [
    "C61_singular_sequences",
    "C61_nothing_found"
   ],
   "note": "For all identities of the objects and all set orders, from a state where no object has a literal."
  },
  {
   "property": "C62",
   "status": "partial",
   "theorems": [
    "C62_refuted"
   ],
   "note": "Refuted: two iteration orders give different factorisations of a script of layer 2, and one run does not leave the other's result unchanged."
  },
  {
   "property": "C63",
   "status": "proved",
   "theorems": [
    "C63_siblings"
   ],
   "note": "Equivalence for the four relations. The two scripts are supposed not empty (E: has several representations with one text) and the paradigms in printed form."
  },
  {
   "property": "C64",
   "status": "partial",
   "theorems": [
    "C64_table_relations_partial",
    "C64_orphan_refuted"
   ],
   "note": "Equivalence proved when no root is also ignored; refuted otherwise."
  },
  {
   "property": "C65",
   "status": "partial",
   "theorems": [
    "C65_from_given",
    "C65_ignored",
    "C65_kept",
    "C65_singular_sequences",
    "C65_roots_inside",
    "C65_plural_refuted"
   ],
   "note": "Proved for singular scripts, roots and their singular sequences; refuted for plural paradigms: those which fit in no table are left out."
  },
  {
   "property": "C66",
   "status": "partial",
   "theorems": [
    "C66_built_refuted",
    "C66_built_partial"
   ],
   "note": "Proved when the structure is well stated: the paradigms are texts of scripts, the roots are plural, disjoint and stated once, the terms of a sum of a paradigm do not overlap, no table is too wide, at most two paradigms are nested under a root, and what is ignored is plural, covered and not a root. Refuted without that: singular roots, roots whose terms overlap, tables nested four times, ignored scripts outside the roots."
  },
  {
   "property": "C67",
   "status": "partial",
   "theorems": [
    "C67_class",
    "C67_inside",
    "C67_grid",
    "C67_line",
    "C67_set",
    "C67_ranks",
    "C67_proper_partial",
    "C67_parent_partial",
    "C67_refused_partial",
    "C67_under_grid_partial",
    "C67_diagonal_refuted"
   ],
   "note": "Acceptance and ranks are exact for every table whose sums have disjoint terms; the choice of the parent is proved for texts which are those of their scripts (tidy). Tables of the same cardinal as the paradigm are not compared. Refuted: an irregular table need not be a block (the diagonal)."
  },
  {
   "property": "C68",
   "status": "partial",
   "theorems": [
    "C68_same_partial",
    "C68_twin_paradigms_refuted"
   ],
   "note": "Proved for texts which are those of their scripts (tidy) when no two paradigms of the same length are one in the other. Refuted without this: two paradigms with the same words (\"U:O:.\" and \"wo.+wa.\") exchange parent and rank with the order of the set."
  },
  {
   "property": "C69",
   "status": "partial",
   "theorems": [
    "C69_cells",
    "C69_distinct",
    "C69_exact_partial",
    "C69_multiplicity_refuted",
    "C69_path_refuted"
   ],
   "note": "Cells and their distinctness are proved for every such polymorpheme with paths carrying the multiplicity of the group. That they are the singular sequences is proved for groups of at least two morphemes with multiplicity one, when no sequence has more than five morphemes. Refuted: multiplicity two (a cell which is no singular sequence); a path with another multiplicity (equal cells)."
  },
  {
   "property": "C70",
   "status": "partial",
   "theorems": [
    "C70_order",
    "C70_headers",
    "C70_row_paradigm_partial",
    "C70_deterministic",
    "C70_column_headers_refuted"
   ],
   "note": "Order, headers of rows and independence of set orders are proved; rows as singular sequences of their headers when every group is in the rows or columns and at most five morphemes are taken. Refuted: the headers of columns have the morphemes of every row as constants. Tables of lexemes are C89, tables of words C90."
  },
  {
   "property": "C71",
   "status": "partial",
   "theorems": [
    "C71_add_accepts",
    "C71_add_effect_partial",
    "C71_add_roots",
    "C71_failure_changes_nothing",
    "C71_unreadable_refuted",
    "C71_lost_refuted"
   ],
   "note": "Acceptance, the descriptors and structure afterwards, the roots of the dictionary afterwards and the failures are proved for every folder made by plain operations whose dictionary can be read. Refuted: the dictionary can always be read afterwards; the paradigm is in the dictionary read afterwards (without texts it has no file to list)."
  },
  {
   "property": "C72",
   "status": "partial",
   "theorems": [
    "C72_create_never"
   ],
   "note": "Proved: it always fails, for every folder and every script, and changes nothing. TableStructure.root logs and returns None where the caller waits for a KeyError, so that the first part of the claim is false of the code."
  },
  {
   "property": "C73",
   "status": "partial",
   "theorems": [
    "C73_update_accepts",
    "C73_update_effect_partial",
    "C73_update_root",
    "C73_failure_changes_nothing",
    "C73_accepts_refuted"
   ],
   "note": "Acceptance, the effect for a paradigm not said to be a root and the failures are proved. A root is only updated to a script with the same singular sequences (C73_update_root): the check on the roots refuses a larger one. Refuted: acceptance without a key of the structure with two values (pandas lookup of a unique label)."
  },
  {
   "property": "C74",
   "status": "partial",
   "theorems": [
    "C74_delete_root_accepts",
    "C74_delete_root_effect_partial",
    "C74_delete_root_roots",
    "C74_failure_changes_nothing",
    "C74_unreadable_refuted"
   ],
   "note": "Acceptance, effect, roots afterwards and failures are proved. Refuted: the dictionary can always be read afterwards (ignored paradigm left, or no root left)."
  },
  {
   "property": "C75",
   "status": "partial",
   "theorems": [
    "C75_delete_accepts",
    "C75_delete_effect_partial",
    "C75_delete_dictionary",
    "C75_failure_changes_nothing",
    "C75_ignored_refuted"
   ],
   "note": "Acceptance, effect, dictionary afterwards and failures are proved. Refuted: a described plural paradigm can be deleted (not an ignored one, which is not in the dictionary)."
  },
  {
   "property": "C76",
   "status": "proved",
   "theorems": [
    "C76_polymorpheme",
    "C76_lexeme",
    "C76_singular_sequences",
    "C76_lexeme_refuted",
    "C76_parser_refuted"
   ],
   "note": "Proved for every list of regular scripts. Besides: Lexeme.check() is `pass`, so that it accepts what check_lexeme refuses (C76_lexeme_refuted), and the parser tests nothing (C76_parser_refuted). Multiplicities are natural numbers in the model."
  },
  {
   "property": "C77",
   "status": "proved",
   "theorems": [
    "C77_word",
    "C77_singular_sequences",
    "C77_same_text_refuted"
   ],
   "note": "Proved for every word made by the parser's constructor with a focus that begins by the prefix of its context. Besides: the prefix of a focus is not looked at when the text is made, so that two words with the same text can be judged differently (C77_same_text_refuted)."
  },
  {
   "property": "C78",
   "status": "partial",
   "theorems": [
    "C78_lists_exactly_the_readable_descriptions",
    "C78_values_are_those_of_the_descriptors",
    "C78_values_agree_with_get_values",
    "C78_list_is_sorted",
    "C78_morphemes_come_first_in_dictionary_order",
    "C78_keys_of_polymorphemes_partial",
    "C78_when_the_list_is_returned",
    "C78_a_described_word_breaks_the_list",
    "C78_fields",
    "C78_words_refuted",
    "C78_types_refuted",
    "C78_keys_refuted",
    "C78_groups_refuted"
   ],
   "note": "Proved for every folder with its dictionary and descriptors: exactly the described expressions that are read with the dictionary are listed, once each, with the values of the descriptors in order; the list is sorted by key then text; the morphemes come first in the order of the dictionary (up to 62^30 scripts); the fields of morphemes, polymorphemes and lexemes; exactly when the list is returned. False and refuted: a described word makes it raise KeyError, a lexeme is shown with the type word, the key of a polymorpheme leaves out its groups, a polymorpheme with groups only raises KeyError. Missing: the fields of expressions with decorations, of which only text, type and key are assumed as the code gives them (decorated_ok)."
  },
  {
   "property": "C79",
   "status": "proved",
   "theorems": [
    "C79_killed_is_undone_or_done",
    "C79_leftovers_are_noticed",
    "C79_not_killed"
   ],
   "note": "The index file and the reference of HEAD are replaced in one step (git). A kill during the roll back leaves any files and index."
  },
  {
   "property": "C80",
   "status": "proved",
   "theorems": [
    "C80_history_only_grows",
    "C80_new_commits",
    "C80_no_entry_over_changes",
    "C80_a_raise_goes_back",
    "C80_nothing_is_lost_when_alone",
    "C80_returned_is_committed_when_alone"
   ],
   "note": "The last part is proved under the guard that the statement names (all_commits_alone); C81 shows that it is necessary."
  },
  {
   "property": "C81",
   "status": "partial",
   "theorems": [
    "C81_stays_committed_partial",
    "C81_a_failure_drops_the_commit_of_another_refuted",
    "C81_two_returns_refuted",
    "C81_isolation_refuted"
   ],
   "note": "Refuted: two users can be inside at once; when one has committed and the other raises (or returns with changes), HEAD is reset to the commit where the other entered and the first commit is dropped; a commit takes the half made changes of the other. Proved when nobody else is inside as one commits."
  },
  {
   "property": "C82",
   "status": "partial",
   "theorems": [
    "C82_word_order_strict",
    "C82_when_a_comparison_raises",
    "C82_word_order_total_partial",
    "C82_kinds",
    "C82_usl_order",
    "C82_words_raise_refuted",
    "C82_equal_words_refuted",
    "C82_all_kinds_refuted"
   ],
   "note": "strictness and the condition for raising for all words; totality for words whose focus is a lexeme. False: some words cannot be compared; a focus on a junction of one lexeme gives == words with <; scripts and decorated USLs are not ordered with the others."
  },
  {
   "property": "C83",
   "status": "partial",
   "theorems": [
    "C83_in_is_inclusion",
    "C83_when_it_raises",
    "C83_preorder",
    "C83_singular_sequences",
    "C83_is_singular",
    "C83_len",
    "C83_any_set_order",
    "C83_kinds",
    "C83_words",
    "C83_lexemes_partial",
    "C83_lexemes_refuted",
    "C83_antisymmetric_refuted",
    "C83_kinds_refuted",
    "C83_scripts_refuted",
    "C83_lexemes_exact"
   ],
   "note": "All but one clause in full; for lexemes the clause is false for those with one sequence and a group, and C83_lexemes_exact says what holds for all. Also false: containment both ways is not equality; an expression without sequence is in every other, of any kind; a script is in the polymorpheme of the same text but not conversely."
  },
  {
   "property": "C84",
   "status": "proved",
   "theorems": [
    "C84_lookup_outcome",
    "C84_lookup",
    "C84_agrees_with_get_values",
    "C84_descriptor",
    "C84_descriptor_of_legal_rows",
    "C84_descriptor_after_calls",
    "C84_descriptor_of_a_file",
    "C84_structure_outcome",
    "C84_structure_lookup",
    "C84_structure_after_calls",
    "C84_everything_refuted",
    "C84_empty_language_refuted",
    "C84_other_spelling_refuted"
   ],
   "note": "Exact for all tables. Not what a user may expect: no part of the key at all raises KeyError, an empty language selects nothing, and the expression must be spelt in its normal form."
  },
  {
   "property": "C85",
   "status": "partial",
   "theorems": [
    "C85_list",
    "C85_no_directory",
    "C85_scripts_layout",
    "C85_parsed",
    "C85_no_words_refuted",
    "C85_paradigms_without_type_refuted"
   ],
   "note": "Partial: the expressions have no quote, line break nor surrounding blank (true of scripts, C85_scripts_layout), the type has no /. False: a database without words raises instead of listing none; without a type the argument paradigm is ignored."
  },
  {
   "property": "C86",
   "status": "partial",
   "theorems": [
    "C86_selections",
    "C86_answers",
    "C86_partition_refuted",
    "C86_dimension_refuted",
    "C86_word_counted_refuted"
   ],
   "note": "Exact characterisation. What the name promises is false: the empty list is always among them, and the path > of a word counts as one more dimension, so that the word of the test of the library (test_variations.py 13-16) has 2 dimensions where the test waits for 1."
  },
  {
   "property": "C87",
   "status": "partial",
   "theorems": [
    "C87_outcome",
    "C87_addresses",
    "C87_lexemes",
    "C87_leaves",
    "C87_idempotent",
    "C87_junctions_refuted",
    "C87_empty_process_refuted",
    "C87_none_refuted"
   ],
   "note": "Exact outcome for all words. Not for every word as its name promises: words with lexemes in junctions cannot be simplified, nor some empty processes; an empty junction in focus becomes a word printed with None, which is not read."
  },
  {
   "property": "C88",
   "status": "partial",
   "theorems": [
    "C88_entries",
    "C88_exceptions",
    "C88_databases",
    "C88_unquoted_refuted",
    "C88_zero_refuted",
    "C88_quoted_expression_refuted",
    "C88_last_line_refuted",
    "C88_marker_refuted"
   ],
   "note": "Exact for files of text without zeros and, in databases, expressions without quotes. Any other changed file (a README) makes the whole call raise IndexError; values with zeros are not shown; expressions with literals are cut at the quote; a last line without line feed raises, or shows a line which is in no version."
  },
  {
   "property": "C89",
   "status": "partial",
   "theorems": [
    "C89_cells",
    "C89_distinct",
    "C89_exact_partial",
    "C89_order",
    "C89_headers_partial",
    "C89_row_paradigm_partial",
    "C89_deterministic",
    "C89_swapped_refuted",
    "C89_column_headers_refuted",
    "C89_five_refuted"
   ],
   "note": "Cells, distinctness, order and determinism hold for every such lexeme. Headers of rows and rows as paradigms hold unless the flexion has groups and five constants (refuted there); cells as singular sequences when the groups of the content have multiplicity one, two morphemes or more, and five morphemes are taken at most. Refuted: the content in the columns (KeyError when the flexion has a constant and a group), headers of columns. Columns on one group of the content are not proved about."
  },
  {
   "property": "C90",
   "status": "partial",
   "theorems": [
    "C90_cells",
    "C90_distinct",
    "C90_exact_partial",
    "C90_headers_partial",
    "C90_column_headers_refuted",
    "C90_other_groups_refuted",
    "C90_unnamed_partial",
    "C90_unnamed_exact_partial",
    "C90_unnamed_rows_refuted"
   ],
   "note": "Every actor must have a lexeme and the content in the rows no repeated morpheme. Rows named, or not named when all the groups are those of the two axes (C90_unnamed_partial, C90_unnamed_exact_partial). Headers of rows for flexions with at most four constants beside groups (five: see C89_five_refuted). The cells are the singular sequences of the word when it has no groups but those of the two axes, groups of the content take one of two or more morphemes, and constants and groups of the content are at most five; with groups elsewhere no cell of the witness is a singular sequence. Refuted: headers of columns, which have the morphemes of every row as constants. Not proved: the order of the cells (words are compared by a parameter), other axes. When the path of the rows is not given, the table raises KeyError as soon as the flexion of another actor has a group (C90_unnamed_rows_refuted)."
  },
  {
   "property": "C91",
   "status": "partial",
   "theorems": [
    "C91_normalize_exact_partial",
    "C91_simplified_partial",
    "C91_factorize_partial",
    "C91_normalize_flag",
    "C91_unnormalised_refuted",
    "C91_fails_refuted"
   ],
   "note": "Exact contents after normalize_database.py, which are those wanted when every renamed text is its own normal form and none is renamed to a renamed one (C91_simplified_partial). Refuted otherwise: normalize=False comes after the key is normalised (C91_normalize_flag), so an entry under a text which is no normal form stays, and everything under its normal form, the copy included, is removed (C91_unnormalised_refuted). factorize_db.py for scripts in normal form none of which goes to a moved one. Values of renamed entries that pandas reads as missing and databases without structure make the script fail (C91_fails_refuted); the scripts rewrite_words.py and remove_usl.py have the same loops but other plans, which are not modelled."
  },
  {
   "property": "C92",
   "status": "partial",
   "theorems": [
    "C92_outcome",
    "C92_lexemes",
    "C92_groups_refuted",
    "C92_idempotent_refuted"
   ],
   "note": "The exact outcome for every word of the parser: AttributeError if an address to keep has no lexeme (a junction), ValueError for a process of empty lexemes with the focus elsewhere, and otherwise the addresses of simplify_word (C87) with their lexemes stripped. Refuted: the groups of every flexion are removed as well, so that a paradigm becomes a singular word; a lexeme of which nothing is left is left out only the second time. The renaming of the database by the script is that of C91."
  },
  {
   "property": "C93",
   "status": "partial",
   "theorems": [
    "C93_names_exact",
    "C93_listed_partial",
    "C93_paths",
    "C93_relative_folder_refuted",
    "C93_digit_refuted"
   ],
   "note": "C93_names_exact says for exactly which lists of names without backslash the names arrive as they are; C93_paths: with the paths of the library in an absolute folder the rows are exactly the records of the expressions, in the order of the list. Refuted: a database opened with a relative folder reads nothing (the paths are looked for from the folder itself); a name after the first which begins with a digit 0-7 is glued to the name before it."
  }
 ]
}
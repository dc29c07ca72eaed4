{
 "claims": [
  {
   "property": "C01",
   "status": "proved",
   "theorems": [
    "c01_skip_runes",
    "c01_skip_runes_last"
   ],
   "note": "Proved for every byte string and count, malformed UTF-8 included (a malformed byte is one symbol). symbols_sane validates the specification of symbols."
  },
  {
   "property": "C02",
   "status": "proved",
   "theorems": [
    "c02_contains",
    "c02_add",
    "c02_make"
   ],
   "note": "Proved for every sequence of added bytes; MakeASCIISetMust panics exactly when MakeASCIISet is not ok."
  },
  {
   "property": "C03",
   "status": "proved",
   "theorems": [
    "c03_index",
    "c03_last_index"
   ],
   "note": "Proved for every set and every byte string; Index/IndexByte (LastIndex/LastIndexByte) are the same loop and modelled once."
  },
  {
   "property": "C04",
   "status": "proved",
   "theorems": [
    "c04_count",
    "c04_is_empty",
    "c04_count_all_members_refuted"
   ],
   "note": "c04_count_all_members_refuted: NUL is a possible member that Count does not count."
  },
  {
   "property": "C05",
   "status": "proved",
   "theorems": [
    "c05_print_reread",
    "c05_del_refuted",
    "c05_class_reread",
    "c05_class_reread_refuted"
   ],
   "note": "c05_print_reread (sets), c05_class_reread (classes: identical value); c05_del_refuted and c05_class_reread_refuted are witnesses that the conditions are needed."
  },
  {
   "property": "C06",
   "status": "proved",
   "theorems": [
    "c06_merge",
    "c06_nul"
   ],
   "note": "c06_merge for ranges that do not consist of NUL alone, c06_nul for all."
  },
  {
   "property": "C07",
   "status": "proved",
   "theorems": [
    "c07_contains_sorted",
    "c07_history"
   ],
   "note": "c07_contains_sorted is the binary search; c07_history ranges over all call histories."
  },
  {
   "property": "C08",
   "status": "proved",
   "theorems": [
    "c08_denotes",
    "c08_fails",
    "c08_unbracketed",
    "c08_replacement_refuted"
   ],
   "note": "c08_denotes and c08_fails against the grammar of Spec/Class.v; c08_replacement_refuted shows why U+FFFD is excluded from clean text."
  },
  {
   "property": "C09",
   "status": "proved",
   "theorems": [
    "c09_sizes"
   ],
   "note": "Upper and lower bound, and both attained (or no members and 0, 0)."
  },
  {
   "property": "C10",
   "status": "proved",
   "theorems": [
    "c10_index",
    "c10_starts_with",
    "c10_malformed_refuted",
    "c10_index_any"
   ],
   "note": "c10_index (ASCII classes on any bytes, every class on valid text), c10_index_any (classes with a non-ASCII member on any bytes), c10_starts_with (any bytes); c10_malformed_refuted is the witness for the exception."
  },
  {
   "property": "C11",
   "status": "proved",
   "theorems": [
    "c11_ends_with",
    "c11_ascii_refuted"
   ],
   "note": "c11_ends_with is an exact characterisation, deviation included; c11_ascii_refuted is the witness that the offset is wrong."
  },
  {
   "property": "C12",
   "status": "proved",
   "theorems": [
    "c12_ascii",
    "c12_exact",
    "c12_hang_refuted"
   ],
   "note": "c12_ascii and c12_exact together cover every parsed class and every byte string: the same answer, or no answer with any number of steps, with the exact condition. c12_hang_refuted is a witness."
  },
  {
   "property": "C13",
   "status": "proved",
   "theorems": [
    "c13_match",
    "c13_find",
    "c13_star"
   ],
   "note": "c13_match and c13_find for items taken from glob text by the parser, against the language of that text; Find for subjects in valid UTF-8, or any bytes unless a class has several members and one beyond ASCII."
  },
  {
   "property": "C14",
   "status": "proved",
   "theorems": [
    "c14_text",
    "c14_symbol",
    "c14_byte_refuted"
   ],
   "note": "c14_text, c14_symbol; c14_byte_refuted for single-byte items."
  },
  {
   "property": "C15",
   "status": "proved",
   "theorems": [
    "c15_bounds",
    "c15_star_refuted"
   ],
   "note": "c15_bounds; the hypothesis sized excludes the values of c15_star_refuted."
  },
  {
   "property": "C16",
   "status": "proved",
   "theorems": [
    "c16_append",
    "c16_parse",
    "c16_high_byte_refuted"
   ],
   "note": "c16_append for all lists of well-formed items; c16_parse: prefix, items and suffix of a parsed glob mean what the text means."
  },
  {
   "property": "C17",
   "status": "proved",
   "theorems": [
    "c17_equal",
    "c17_equivalence",
    "c17_equal_answers"
   ],
   "note": "For all item values, parsed or not."
  },
  {
   "property": "C18",
   "status": "proved",
   "theorems": [
    "c18_list",
    "c18_order",
    "c18_other"
   ],
   "note": ""
  },
  {
   "property": "C19",
   "status": "proved",
   "theorems": [
    "c19_first"
   ],
   "note": "For every list item the parser produces."
  },
  {
   "property": "C20",
   "status": "proved",
   "theorems": [
    "c20_total"
   ],
   "note": "For every byte string, malformed UTF-8 included."
  },
  {
   "property": "C21",
   "status": "proved",
   "theorems": [
    "c21_regular",
    "c21_exact",
    "c21_stars",
    "c21_no_lists",
    "c21_items",
    "c21_star_value_refuted",
    "c21_star_star_refuted",
    "c21_list_text_refuted",
    "c21_optional_refuted",
    "c21_any_value_refuted",
    "c21_single_refuted",
    "c21_only_star_refuted",
    "c21_zero_refuted",
    "c21_malformed_refuted"
   ],
   "note": "c21_no_lists, c21_regular, c21_exact (stars at the end of list values), c21_stars (stars anywhere in list values, up to MaxLen); c21_items is wider still and stated on the parsed items. Also excluded, each with a witness: '[*]' alone, NUL, a list with one value that has wildcards. The c21_*_refuted theorems are bugs of the code."
  },
  {
   "property": "C22",
   "status": "proved",
   "theorems": [
    "c22_literal"
   ],
   "note": "For every byte string without wildcard characters."
  },
  {
   "property": "C23",
   "status": "proved",
   "theorems": [
    "c23_star"
   ],
   "note": "Also for any run of stars."
  },
  {
   "property": "C24",
   "status": "proved",
   "theorems": [
    "c24_terminates"
   ],
   "note": "For every Glob value, parsed or not, and every byte string: the number of steps the entry point supplies is always sufficient."
  },
  {
   "property": "C25",
   "status": "proved",
   "theorems": [
    "c25_returns",
    "c25_calm",
    "c25_items",
    "c25_any_refuted",
    "c25_malformed_refuted"
   ],
   "note": "c25_returns (condition on the text), c25_calm (the well-formed texts of C21 or without '?', and all texts without '*', satisfy it), c25_items (condition on the parsed items); c25_any_refuted: witnesses for '*{?,b}' and '{a*,b}?'; c25_malformed_refuted: a malformed byte, or U+FFFD, between two stars."
  },
  {
   "property": "C26",
   "status": "proved",
   "theorems": [
    "c26_shortest",
    "c26_longest",
    "c26_length_filter",
    "c26_unfiltered",
    "c26_star_value_refuted"
   ],
   "note": "c26_length_filter (fragment of C21), c26_shortest and c26_longest (any glob whose list values have stars only at their end); c26_star_value_refuted: the items match but the filter rejects."
  },
  {
   "property": "C27",
   "status": "proved",
   "theorems": [
    "c27_lookup"
   ],
   "note": "For every parsed glob with a value map and every byte string."
  },
  {
   "property": "C28",
   "status": "proved",
   "theorems": [
    "c28_node",
    "c28_same_node",
    "c28_class_refuted",
    "c28_del_refuted",
    "c28_nul_refuted",
    "c28_single_refuted"
   ],
   "note": "c28_node, c28_same_node; the four refuted theorems are witnesses, one for each excluded case."
  },
  {
   "property": "C29",
   "status": "proved",
   "theorems": [
    "c29_order"
   ],
   "note": "At any place in any text, for any bytes; same_parse compares errors and everything but the raw text."
  },
  {
   "property": "C30",
   "status": "proved",
   "theorems": [
    "c30_exact",
    "c30_first",
    "c30_single",
    "c30_common_refuted"
   ],
   "note": "c30_exact characterises the result completely; c30_common_refuted: the result is not a common prefix."
  },
  {
   "property": "C31",
   "status": "proved",
   "theorems": [
    "c31_history",
    "c31_rejected"
   ],
   "note": "c31_history: any sequence of Add calls, any texts and indexes, behaves as the registry of Spec/RegistrySpec.v; c31_rejected: errors change nothing."
  },
  {
   "property": "C32",
   "status": "proved",
   "theorems": [
    "c32_same_match",
    "c32_normalized_refuted"
   ],
   "note": "c32_same_match for every tree value; c32_normalized_refuted."
  },
  {
   "property": "C33",
   "status": "proved",
   "theorems": [
    "c33_accepted",
    "c33_sound",
    "c33_star_value_refuted"
   ],
   "note": "c33_sound; c33_star_value_refuted. c33_accepted: for all globs and strings, what is stored was registered."
  },
  {
   "property": "C34",
   "status": "proved",
   "theorems": [
    "c34_exact",
    "c34_complete",
    "c34_not_hidden",
    "c34_stars",
    "c34_plain_refuted",
    "c34_hidden_refuted",
    "c34_once_refuted"
   ],
   "note": "c34_exact: reports are exactly the accepted, matching, not plain, not hidden globs; c34_complete and c34_not_hidden are consequences; c34_plain_refuted, c34_hidden_refuted, c34_once_refuted are witnesses of the three deviations from what a user expects. c34_stars extends soundness, completeness (up to shadowing) and termination to globs with stars inside the values of their lists."
  },
  {
   "property": "C35",
   "status": "proved",
   "theorems": [
    "c35_count"
   ],
   "note": "For every tree value and byte string."
  },
  {
   "property": "C36",
   "status": "proved",
   "theorems": [
    "c36_answers",
    "c36_hang_refuted",
    "c36_never",
    "c36_ends",
    "c36_returns"
   ],
   "note": "c36_ends: one outcome from some number of steps on, for any bytes, whenever no text follows a star inside a list value; c36_returns: that outcome is a return for the fragment of C21; c36_answers: a return for every string when only '*' and '?' come after a star; c36_never: with text after a star inside a list no number of steps suffices, for a whole family of globs, trees and strings; c36_hang_refuted is its smallest instance."
  },
  {
   "property": "C37",
   "status": "proved",
   "theorems": [
    "c37_parts",
    "c37_split_b",
    "c37_trailing_refuted"
   ],
   "note": "c37_parts, c37_split_b, c37_trailing_refuted (for every such path)."
  },
  {
   "property": "C38",
   "status": "proved",
   "theorems": [
    "c38_stars",
    "c38_exact",
    "c38_unbounded",
    "c38_bounded_refuted",
    "c38_no_fuel",
    "c38_denotes"
   ],
   "note": "c38_exact for all; c38_unbounded, c38_denotes (in terms of the glob text); c38_no_fuel: it ends; c38_bounded_refuted."
  },
  {
   "property": "C39",
   "status": "proved",
   "theorems": [
    "c39_stars",
    "c39_parts",
    "c39_same"
   ],
   "note": "c39_parts, c39_same."
  },
  {
   "property": "C40",
   "status": "proved",
   "theorems": [
    "c40_total",
    "c40_parse",
    "c40_exact",
    "c40_empty_part_refuted"
   ],
   "note": "c40_total, c40_parse; c40_exact: acceptance of well-encoded texts in terms of the specification Spec/Accept.v; c40_empty_part_refuted."
  },
  {
   "property": "C41",
   "status": "proved",
   "theorems": [
    "c41_history",
    "c41_rejected",
    "c41_add_glob",
    "c41_add_glob_refuted"
   ],
   "note": "c41_history for any sequence of calls, c41_rejected; c41_add_glob compares AddGlob with Add of the text; c41_add_glob_refuted: it forgets the canonical text."
  },
  {
   "property": "C42",
   "status": "proved",
   "theorems": [
    "c42_first_parts",
    "c42_first",
    "c42_stars",
    "c42_exact",
    "c42_empty",
    "c42_denotes",
    "c42_steady",
    "c42_shared_refuted"
   ],
   "note": "c42_exact under coherence of the parts (parts written alike match alike, no panic), c42_denotes for the fragment of C21 in terms of the glob texts; c42_empty: a path with an empty part is not reported. c42_steady: for globs whose parts are neat and calm (Spec/SteadySpec.v; wildcards of any kind but classes in lists) the tree agrees with the parts one by one on any path, malformed ones too. c42_shared_refuted: without agreement of parts with equal Node a matching glob is missed. c42_first, c42_first_parts: with no condition on the globs, Match and MatchByParts store exactly the globs whose parts are reached through the parts accepted first (Spec/FirstSpec.v: stands_for, reached)."
  },
  {
   "property": "C43",
   "status": "proved",
   "theorems": [
    "c43_same",
    "c43_empty_part_refuted"
   ],
   "note": "c43_same for every tree value; c43_empty_part_refuted."
  },
  {
   "property": "C44",
   "status": "proved",
   "theorems": [
    "c44_count"
   ],
   "note": "For every tree value."
  },
  {
   "property": "C45",
   "status": "proved",
   "theorems": [
    "c45_expand",
    "c45_unlimited",
    "c45_replacement_refuted",
    "c45_nul_refuted"
   ],
   "note": "c45_expand for every limit and depth against Spec/ExpandSpec.v; c45_unlimited: the product. Fails for classes with U+FFFD or NUL (refuted by witnesses). Texts whose number of combinations exceeds 2^44 are excluded: see C49."
  },
  {
   "property": "C46",
   "status": "proved",
   "theorems": [
    "c46_limit",
    "c46_fits"
   ],
   "note": "c46_limit needs no reading of the text at all: any text shorter than 2^31 bytes."
  },
  {
   "property": "C47",
   "status": "proved",
   "theorems": [
    "c47_disabled",
    "c47_unchanged",
    "c47_bad_class_refuted"
   ],
   "note": "c47_disabled, c47_unchanged; c47_bad_class_refuted: a class with a reversed interval loses its brackets."
  },
  {
   "property": "C48",
   "status": "proved",
   "theorems": [
    "c48_try"
   ],
   "note": ""
  },
  {
   "property": "C49",
   "status": "proved",
   "theorems": [
    "c49_returns",
    "c49_panic_refuted"
   ],
   "note": "c49_returns; c49_panic_refuted gives the panicking texts, among them 2^50 combinations with limit 1."
  },
  {
   "property": "C50",
   "status": "proved",
   "theorems": [
    "c50_glob",
    "c50_dash_refuted"
   ],
   "note": "c50_glob; c50_dash_refuted."
  },
  {
   "property": "C51",
   "status": "proved",
   "theorems": [
    "c51_query_round_trip"
   ],
   "note": "For every byte string."
  },
  {
   "property": "C52",
   "status": "proved",
   "theorems": [
    "c52_path_round_trip",
    "c52_plus_refuted"
   ],
   "note": "Both directions: c52_path_round_trip and c52_plus_refuted, for every byte string."
  },
  {
   "property": "C53",
   "status": "proved",
   "theorems": [
    "c53_query_form",
    "c53_path_form",
    "c53_query_safe"
   ],
   "note": ""
  },
  {
   "property": "C54",
   "status": "proved",
   "theorems": [
    "c54_streaming",
    "c54_last_byte_refuted"
   ],
   "note": "c54_streaming and c54_last_byte_refuted cover all strings between them."
  },
  {
   "property": "C55",
   "status": "proved",
   "theorems": [
    "c55_unescape_to",
    "c55_unescape_name_to"
   ],
   "note": "For every string and buffer content."
  },
  {
   "property": "C56",
   "status": "proved",
   "theorems": [
    "c56_unescape_decodes",
    "c56_unescape_plain"
   ],
   "note": "c56_unescape_decodes: the result is the unique decoding by Spec/Url.v."
  },
  {
   "property": "C57",
   "status": "proved",
   "theorems": [
    "c57_decode",
    "c57_round_trip"
   ],
   "note": "c57_decode: success and result characterised for every string, both decoders; c57_round_trip: for all names and tags."
  },
  {
   "property": "C58",
   "status": "proved",
   "theorems": [
    "c58_map",
    "c58_last_wins"
   ],
   "note": ""
  },
  {
   "property": "C59",
   "status": "proved",
   "theorems": [
    "c59_order"
   ],
   "note": "For every regexp engine. matches agree whenever the conditions can be evaluated without panic."
  },
  {
   "property": "C60",
   "status": "proved",
   "theorems": [
    "c60_round_trip",
    "c60_round_trip_refuted"
   ],
   "note": "c60_round_trip; c60_round_trip_refuted: three witnesses."
  },
  {
   "property": "C61",
   "status": "proved",
   "theorems": [
    "c61_map",
    "c61_accepts"
   ],
   "note": "c61_map for every list of terms, map and regexp engine; c61_accepts: what each operator requires."
  },
  {
   "property": "C62",
   "status": "proved",
   "theorems": [
    "c62_agree",
    "c62_absent",
    "c62_agree_refuted"
   ],
   "note": "c62_agree, c62_absent (the exact result in the other case), c62_agree_refuted."
  },
  {
   "property": "C63",
   "status": "proved",
   "theorems": [
    "c63_find"
   ],
   "note": ""
  },
  {
   "property": "C64",
   "status": "proved",
   "theorems": [
    "c64_first",
    "c64_bounds",
    "c64_late_refuted",
    "c64_steady",
    "c64_exact",
    "c64_plain",
    "c64_no_tags_refuted",
    "c64_mixed_refuted"
   ],
   "note": "c64_exact, c64_plain; c64_no_tags_refuted, c64_mixed_refuted. c64_steady: coherence follows from the query texts when their wildcard values are neat and calm; any tags. c64_first: no agreement of conditions needed; the conditions accepted first decide (Spec/LevelSpec.v: term_stands_for, all_met). c64_late_refuted: this fails when a level holds a key twice (C91)."
  },
  {
   "property": "C65",
   "status": "proved",
   "theorems": [
    "c65_always",
    "c65_steady",
    "c65_agree"
   ],
   "note": "c65_agree, under the conditions of C64. c65_steady: the same by the query texts. c65_always: for all queries and values, panics included."
  },
  {
   "property": "C66",
   "status": "proved",
   "theorems": [
    "c66_add_terms_refuted"
   ],
   "note": "c66_add_terms_refuted, for every history, every list of terms without blank keys and all tags."
  },
  {
   "property": "C67",
   "status": "proved",
   "theorems": [
    "c67_count",
    "c67_count_refuted"
   ],
   "note": "c67_count, c67_count_refuted."
  },
  {
   "property": "C68",
   "status": "proved",
   "theorems": [
    "c68_add",
    "c68_blank_refuted",
    "c68_blank_mixed_refuted"
   ],
   "note": "c68_add; c68_blank_refuted, c68_blank_mixed_refuted."
  },
  {
   "property": "C69",
   "status": "proved",
   "theorems": [
    "c69_min_store",
    "c69_negative_refuted"
   ],
   "note": "c69_negative_refuted: the restriction to non-negative indexes is needed."
  },
  {
   "property": "C70",
   "status": "proved",
   "theorems": [
    "c70_collect"
   ],
   "note": ""
  },
  {
   "property": "C71",
   "status": "proved",
   "theorems": [
    "c71_all_store",
    "c71_no_init_refuted"
   ],
   "note": ""
  },
  {
   "property": "C72",
   "status": "proved",
   "theorems": [
    "c72_accepts",
    "c72_rejects",
    "c72_unchecked_refuted",
    "c72_exact"
   ],
   "note": "c72_exact gives acceptance exactly, against Spec/Accept.v. c72_unchecked_refuted: with lists acceptance does not imply well-formed values."
  },
  {
   "property": "C73",
   "status": "proved",
   "theorems": [
    "c73_restores",
    "c73_try_refuted"
   ],
   "note": "c73_try_refuted: with the try flag the next call continues where it stopped."
  },
  {
   "property": "C74",
   "status": "proved",
   "theorems": [
    "c74_random",
    "c74_matches",
    "c74_prefix_refuted",
    "c74_class_refuted",
    "c74_ascii_class_refuted"
   ],
   "note": "c74_random covers every outcome of the random numbers; c74_matches is its consequence for Match; c74_prefix_refuted, c74_class_refuted and c74_ascii_class_refuted (for every glob with such a class) are the deviations."
  },
  {
   "property": "C75",
   "status": "proved",
   "theorems": [
    "c75_search",
    "c75_count",
    "c75_agree"
   ],
   "note": ""
  },
  {
   "property": "C76",
   "status": "proved",
   "theorems": [
    "c76_order_glob",
    "c76_order_gglob",
    "c76_order_tags",
    "c76_gglob",
    "c76_tags",
    "c76_glob",
    "c76_all_gglob",
    "c76_all_tags",
    "c76_all_glob"
   ],
   "note": "c76_gglob, c76_tags, c76_glob and c76_all_* in the exact fragments. c76_order_glob, c76_order_gglob, c76_order_tags: for all globs (queries without blank keys), the index left in a MinStore is the same in any order of registration."
  },
  {
   "property": "C77",
   "status": "proved",
   "theorems": [
    "c77_gglob_alike",
    "c77_tags_alike",
    "c77_tags_returns",
    "c77_glob_more",
    "c77_gglob_more",
    "c77_tags_more",
    "c77_steady_gglob",
    "c77_steady_tags",
    "c77_steady_gglob_later",
    "c77_steady_tags_later",
    "c77_glob_all",
    "c77_order_refuted",
    "c77_gglob",
    "c77_tags",
    "c77_glob",
    "c77_gglob_later",
    "c77_tags_later",
    "c77_glob_later_refuted"
   ],
   "note": "c77_gglob, c77_tags, c77_glob and the _later theorems in the exact fragment; c77_steady_* for neat and calm globs and queries, on any path or tags; c77_glob_later_refuted for GlobTree. c77_glob_all: for GlobTree, all globs and all strings, the same multiset of reports in any order of registration whenever Match returns. c77_glob_more: for GlobTree with stars only at the end of the globs, on every string, further globs add to what is stored and change nothing else. c77_gglob_alike, c77_tags_alike: for GGlobTree and GTagsTree, all globs and queries, if parts (conditions) that are normalised alike match alike. c77_tags_returns: whether MatchByTagsMap, and MatchByTags on sorted tags, return does not depend on the order either. c77_gglob_more: as c77_glob_more, for GGlobTree and all globs and paths. c77_tags_more: the same for GTagsTree, all queries without blank keys and all tags (sorted ones for MatchByTags). c77_order_refuted: outside these conditions the order matters for GGlobTree and GTagsTree."
  },
  {
   "property": "C78",
   "status": "proved",
   "theorems": [
    "c78_again",
    "c78_match",
    "c78_gglob",
    "c78_lists_refuted",
    "c78_literal_refuted",
    "c78_rejected_refuted"
   ],
   "note": "c78_again (globs), c78_match (answers), c78_gglob (dotted globs); c78_lists_refuted, c78_literal_refuted and c78_rejected_refuted show that the conditions are needed."
  },
  {
   "property": "C79",
   "status": "proved",
   "theorems": [
    "c79_no_panic",
    "c79_returns",
    "c79_text",
    "c79_panic_refuted",
    "c79_malformed_refuted"
   ],
   "note": "c79_no_panic (condition on the parsed items, as in C25), c79_returns and c79_text for any bytes; c79_panic_refuted: \"*{?,a}\" panics; c79_malformed_refuted: so does a malformed byte between two stars."
  },
  {
   "property": "C80",
   "status": "proved",
   "theorems": [
    "c80_gglob",
    "c80_gtree",
    "c80_sound",
    "c80_items",
    "c80_star_refuted",
    "c80_query",
    "c80_query_tree",
    "c80_tree",
    "c80_tree_items",
    "c80_tree_refuted"
   ],
   "note": "c80_sound (condition on the text, as in C25), c80_items (condition on the parsed items), c80_gglob (dotted globs), c80_gtree (trees of dotted globs), c80_tree (trees of globs, by text), c80_tree_items (by the parsed items), c80_query and c80_query_tree (queries and trees of them, '!=' conditions aside); c80_star_refuted, c80_tree_refuted: false matches when a star that needs a symbol follows a star."
  },
  {
   "property": "C81",
   "status": "proved",
   "theorems": [
    "c81_total",
    "c81_sound",
    "c81_complete",
    "c81_conditions",
    "c81_unique",
    "c81_limit"
   ],
   "note": "c81_total, c81_sound, c81_complete, c81_conditions, c81_unique (the text of a condition determines it), c81_limit (129 conditions are refused)."
  },
  {
   "property": "C82",
   "status": "proved",
   "theorems": [
    "c82_stars",
    "c82_stars_tree",
    "c82_map",
    "c82_tree",
    "c82_tree_tags"
   ],
   "note": "c82_map (parsed query), c82_tree (map entry point of the tree), c82_tree_tags (slice entry point)."
  },
  {
   "property": "C83",
   "status": "proved",
   "theorems": [
    "c83_gglob",
    "c83_glob"
   ],
   "note": "Proved for every text."
  },
  {
   "property": "C84",
   "status": "proved",
   "theorems": [
    "c84_glob",
    "c84_gglob",
    "c84_query"
   ],
   "note": "c84_glob, c84_gglob, c84_query. That there is an error exactly when the text is not acceptable is C72, C40 and C81."
  },
  {
   "property": "C85",
   "status": "proved",
   "theorems": [
    "c85_slice",
    "c85_map",
    "c85_message_refuted"
   ],
   "note": "c85_slice, c85_map; c85_message_refuted: the message about a piece without '=' has an empty name in it."
  },
  {
   "property": "C86",
   "status": "proved",
   "theorems": [
    "c86_gglob",
    "c86_gtree",
    "c86_query",
    "c86_query_tree",
    "c86_panic_refuted"
   ],
   "note": "c86_gglob, c86_gtree, c86_query, c86_query_tree; c86_panic_refuted: all of them panic for \"*{?,b}\". The tree of queries: no blank keys."
  },
  {
   "property": "C87",
   "status": "proved",
   "theorems": [
    "c87_glob",
    "c87_parts",
    "c87_gtree",
    "c87_match_refuted"
   ],
   "note": "c87_glob (any string), c87_parts, c87_gtree; c87_match_refuted: GGlob.Match does not count the dots (C38)."
  },
  {
   "property": "C88",
   "status": "proved",
   "theorems": [
    "c88_query",
    "c88_map",
    "c88_slice"
   ],
   "note": "c88_query, c88_map (any distinct keys), c88_slice (sorted keys, MatchByTags)."
  },
  {
   "property": "C89",
   "status": "proved",
   "theorems": [
    "c89_longest",
    "c89_malformed_refuted"
   ],
   "note": "c89_longest; c89_malformed_refuted. The function is not called by the rest of the package."
  },
  {
   "property": "C90",
   "status": "proved",
   "theorems": [
    "c90_glob",
    "c90_glob_refuted",
    "c90_gglob",
    "c90_settled",
    "c90_queries"
   ],
   "note": "c90_glob: GlobTree, accepted globs without common names. c90_glob_refuted: AddGlob \"{b,a}\" then Add \"{a,b}\": both accepted, only the second is reported. c90_gglob: GGlobTree, no condition on names; c90_settled: the texts of C78 meet its hypothesis. c90_queries: GTagsTree, coherent tags as in C64."
  },
  {
   "property": "C91",
   "status": "proved",
   "theorems": [
    "c91_levels",
    "c91_levels_refuted"
   ],
   "note": "c91_levels; c91_levels_refuted: 'name=x', then 'a=1': keys a, __name__; then 'name=y': __name__, a, __name__. findOrAppend takes position 0 when __name__ is the only key."
  },
  {
   "property": "C92",
   "status": "proved",
   "theorems": [
    "c92_query",
    "c92_query_map",
    "c92_tree",
    "c92_subset",
    "c92_returns",
    "c92_unsorted_refuted"
   ],
   "note": "c92_query, c92_query_map, c92_tree, c92_subset, c92_returns; c92_unsorted_refuted: tags b=2, a=1."
  },
  {
   "property": "C93",
   "status": "proved",
   "theorems": [
    "c93_once",
    "c93_exact",
    "c93_later",
    "c93_lists_refuted"
   ],
   "note": "c93_once, c93_exact; c93_lists_refuted and c34_once_refuted: what the condition excludes."
  }
 ]
}
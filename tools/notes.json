{
 "C01": {
  "note": "Proved for every byte string and count, malformed UTF-8 included (a malformed byte is one symbol). symbols_sane validates the specification of symbols."
 },
 "C02": {
  "note": "Proved for every sequence of added bytes; MakeASCIISetMust panics exactly when MakeASCIISet is not ok."
 },
 "C03": {
  "note": "Proved for every set and every byte string; Index/IndexByte (LastIndex/LastIndexByte) are the same loop and modelled once."
 },
 "C04": {
  "note": "c04_count_all_members_refuted: NUL is a possible member that Count does not count."
 },
 "C05": {
  "note": "c05_print_reread (sets), c05_class_reread (classes: identical value); c05_del_refuted and c05_class_reread_refuted are witnesses that the conditions are needed."
 },
 "C06": {
  "note": "c06_merge for ranges that do not consist of NUL alone, c06_nul for all."
 },
 "C07": {
  "note": "c07_contains_sorted is the binary search; c07_history ranges over all call histories."
 },
 "C08": {
  "note": "c08_denotes and c08_fails against the grammar of Spec/Class.v; c08_replacement_refuted shows why U+FFFD is excluded from clean text."
 },
 "C09": {
  "note": "Upper and lower bound, and both attained (or no members and 0, 0)."
 },
 "C10": {
  "note": "c10_index (ASCII classes on any bytes, every class on valid text), c10_index_any (classes with a non-ASCII member on any bytes), c10_starts_with (any bytes); c10_malformed_refuted is the witness for the exception."
 },
 "C11": {
  "note": "c11_ends_with is an exact characterisation, deviation included; c11_ascii_refuted is the witness that the offset is wrong."
 },
 "C12": {
  "note": "c12_ascii and c12_exact together cover every parsed class and every byte string: the same answer, or no answer with any number of steps, with the exact condition. c12_hang_refuted is a witness."
 },
 "C13": {
  "note": "c13_match and c13_find for items taken from glob text by the parser, against the language of that text; Find for subjects in valid UTF-8, or any bytes unless a class has several members and one beyond ASCII."
 },
 "C14": {
  "note": "c14_text, c14_symbol; c14_byte_refuted for single-byte items."
 },
 "C15": {
  "note": "c15_bounds; the hypothesis sized excludes the values of c15_star_refuted."
 },
 "C16": {
  "note": "c16_append for all lists of well-formed items; c16_parse: prefix, items and suffix of a parsed glob mean what the text means."
 },
 "C17": {
  "note": "For all item values, parsed or not."
 },
 "C19": {
  "note": "For every list item the parser produces."
 },
 "C20": {
  "note": "For every byte string, malformed UTF-8 included."
 },
 "C21": {
  "note": "c21_no_lists, c21_regular, c21_exact (stars at the end of list values), c21_stars (stars anywhere in list values, up to MaxLen); c21_items is wider still and stated on the parsed items. Also excluded, each with a witness: '[*]' alone, NUL, a list with one value that has wildcards. The c21_*_refuted theorems are bugs of the code."
 },
 "C22": {
  "note": "For every byte string without wildcard characters."
 },
 "C23": {
  "note": "Also for any run of stars."
 },
 "C24": {
  "note": "For every Glob value, parsed or not, and every byte string: the number of steps the entry point supplies is always sufficient."
 },
 "C25": {
  "note": "c25_returns (condition on the text), c25_calm (the well-formed texts of C21 or without '?', and all texts without '*', satisfy it), c25_items (condition on the parsed items); c25_any_refuted: witnesses for '*{?,b}' and '{a*,b}?'; c25_malformed_refuted: a malformed byte, or U+FFFD, between two stars."
 },
 "C26": {
  "note": "c26_length_filter (fragment of C21), c26_shortest and c26_longest (any glob whose list values have stars only at their end); c26_star_value_refuted: the items match but the filter rejects."
 },
 "C27": {
  "note": "For every parsed glob with a value map and every byte string."
 },
 "C28": {
  "note": "c28_node, c28_same_node; the four refuted theorems are witnesses, one for each excluded case."
 },
 "C29": {
  "note": "At any place in any text, for any bytes; same_parse compares errors and everything but the raw text."
 },
 "C30": {
  "note": "c30_exact characterises the result completely; c30_common_refuted: the result is not a common prefix."
 },
 "C31": {
  "note": "c31_history: any sequence of Add calls, any texts and indexes, behaves as the registry of Spec/RegistrySpec.v; c31_rejected: errors change nothing."
 },
 "C32": {
  "note": "c32_same_match for every tree value; c32_normalized_refuted."
 },
 "C33": {
  "note": "c33_sound; c33_star_value_refuted. c33_accepted: for all globs and strings, what is stored was registered."
 },
 "C34": {
  "note": "c34_exact: reports are exactly the accepted, matching, not plain, not hidden globs; c34_complete and c34_not_hidden are consequences; c34_plain_refuted, c34_hidden_refuted, c34_once_refuted are witnesses of the three deviations from what a user expects. c34_stars extends soundness, completeness (up to shadowing) and termination to globs with stars inside the values of their lists."
 },
 "C35": {
  "note": "For every tree value and byte string."
 },
 "C36": {
  "note": "c36_ends: one outcome from some number of steps on, for any bytes, whenever no text follows a star inside a list value; c36_returns: that outcome is a return for the fragment of C21; c36_answers: a return for every string when only '*' and '?' come after a star; c36_never: with text after a star inside a list no number of steps suffices, for a whole family of globs, trees and strings; c36_hang_refuted is its smallest instance."
 },
 "C37": {
  "note": "c37_parts, c37_split_b, c37_trailing_refuted (for every such path)."
 },
 "C38": {
  "note": "c38_exact for all; c38_unbounded, c38_denotes (in terms of the glob text); c38_no_fuel: it ends; c38_bounded_refuted."
 },
 "C39": {
  "note": "c39_parts, c39_same."
 },
 "C40": {
  "note": "c40_total, c40_parse; c40_exact: acceptance of well-encoded texts in terms of the specification Spec/Accept.v; c40_empty_part_refuted."
 },
 "C41": {
  "note": "c41_history for any sequence of calls, c41_rejected; c41_add_glob compares AddGlob with Add of the text; c41_add_glob_refuted: it forgets the canonical text."
 },
 "C42": {
  "note": "c42_exact under coherence of the parts (parts written alike match alike, no panic), c42_denotes for the fragment of C21 in terms of the glob texts; c42_empty: a path with an empty part is not reported. c42_steady: for globs whose parts are neat and calm (Spec/SteadySpec.v; wildcards of any kind but classes in lists) the tree agrees with the parts one by one on any path, malformed ones too. c42_shared_refuted: without agreement of parts with equal Node a matching glob is missed. c42_first, c42_first_parts: with no condition on the globs, Match and MatchByParts store exactly the globs whose parts are reached through the parts accepted first (Spec/FirstSpec.v: stands_for, reached)."
 },
 "C43": {
  "note": "c43_same for every tree value; c43_empty_part_refuted."
 },
 "C44": {
  "note": "For every tree value."
 },
 "C45": {
  "note": "c45_expand for every limit and depth against Spec/ExpandSpec.v; c45_unlimited: the product. Fails for classes with U+FFFD or NUL (refuted by witnesses). Texts whose number of combinations exceeds 2^44 are excluded: see C49."
 },
 "C46": {
  "note": "c46_limit needs no reading of the text at all: any text shorter than 2^31 bytes."
 },
 "C47": {
  "note": "c47_disabled, c47_unchanged; c47_bad_class_refuted: a class with a reversed interval loses its brackets."
 },
 "C49": {
  "note": "c49_returns; c49_panic_refuted gives the panicking texts, among them 2^50 combinations with limit 1."
 },
 "C50": {
  "note": "c50_glob; c50_dash_refuted."
 },
 "C51": {
  "note": "For every byte string."
 },
 "C52": {
  "note": "Both directions: c52_path_round_trip and c52_plus_refuted, for every byte string."
 },
 "C54": {
  "note": "c54_streaming and c54_last_byte_refuted cover all strings between them."
 },
 "C55": {
  "note": "For every string and buffer content."
 },
 "C56": {
  "note": "c56_unescape_decodes: the result is the unique decoding by Spec/Url.v."
 },
 "C57": {
  "note": "c57_decode: success and result characterised for every string, both decoders; c57_round_trip: for all names and tags."
 },
 "C59": {
  "note": "For every regexp engine. matches agree whenever the conditions can be evaluated without panic."
 },
 "C60": {
  "note": "c60_round_trip; c60_round_trip_refuted: three witnesses."
 },
 "C61": {
  "note": "c61_map for every list of terms, map and regexp engine; c61_accepts: what each operator requires."
 },
 "C62": {
  "note": "c62_agree, c62_absent (the exact result in the other case), c62_agree_refuted."
 },
 "C64": {
  "note": "c64_exact, c64_plain; c64_no_tags_refuted, c64_mixed_refuted. c64_steady: coherence follows from the query texts when their wildcard values are neat and calm; any tags. c64_first: no agreement of conditions needed; the conditions accepted first decide (Spec/LevelSpec.v: term_stands_for, all_met). c64_late_refuted: this fails when a level holds a key twice (C91)."
 },
 "C65": {
  "note": "c65_agree, under the conditions of C64. c65_steady: the same by the query texts. c65_always: for all queries and values, panics included."
 },
 "C66": {
  "note": "c66_add_terms_refuted, for every history, every list of terms without blank keys and all tags."
 },
 "C67": {
  "note": "c67_count, c67_count_refuted."
 },
 "C68": {
  "note": "c68_add; c68_blank_refuted, c68_blank_mixed_refuted."
 },
 "C69": {
  "note": "c69_negative_refuted: the restriction to non-negative indexes is needed."
 },
 "C72": {
  "note": "c72_exact gives acceptance exactly, against Spec/Accept.v. c72_unchecked_refuted: with lists acceptance does not imply well-formed values."
 },
 "C73": {
  "note": "c73_try_refuted: with the try flag the next call continues where it stopped."
 },
 "C74": {
  "note": "c74_random covers every outcome of the random numbers; c74_matches is its consequence for Match; c74_prefix_refuted, c74_class_refuted and c74_ascii_class_refuted (for every glob with such a class) are the deviations."
 },
 "C78": {
  "note": "c78_again (globs), c78_match (answers), c78_gglob (dotted globs); c78_lists_refuted, c78_literal_refuted and c78_rejected_refuted show that the conditions are needed."
 },
 "C79": {
  "note": "c79_no_panic (condition on the parsed items, as in C25), c79_returns and c79_text for any bytes; c79_panic_refuted: \"*{?,a}\" panics; c79_malformed_refuted: so does a malformed byte between two stars."
 },
 "C80": {
  "note": "c80_sound (condition on the text, as in C25), c80_items (condition on the parsed items), c80_gglob (dotted globs), c80_gtree (trees of dotted globs), c80_tree (trees of globs, by text), c80_tree_items (by the parsed items), c80_query and c80_query_tree (queries and trees of them, '!=' conditions aside); c80_star_refuted, c80_tree_refuted: false matches when a star that needs a symbol follows a star."
 },
 "C81": {
  "note": "c81_total, c81_sound, c81_complete, c81_conditions, c81_unique (the text of a condition determines it), c81_limit (129 conditions are refused)."
 },
 "C82": {
  "note": "c82_map (parsed query), c82_tree (map entry point of the tree), c82_tree_tags (slice entry point)."
 },
 "C83": {
  "note": "Proved for every text."
 },
 "C84": {
  "note": "c84_glob, c84_gglob, c84_query. That there is an error exactly when the text is not acceptable is C72, C40 and C81."
 },
 "C85": {
  "note": "c85_slice, c85_map; c85_message_refuted: the message about a piece without '=' has an empty name in it."
 },
 "C86": {
  "note": "c86_gglob, c86_gtree, c86_query, c86_query_tree; c86_panic_refuted: all of them panic for \"*{?,b}\". The tree of queries: no blank keys."
 },
 "C87": {
  "note": "c87_glob (any string), c87_parts, c87_gtree; c87_match_refuted: GGlob.Match does not count the dots (C38)."
 },
 "C88": {
  "note": "c88_query, c88_map (any distinct keys), c88_slice (sorted keys, MatchByTags)."
 },
 "C77": {
  "note": "c77_gglob, c77_tags, c77_glob and the _later theorems in the exact fragment; c77_steady_* for neat and calm globs and queries, on any path or tags; c77_glob_later_refuted for GlobTree. c77_glob_all: for GlobTree, all globs and all strings, the same multiset of reports in any order of registration whenever Match returns. c77_glob_more: for GlobTree with stars only at the end of the globs, on every string, further globs add to what is stored and change nothing else. c77_gglob_alike, c77_tags_alike: for GGlobTree and GTagsTree, all globs and queries, if parts (conditions) that are normalised alike match alike. c77_tags_returns: whether MatchByTagsMap, and MatchByTags on sorted tags, return does not depend on the order either. c77_gglob_more: as c77_glob_more, for GGlobTree and all globs and paths. c77_tags_more: the same for GTagsTree, all queries without blank keys and all tags (sorted ones for MatchByTags). c77_order_refuted: outside these conditions the order matters for GGlobTree and GTagsTree."
 },
 "C89": {
  "note": "c89_longest; c89_malformed_refuted. The function is not called by the rest of the package."
 },
 "C90": {
  "status": "proved",
  "note": "c90_glob: GlobTree, accepted globs without common names. c90_glob_refuted: AddGlob \"{b,a}\" then Add \"{a,b}\": both accepted, only the second is reported. c90_gglob: GGlobTree, no condition on names; c90_settled: the texts of C78 meet its hypothesis. c90_queries: GTagsTree, coherent tags as in C64."
 },
 "C91": {
  "status": "proved",
  "note": "c91_levels; c91_levels_refuted: 'name=x', then 'a=1': keys a, __name__; then 'name=y': __name__, a, __name__. findOrAppend takes position 0 when __name__ is the only key."
 },
 "C92": {
  "status": "proved",
  "note": "c92_query, c92_query_map, c92_tree, c92_subset, c92_returns; c92_unsorted_refuted: tags b=2, a=1."
 },
 "C93": {
  "status": "proved",
  "note": "c93_once, c93_exact; c93_lists_refuted and c34_once_refuted: what the condition excludes."
 },
 "C76": {
  "note": "c76_gglob, c76_tags, c76_glob and c76_all_* in the exact fragments. c76_order_glob, c76_order_gglob, c76_order_tags: for all globs (queries without blank keys), the index left in a MinStore is the same in any order of registration."
 }
}
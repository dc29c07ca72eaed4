{"id": "C01", "title": "Rune skipping counts symbols", "statement": "utils.StringSkipRunes(s,n) returns the byte length of the first n symbols of s, and -1 exactly when s has fewer than n symbols; utils.StringSkipRunesLast(s,n) returns the offset at which the last n symbols of s start, and -1 exactly when there are fewer.", "quantifier": "every byte string s, malformed UTF-8 included, and every n>=0", "why_tests_cant": "strings and counts are unbounded and symbols have four different widths; tests use one mixed string", "anchors": ["pkg/utils/string.go: StringSkipRunes, StringSkipRunesLast"]}
{"id": "C02", "title": "ASCII set membership", "statement": "After MakeASCIISet or any sequence of Add calls, Contains(c) is true exactly for the ASCII bytes that were added; Add of a byte >=128 returns false and changes nothing; MakeASCIISet reports ok exactly when all bytes are ASCII.", "quantifier": "every sequence of added bytes and every queried byte", "why_tests_cant": "2^128 sets; tests try three", "anchors": ["pkg/utils/asciiset.go: MakeASCIISet, ASCIISet.Add, ASCIISet.Contains"]}
{"id": "C03", "title": "ASCII set search", "statement": "ASCIISet.Index/IndexByte return the first and LastIndex/LastIndexByte the last position holding a member byte, or -1 exactly when there is none.", "quantifier": "every set and every byte string", "why_tests_cant": "unbounded strings", "anchors": ["pkg/utils/asciiset.go: Index, LastIndex, IndexByte, LastIndexByte"]}
{"id": "C04", "title": "ASCII set counting", "statement": "Count returns the number of members other than NUL together with the least such member, and IsEmpty is true exactly when the set has no member.", "quantifier": "every reachable ASCII set", "why_tests_cant": "2^128 sets", "anchors": ["pkg/utils/asciiset.go: Count, IsEmpty, Clear"]}
{"id": "C05", "title": "ASCII set printing is re-readable", "statement": "Writing an ASCII set without NUL and DEL, in which no run of members starts or ends with '-', and reading it back as a character class gives the same set; the same holds for whole parsed classes that hold no two neighbours of different encoded length (U+07FF/U+0800, U+FFFF/U+10000). Outside of these conditions it fails: the end of a run that reaches DEL is lost, and the text printed for such neighbours is rejected.", "quantifier": "every ASCII set (equivalently every sequence of Add calls), every class text", "why_tests_cant": "2^128 sets", "anchors": ["pkg/utils/asciiset.go: WriteString, String", "pkg/utils/runesranges.go: RunesRangeExpand"]}
{"id": "C06", "title": "Range merging preserves the set", "statement": "RunesRangeMerge returns sorted, pairwise disjoint, non-adjacent ranges that contain exactly the runes of the input ranges, for ranges that are not reversed. (Exception, stated exactly: NUL is kept only if U+0001 is in the input too.)", "quantifier": "every list of well-formed ranges (First<=Last), any length, any overlap; NUL alone is dropped unless its successor is covered too", "why_tests_cant": "in-place two-index merge over unbounded input lists", "anchors": ["pkg/utils/runesranges.go: RunesRangeMerge", "expand/runes.go: runesRangeMerge"]}
{"id": "C07", "title": "Range lookup is exact", "statement": "RunesRanges.Contains(c) is true exactly when c is in the ASCII part or in one of the ranges, for sorted disjoint ranges; and after a class was read from text, any sequence of Add, Adds and Merge calls, then Merge, Contains holds exactly for the runes of the text and the runes that were added.", "quantifier": "every sorted disjoint range list (everything RunesRangeExpand and Add+Merge produce) and every rune", "why_tests_cant": "binary search with special-cased ends; unbounded number of ranges", "anchors": ["pkg/utils/runesranges.go: Contains, ContainsUnicode"]}
{"id": "C08", "title": "Character class denotation", "statement": "RunesRangeExpand(\"[body]\") of valid UTF-8 text yields a class that contains exactly the runes denoted by body: single symbols, and a-b for every symbol between a and b; a '-' that does not join two symbols is ignored. It fails exactly on text that is not bracketed, on a reversed range and on a range whose ends have different encoded lengths. (U+FFFD cannot be listed: the code takes it for a malformed symbol.)", "quantifier": "every class body (valid UTF-8 without U+FFFD) and every rune", "why_tests_cant": "unbounded bodies, every alternation of symbols and dashes", "anchors": ["pkg/utils/runesranges.go: RunesRangeExpand"]}
{"id": "C09", "title": "Class size bounds", "statement": "MinSize/MaxSize of a parsed class are the smallest/largest encoded length of its members.", "quantifier": "every class body and every member rune", "why_tests_cant": "unbounded bodies", "anchors": ["pkg/utils/runesranges.go: setSizes, RunesRangeExpand"]}
{"id": "C10", "title": "Class search on strings", "statement": "RunesRanges.Index returns the position of the first member symbol, the symbol and its width, or -1 exactly when the string has no member; StartsWith decides whether the first symbol is a member. (Exception, stated exactly: Index of a class with a non-ASCII member does not look past a malformed byte or U+FFFD.)", "quantifier": "every parsed class and every string, malformed UTF-8 included", "why_tests_cant": "unbounded strings and classes", "anchors": ["pkg/utils/runesranges.go: Index, StartsWith"]}
{"id": "C11", "title": "Class suffix test", "statement": "RunesRanges.EndsWith succeeds exactly when the last symbol is a member, and returns that symbol. The number it returns is the offset at which the symbol starts when the symbol is not ASCII. For an ASCII symbol it should be too, but it is always 1.", "quantifier": "every parsed class and every string", "why_tests_cant": "unbounded strings", "anchors": ["pkg/utils/runesranges.go: EndsWith", "pkg/items/byte.go: MatchLast"]}
{"id": "C12", "title": "Class search on byte slices", "statement": "RunesRanges.IndexByte gives the same answer as Index on the same bytes, except that for a class with a non-ASCII member it never returns when it meets an ASCII byte that is no member before a member or a malformed byte.", "quantifier": "every parsed class and every byte string", "why_tests_cant": "non-termination cannot be observed by a passing test", "anchors": ["pkg/utils/runesranges.go: IndexByte"]}
{"id": "C13", "title": "Item Match contract", "statement": "For literal, single-byte, single-symbol, ?-run, star and class items, Match(s) returns the length of the unique prefix of s the item consumes and -1 exactly when no prefix of s is in the item's language; Find(s) returns the first position where it matches.", "quantifier": "every item produced by the parser and every string (any bytes unless a class of the glob has several members and one of them beyond ASCII, else valid UTF-8 without U+FFFD)", "why_tests_cant": "unbounded strings and items", "anchors": ["pkg/items/string.go", "pkg/items/byte.go", "pkg/items/rune.go", "pkg/items/any.go", "pkg/items/star.go", "pkg/items/runesranges.go"]}
{"id": "C14", "title": "Item suffix contract", "statement": "MatchLast(s) on a literal text or multi-byte symbol item returns the offset where the item's occurrence at the end of s starts, -1 exactly when s does not end with it. (It is wrong for a single-byte item: 0 instead of the offset, and a panic on the empty string.)", "quantifier": "every literal text, every symbol and every string", "why_tests_cant": "unbounded strings", "anchors": ["pkg/items/string.go: MatchLast", "pkg/items/rune.go: MatchLast", "pkg/items/byte.go: MatchLast"]}
{"id": "C15", "title": "Item length bounds", "statement": "MinLen() of an item bounds the byte length of everything it matches from below, and MaxLen(), unless it is -1, from above. (The upper bound fails for a list with a value that has text after a star.)", "quantifier": "every item taken from a glob text and every string it matches", "why_tests_cant": "the bounds feed pre-filters that silently drop matches", "anchors": ["pkg/items/chain.go: Append", "pkg/items/group.go: NewGroup", "pkg/items/stringlist.go: NewItemList"]}
{"id": "C16", "title": "Merging adjacent items preserves meaning", "statement": "Appending an item with AppendItem (or the in-place merging of Parse) leaves the matched language equal to the concatenation of the old items' language and the new item's language. (Not for a Byte item above 0x7f, which Parse never produces.)", "quantifier": "every item sequence and every item", "why_tests_cant": "unbounded sequences, all pairs of item kinds", "anchors": ["pkg/items/items.go: AppendItem", "glob/glob.go: Parse"]}
{"id": "C17", "title": "Item equality is sound", "statement": "If Equal says two items are equal they match the same strings, give the same Match and Find results, and are printed alike; Equal is reflexive, symmetric and transitive.", "quantifier": "every pair of items", "why_tests_cant": "trie sharing relies on it for every pair of globs", "anchors": ["pkg/items/*.go: Equal"]}
{"id": "C18", "title": "List normalisation", "statement": "ListExpand returns the sorted list of distinct comma-separated values of the braces body; order and repetition of the values in the text do not matter.", "quantifier": "every list text", "why_tests_cant": "unbounded lists; in-place duplicate removal with several indices", "anchors": ["pkg/items/stringlist.go: ListExpand, removeDuplicated"]}
{"id": "C19", "title": "List first-symbol filters are sound", "statement": "When supported, MatchFirst=false implies that no non-empty value of the list is a prefix of s and FindFirst=-1 implies that no value occurs in s.", "quantifier": "every list built by NewItemList and every string", "why_tests_cant": "unbounded", "anchors": ["pkg/items/stringlist.go: FindFirst, MatchFirst, NewItemList"]}
{"id": "C20", "title": "Parsing always finishes without panic", "statement": "glob.Parse returns a Glob or an error for every input: no panic, no endless loop.", "quantifier": "every byte string, including malformed UTF-8", "why_tests_cant": "unbounded adversarial input", "anchors": ["glob/glob.go: Parse", "pkg/items/wildcard.go: NextWildcardItem"]}
{"id": "C21", "title": "Glob match is exact", "statement": "Parse(g).Match(s) is true exactly when s is in the language of g: literal symbols match themselves, ? one symbol, * any symbols, [..] one member symbol, {a,b} one alternative (which may itself contain ?, [..], *). This holds for every glob without lists, and for globs in which the values of a list after a '*' start with an ordinary character or a non-empty class, such a list either has a wildcard in it or is followed by '*' or ends the glob, a '*' in a list value comes last in it, and a list with such a value is followed by an ordinary character, a non-empty class or another list or ends the glob. With text after a '*' in a list value (closed by an ordinary character, or followed as before) matching is exact up to MaxLen: s is matched exactly when it is in the language of g and MaxLen is not positive or s is not longer. For each shape outside there is a counterexample.", "quantifier": "every valid UTF-8 glob in the supported fragment and every string (any bytes unless a class of the glob has several members and one of them beyond ASCII, else valid UTF-8 without U+FFFD); refutations for the shapes outside the fragment", "why_tests_cant": "languages are infinite; backtracking with greedy aborts must agree for every string", "anchors": ["glob/glob.go: Parse, Match", "pkg/items/items.go: MatchItems, matchItems, matchStarItems"]}
{"id": "C22", "title": "Literal globs match only themselves", "statement": "A glob without wildcard characters matches exactly the one string equal to it.", "quantifier": "every wildcard-free glob and every byte string (valid UTF-8 or not)", "why_tests_cant": "unbounded", "anchors": ["glob/glob.go: Parse, Match"]}
{"id": "C23", "title": "Star matches everything", "statement": "Parse(\"*\") matches every string.", "quantifier": "every byte string", "why_tests_cant": "unbounded", "anchors": ["glob/glob.go: Match"]}
{"id": "C24", "title": "Matching always finishes", "statement": "Glob.Match returns after finitely many steps.", "quantifier": "every parsed glob (any text) and every byte string", "why_tests_cant": "termination of mutually recursive backtracking loops", "anchors": ["pkg/items/items.go: matchItems, matchStarItems"]}
{"id": "C25", "title": "Matching a glob returns an answer", "statement": "Glob.Match returns true or false, on any string of bytes, for every parsed glob without '*', and for every parsed glob that is well-formed UTF-8 without U+FFFD and either has no '?' or keeps its wildcards apart: in it every list directly after a wildcard with a '*' before it has only values that start with a fixed symbol, and every list with a value that ends in a wildcard or is empty is followed by a fixed symbol, by a list of values that start fixed, or by nothing. These include the well-formed globs in the fragment of C21. More generally it returns when no way of choosing list values puts a '?', or U+FFFD (which a malformed byte of the glob is read as) standing alone, directly after a '*'. Otherwise it may panic (refuted: \"*{?,b}\", \"{a*,b}?\", and \"*\\xff*\" on \"aa\\xff\").", "quantifier": "every parsed glob text that satisfies the condition, any bytes, and every byte string", "why_tests_cant": "unbounded", "anchors": ["pkg/items/items.go: matchItems, matchStarItems"]}
{"id": "C26", "title": "Length pre-filter never hides a match", "statement": "The MinLen/MaxLen filter of a glob lets every string through that the glob denotes: no such string is shorter than MinLen, for every glob, and none is longer than MaxLen, for every glob in whose lists a star is at the end of its value; in particular for the fragment of C21 where matching is exact. (Not for lists with a value that has text after a star.)", "quantifier": "every glob (the upper bound: every glob with stars only at the end of list values) and every string", "why_tests_cant": "unbounded", "anchors": ["glob/glob.go: Match, Parse"]}
{"id": "C27", "title": "Large-list shortcut agrees with item matching", "statement": "For a glob consisting of one list with more than two values the map lookup gives the same answer as the general item matcher.", "quantifier": "every such glob and every string", "why_tests_cant": "unbounded lists and strings", "anchors": ["glob/glob.go: Match, Parse (Vals)"]}
{"id": "C28", "title": "Normalised glob text is equivalent", "statement": "The normalised text (Node) of a parsed glob denotes the same language as the text that was parsed, for globs without NUL, DEL, lists with a single wildcard value, and classes whose only member is a wildcard character; so globs with the same Node match the same strings. Each excluded case has a counterexample.", "quantifier": "every glob text within the conditions", "why_tests_cant": "unbounded; trees de-duplicate by Node", "anchors": ["glob/glob.go: Parse (Node)", "pkg/items/*.go: WriteString"]}
{"id": "C29", "title": "List order does not matter", "statement": "Permuting or repeating the alternatives of a {..} list does not change the parse result (items, Node, lengths).", "quantifier": "every glob text and every permutation", "why_tests_cant": "factorially many", "anchors": ["pkg/items/stringlist.go: ListExpand", "glob/glob.go: Parse"]}
{"id": "C30", "title": "Beginning shared by globs", "statement": "IntersectGlobs returns for all globs; the result is a beginning of the first glob, without wildcard characters, made of whole symbols, the longest such that is not longer than any of the other globs (up to its last symbol); of one glob, everything up to its first wildcard. It should be common to all globs, but the other globs' texts are never compared, only their lengths.", "quantifier": "every list of globs", "why_tests_cant": "unbounded", "anchors": ["pkg/items/utils.go: IntersectGlobs"]}
{"id": "C31", "title": "GlobTree registration", "statement": "Add returns the normalised text and the index; a repeated glob, normalised duplicate, used index or negative index is rejected and leaves the tree unchanged; every accepted index is recorded with its normalised glob.", "quantifier": "every sequence of Add calls", "why_tests_cant": "histories are unbounded", "anchors": ["glob/tree.go: GlobTree.Add"]}
{"id": "C32", "title": "GlobTree pre-parsed registration", "statement": "AddGlob of a parsed glob is accepted exactly when Add of its text is, leaves the tree unchanged if not, and otherwise gives a tree that answers every Match alike. (But it returns and records an empty text instead of the normalised one.)", "quantifier": "every tree and every parsed glob", "why_tests_cant": "histories are unbounded", "anchors": ["glob/tree.go: GlobTree.AddGlob"]}
{"id": "C33", "title": "GlobTree reports only matching globs", "statement": "Every (query,index) stored by GlobTree.Match(s) belongs to an accepted glob whose own Match accepts s, when the accepted globs are in the fragment of C21. (Not when a list with a star among its values was added.) Whatever the globs and the string, what is stored is the canonical text and the index of an accepted glob.", "quantifier": "every history of Add calls in the fragment and every string (any bytes unless a class of the glob has several members and one of them beyond ASCII, else valid UTF-8 without U+FFFD)", "why_tests_cant": "unbounded sets of globs sharing trie nodes", "anchors": ["pkg/items/tree.go", "glob/tree.go"]}
{"id": "C34", "title": "GlobTree reports every matching glob", "statement": "Every accepted glob whose own Match accepts s is stored by GlobTree.Match(s), unless it is plain text (never reported) or hidden: it ends with a star, or a star and one literal, and a longer accepted glob starts with the same items. This is exact when the accepted globs are in the fragment of C21. A glob may be stored several times. With stars inside list values, whatever is stored still matches, and every accepted glob that matches, is no plain text and is not shadowed (hidden, where a list with a value ending in a star counts as a star) is stored.", "quantifier": "every history of Add calls in the fragment and every string (any bytes unless a class of the glob has several members and one of them beyond ASCII, else valid UTF-8 without U+FFFD)", "why_tests_cant": "unbounded sets of globs sharing trie nodes", "anchors": ["pkg/items/tree.go", "glob/tree.go"]}
{"id": "C35", "title": "GlobTree counts its reports", "statement": "The number returned by GlobTree.Match equals the number of Store calls.", "quantifier": "every tree and every string for which Match returns", "why_tests_cant": "unbounded", "anchors": ["pkg/items/tree.go"]}
{"id": "C36", "title": "GlobTree matching finishes", "statement": "GlobTree.Match ends for every string (any bytes), with one outcome, when in every list value of the accepted globs only stars and question marks come after a star. It returns, with one answer, when the accepted globs are in the fragment of C21 (stars inside list values included), and for every string of any bytes when in all accepted globs a '*' is followed only by '*' and '?'. With a glob p{...,u*w,...}q (text w after a star inside a list value), whatever else the tree holds, it returns on no string p u r q with r at least as long as w.", "quantifier": "every history of Add calls with such globs and every string", "why_tests_cant": "non-termination", "anchors": ["pkg/items/tree.go: matchItemsInTree"]}
{"id": "C37", "title": "Path helpers agree", "statement": "PathLevel(path) gives the number of parts PathSplit returns; joining the parts with dots gives the path without one trailing dot; PathSplitB succeeds with the same parts when no part is empty and fails when a part before the last is empty; HasEmptyParts tells whether a part is empty. (PathSplitB does not notice an empty last part.)", "quantifier": "every path", "why_tests_cant": "unbounded paths", "anchors": ["gglob/utils.go: PathLevel, PathSplit, PathSplitB, HasEmptyParts"]}
{"id": "C38", "title": "GGlob matches part by part", "statement": "GGlob.Match(path) is true exactly when the path has as many parts as the glob, none empty, every part matches its glob part, and the path is not longer than MaxLen if that is positive. With unlimited MaxLen matching is part by part. (A limited MaxLen does not count the dots, so 'a.b' does not match 'a.b'.) In terms of the text, for parts with stars inside list values too (C21): Match gives an answer, true exactly when no part of the path is empty, each is in the language of its glob part and not longer than the MaxLen of that, and the path is not longer than MaxLen if that is positive.", "quantifier": "every parsed dotted glob and every path", "why_tests_cant": "unbounded", "anchors": ["gglob/gglob.go: Match, Parse"]}
{"id": "C39", "title": "GGlob MatchByParts without length", "statement": "MatchByParts(parts,0) is true exactly when there are as many parts as glob parts (at least one) and each matches; with the length of the path it is Match. In terms of the text: exactly when each part is in the language of its glob part and not longer than the MaxLen of that, for parts with stars inside list values too.", "quantifier": "every parsed glob and every list of parts", "why_tests_cant": "unbounded", "anchors": ["gglob/gglob.go: MatchByParts"]}
{"id": "C40", "title": "GGlob.Parse is part-wise", "statement": "gglob.Parse splits at dots and parses each part with glob.Parse; Node is the dot-join of the part Nodes, MinLen the sum, MaxLen the sum or -1; it fails exactly on an empty part before the last or a part that does not parse, and never panics. A well-encoded text is accepted exactly when its parts are acceptable glob texts (C72). (An empty part at the end goes unnoticed.)", "quantifier": "every glob text", "why_tests_cant": "unbounded", "anchors": ["gglob/gglob.go: Parse"]}
{"id": "C41", "title": "GGlobTree registration", "statement": "GGlobTree.Add accepts or rejects exactly as the history dictates, never reuses an index and leaves the tree unchanged on error. AddGlob of a parsed glob whose text is not empty and has no trailing dot is accepted exactly when Add of that text is, and the two trees then match alike. (AddGlob records an empty text instead of the normalised one.)", "quantifier": "every history of Add calls", "why_tests_cant": "unbounded histories", "anchors": ["gglob/gtree.go: Add"]}
{"id": "C42", "title": "GGlobTree is exact", "statement": "GGlobTree.Match(path) stores exactly the accepted globs all of whose parts match the corresponding part of path, each exactly once. Parts that are normalised to the same text share one glob, the first, even if they mean different things: in general Match stores exactly the globs for which every part of the path is matched by the part accepted first in the place of theirs (in a glob with as many parts that begins alike up to there), each exactly once. With stars inside list values (parts that are read back from their normalised text): exactly the globs each part of which has the part of the path in its language and is not exceeded by it in MaxLen.", "quantifier": "every history of Add calls (first sentence: whose parts with equal Node match alike), every path", "why_tests_cant": "unbounded trie sharing", "anchors": ["gglob/gtree.go: addGGlob, MatchItems, Match"]}
{"id": "C43", "title": "GGlobTree entry points agree", "statement": "MatchByParts(PathSplit(path)) stores the same sequence and returns the same count as Match(path), for paths without empty parts. (They differ for a path with an empty part.)", "quantifier": "every tree and every path without empty parts", "why_tests_cant": "unbounded", "anchors": ["gglob/gtree.go: MatchByParts, MatchItemsByParts"]}
{"id": "C44", "title": "GGlobTree counts its reports", "statement": "The number returned equals the number of Store calls.", "quantifier": "every tree, every path", "why_tests_cant": "unbounded", "anchors": ["gglob/gtree.go"]}
{"id": "C45", "title": "Expansion is exactly the documented product", "statement": "Expand(s,max,depth) returns, in order, the concatenations obtained by choosing one value of every list/range that is expanded and copying the rest; without a limit and a depth every list and range is expanded.", "quantifier": "every text whose classes are valid UTF-8 with increasing intervals and contain neither NUL nor U+FFFD (both refuted), of which something is left, with at most 2^44 combinations; every max, depth within 64 bits", "why_tests_cant": "exponentially many results", "anchors": ["expand/expand.go: Expand, expand, ParseExpr", "expand/expression.go: appendNext"]}
{"id": "C46", "title": "Expansion limit is respected", "statement": "With max>0 Expand returns at most max results; when all combinations fit into max nothing is cut.", "quantifier": "every text shorter than 2^31 bytes and every 0<max<2^31, every depth", "why_tests_cant": "exponential outputs", "anchors": ["expand/expand.go: expand"]}
{"id": "C47", "title": "Disabled expansion copies the text", "statement": "With max=0 Expand returns one string: the factors as written (single-value lists and one-byte classes lose their brackets); the text itself when every bracket pair is a real choice.", "quantifier": "every readable text (a class with a reversed interval loses its brackets: refuted)", "why_tests_cant": "unbounded", "anchors": ["expand/expand.go: expand"]}
{"id": "C48", "title": "ExpandTry returns one string", "statement": "ExpandTry returns exactly one string, the first one Expand would return.", "quantifier": "every readable text, every max and depth", "why_tests_cant": "unbounded", "anchors": ["expand/expand.go: ExpandTry"]}
{"id": "C49", "title": "Expand does not panic", "statement": "Expand returns for every readable text whose number of combinations is at most 2^44, and panics exactly when nothing is left of the text (empty brackets only). When the number of all combinations is too large it panics whatever the limit.", "quantifier": "every readable text, every max and depth within 64 bits", "why_tests_cant": "unbounded", "anchors": ["expand/expand.go: ParseExpr"]}
{"id": "C50", "title": "Expanded strings belong to the glob", "statement": "For texts without leftover wildcards and without the class [-], every string returned by unlimited Expand is in the glob language of the text, and every string of that language is returned. ([-] is ignored by the glob but expands to '-'.)", "quantifier": "every readable text of well-formed UTF-8 without the class [-]", "why_tests_cant": "unbounded", "anchors": ["expand/expand.go", "glob/glob.go"]}
{"id": "C51", "title": "Query escaping round-trips", "statement": "Unescape(Query(s)) = s.", "quantifier": "every byte string", "why_tests_cant": "unbounded", "anchors": ["pkg/escape/url.go: escape", "pkg/escape/unescape.go: Unescape"]}
{"id": "C52", "title": "Path escaping round-trips without plus", "statement": "Unescape(Path(s)) = s exactly for the strings s without '+'.", "quantifier": "every byte string", "why_tests_cant": "unbounded", "anchors": ["pkg/escape/escape.go: Path"]}
{"id": "C53", "title": "Escaped query text is safe", "statement": "Query(s) replaces every byte by its escaped form (unreserved bytes stay, a space becomes '+', others become %XX), so it contains only letters, digits and - _ . ~ + %; in particular never & = ? ; or a space. Path likewise with its own set.", "quantifier": "every byte string", "why_tests_cant": "unbounded", "anchors": ["pkg/escape/url.go: shouldEscape, escape"]}
{"id": "C54", "title": "Streaming escape agrees", "statement": "QueryTo/PathTo append exactly Query(s)/Path(s) to the buffer, unless the last byte is not escaped and the one before it is: then exactly the last byte is lost.", "quantifier": "every byte string and buffer", "why_tests_cant": "unbounded", "anchors": ["pkg/escape/url.go: escapeTo"]}
{"id": "C55", "title": "Streaming unescape agrees", "statement": "UnescapeTo(s,sb) returns Unescape(s) whatever the buffer already holds and only appends to the buffer; UnescapeNameTo returns Unescape(s) and \"__name__=\"+Unescape(s).", "quantifier": "every byte string and every buffer content", "why_tests_cant": "unbounded", "anchors": ["pkg/escape/unescape.go: UnescapeTo, UnescapeNameTo"]}
{"id": "C56", "title": "Unescape is the identity on plain text", "statement": "Unescape is percent-decoding: each %XX with two hex digits becomes its byte, each '+' a space, everything else stays; so it is the identity on text without % and +, and never lengthens its input.", "quantifier": "every byte string", "why_tests_cant": "unbounded", "anchors": ["pkg/escape/unescape.go"]}
{"id": "C57", "title": "Tagged path decoding round-trips", "statement": "PathTags(name?k=v&..) built with Query-escaped parts returns exactly the tags that were encoded; likewise GraphitePathTags with ';'.", "quantifier": "every string; every name and every list of tags", "why_tests_cant": "unbounded", "anchors": ["gtags/tagged_term.go: PathTags, GraphitePathTags, NextTag"]}
{"id": "C58", "title": "Slice and map decoders agree", "statement": "PathTagsMap(path) is the map of PathTags(path) (later keys win) and fails exactly when PathTags fails; PathTagsMapB gives the same map whatever the given map held before; same for the Graphite variants. A nil map given to PathTagsMapB or GraphitePathTagsMapB panics.", "quantifier": "every path and previous map", "why_tests_cant": "unbounded", "anchors": ["gtags/tagged_term.go: PathTagsMap, PathTagsMapB, GraphitePathTagsMap, GraphitePathTagsMapB, TagsMap"]}
{"id": "C59", "title": "Condition order does not matter", "statement": "Permuting the conditions of a query does not change acceptance, the conditions in their order, the normalised text or the matches.", "quantifier": "every list of conditions and every permutation", "why_tests_cant": "factorially many", "anchors": ["gtags/tagged_term.go: ParseTaggedConditions"]}
{"id": "C60", "title": "Query text round-trips", "statement": "ParseSeriesByTag(terms.String()) gives back the same terms, when no key or value holds a single quote, no = value starts with '~', no key is blank and globs are written as given. Otherwise the round trip may fail.", "quantifier": "every accepted query within the conditions, any number of terms, any regexp engine", "why_tests_cant": "unbounded", "anchors": ["gtags/tagged_term.go: TaggedTermList.String, ParseSeriesByTag, seriesByTagArgs"]}
{"id": "C61", "title": "Term list semantics on maps", "statement": "MatchByTagsMap is true exactly when every = / =~ term has its key present with a matching value and no != / !=~ term has its key present with a value it forbids.", "quantifier": "every term list and tag map", "why_tests_cant": "unbounded", "anchors": ["gtags/tagged_term.go: MatchByTagsMap, Match"]}
{"id": "C62", "title": "Term list on slices agrees with maps", "statement": "For tags sorted by key with __name__ first, MatchByTags(tags) equals MatchByTagsMap(TagsMap(tags)) when the keys of the != and !=~ conditions are present. With an absent one MatchByTags looks at no later tag: conditions after it hold exactly when they are negative, so the two differ.", "quantifier": "every sorted tag list and every parsed query", "why_tests_cant": "unbounded", "anchors": ["gtags/tagged_term.go: MatchByTags"]}
{"id": "C63", "title": "Tag lookup is exact", "statement": "The positional tag search used by the tree finds a key exactly when it is present, from any start position.", "quantifier": "every sorted tag list, key and start", "why_tests_cant": "hand-written binary search", "anchors": ["gtags/items.go: find, TaggedItem.find"]}
{"id": "C64", "title": "GTagsTree is exact on maps", "statement": "GTagsTree.MatchByTagsMap on a non-empty map stores exactly the accepted queries (with at least one term) whose own MatchByTagsMap accepts the tags, each exactly once, when no key is blank and conditions written alike agree. (With no tags nothing is stored; a literal written like an earlier glob is taken for it.) Without agreement: whenever it returns, it stores exactly the queries each of whose conditions is met by the condition accepted first in the place of it, each exactly once, for queries that name the metric at most once, all of which do so or the first of which does not. For all queries with keys: whenever it returns, each stored query is stored once and has each of its conditions met by an accepted condition written alike; and a query is stored if all accepted conditions written like one of its are met.", "quantifier": "every history of Add calls, every non-empty tag map, every regexp engine", "why_tests_cant": "unbounded trie sharing", "anchors": ["gtags/items.go: Parse, MatchByTagsMap", "gtags/tree.go: Add, MatchByTagsMap"]}
{"id": "C65", "title": "GTagsTree entry points agree", "statement": "For sorted tags MatchByTags stores the same sequence as MatchByTagsMap, after the query without conditions if there is one, and returns the same count; where one panics the other does.", "quantifier": "every history of Add calls, every sorted tag list", "why_tests_cant": "unbounded", "anchors": ["gtags/items.go: MatchByTags, MatchByTagsMap"]}
{"id": "C66", "title": "GTagsTree pre-parsed registration has no effect", "statement": "AddTerms(terms,i) should make the terms match like Add of their text. It does not: after it the tree reports exactly what it reported before, with MatchByTagsMap and, on sorted tags, with MatchByTags.", "quantifier": "every history of Add calls, every list of terms, all tags", "why_tests_cant": "unbounded", "anchors": ["gtags/tree.go: AddTerms"]}
{"id": "C67", "title": "GTagsTree counts its reports", "statement": "MatchByTagsMap returns the number of Store calls, in every tree; MatchByTags too, except that the query without conditions is stored but not counted.", "quantifier": "every tree and tags", "why_tests_cant": "unbounded", "anchors": ["gtags/tree.go: MatchByTags"]}
{"id": "C68", "title": "GTagsTree registration does not panic", "statement": "GTagsTree.Add returns, for every sequence of calls on queries without blank keys, what the registry of earlier calls dictates; a blank key makes it panic or be taken for another key.", "quantifier": "every history of Add calls", "why_tests_cant": "unbounded", "anchors": ["gtags/items.go: findOrAppend, Parse", "gtags/tree.go: Add"]}
{"id": "C69", "title": "MinStore keeps the least index", "statement": "After any sequence of Store calls with non-negative indexes MinStore.Min is the least of them, and -1 if there were none.", "quantifier": "every sequence of Store calls", "why_tests_cant": "unbounded histories", "anchors": ["pkg/items/store.go: MinStore"]}
{"id": "C70", "title": "Collecting stores keep everything in order", "statement": "IndexStore.N and StringStore.S hold exactly the stored values in order; Grow never changes the content; Init empties.", "quantifier": "every sequence of Store/Grow/Init calls", "why_tests_cant": "unbounded histories", "anchors": ["pkg/items/store.go: IndexStore, StringStore"]}
{"id": "C71", "title": "AllStore combines the three", "statement": "AllStore after Init behaves as the three stores side by side (refuted without Init: Min stays 0).", "quantifier": "every sequence of Store calls", "why_tests_cant": "unbounded histories", "anchors": ["pkg/items/store.go: AllStore, NewAllStore"]}
{"id": "C72", "title": "Acceptance of glob texts", "statement": "Parse accepts a well-encoded text exactly when its classes and lists are closed, its class bodies readable, no closing bracket stands alone outside of them, and the values of each list are acceptable: they are all the same text, or each is well-formed, except that values after a value \"*\" in byte order are not looked at. In particular every well-formed glob (all brackets closed, readable classes, well-formed list values) is accepted, and without lists acceptance is exactly well-formedness.", "quantifier": "every text", "why_tests_cant": "infinitely many texts", "anchors": ["glob/glob.go: Parse", "pkg/items/wildcard.go: NextWildcardItem"]}
{"id": "C73", "title": "A parsed expression can be expanded again", "statement": "Expressions.Expand without the try flag leaves the parsed expression as it was, so repeating the call gives the same result.", "quantifier": "every text, every max and depth (refuted with the try flag)", "why_tests_cant": "the iteration state is spread over all nested expressions and must be restored for every text", "anchors": ["expand/expand.go: Expressions.Expand", "expand/expression.go: reset, appendNext"]}
{"id": "C74", "title": "Random strings match their glob", "statement": "WriteRandom of a parsed glob writes a string the glob matches, whatever the random numbers are. This holds for what is written put between the literal text before the first and after the last wildcard (which is not written), when no class has an ASCII member besides other members. A class with ASCII members only makes it panic; of a mixed class all ASCII members are written.", "quantifier": "every valid UTF-8 glob within the condition, every outcome of the random number generator", "why_tests_cant": "A test sees the outcomes of a few random numbers for a few globs.", "anchors": ["glob/glob.go: Glob.WriteRandom", "pkg/items/runesranges.go: RunesRanges.WriteRandom", "pkg/items/group.go: Group.WriteRandom", "pkg/items/chain.go: Chain.WriteRandom", "pkg/items/stringlist.go: StringList.WriteRandom"]}
{"id": "C75", "title": "Wildcard helpers", "statement": "HasWildcard tells whether a text holds one of [ ] { } * ?; IndexWildcard and IndexLastWildcard give the position of the first and the last of them, -1 exactly when there is none; WildcardCount is the number of bytes [ { * ? in the text, so it is 0 for a text without wildcards, but also for one with closing brackets only.", "quantifier": "every byte string, malformed UTF-8 included", "why_tests_cant": "Every text; counting reads symbols, searching reads bytes.", "anchors": ["pkg/items/utils.go: WildcardCount, HasWildcard, IndexWildcard, IndexLastWildcard", "gglob/utils.go: the same functions"]}
{"id": "C76", "title": "Matching with a MinStore picks the first glob, with an AllStore collects all of them", "statement": "After Init, Match of a tree with a MinStore leaves in Min the least index of the accepted globs (queries) that match, and -1 if none matches, whatever the store held before: for GGlobTree, for GTagsTree on a map (among queries with conditions), and for GlobTree (among globs that are neither plain text nor hidden, see C34). With an AllStore it leaves the canonical texts and the indexes of exactly these globs, at the same places of the two lists, each once for GGlobTree and GTagsTree, and the least index. Whatever the globs, whenever Match returns the index left in a MinStore does not depend on the order of the Add calls (for GGlobTree and GTagsTree if parts or conditions normalised to the same text match alike).", "quantifier": "every sequence of Add calls, every path, string or tags within the conditions of C42, C64, C34, every earlier content of the store", "why_tests_cant": "Unbounded histories and strings; the order in which the tree visits globs is not the order of indexes.", "anchors": ["pkg/items/store.go: MinStore, AllStore", "gglob/gtree.go: GGlobTree.Match", "gtags/tree.go: GTagsTree.MatchByTagsMap", "glob/tree.go: GlobTree.Match"]}
{"id": "C77", "title": "Order of registration does not matter", "statement": "Globs that are all accepted by Add are all accepted in any other order, and then every Match reports the same ones: for GGlobTree and GTagsTree the same multiset, if parts or conditions normalised to the same text match alike, and whether Match returns does not depend on the order either, for GlobTree the same set with a glob reported several times reported equally often, for all globs and strings on which Match returns. Adding further globs to a GGlobTree, whatever they are, leaves what Match and MatchByParts store for the earlier ones as it was, in the same order, on every path on which they return. Adding queries to a GTagsTree never changes whether an earlier one is reported: whatever the queries without blank keys, MatchByTagsMap, and MatchByTags on sorted tags, store for the earlier ones what they stored before, in the same order, on all tags on which they return. If in all globs of a GlobTree a '*' is followed only by '*' and '?', then what Match stores after further globs were added, with those globs left out, is what it stored before, in the same order and equally often, on every string. (In general, adding a glob to a GlobTree can make it stop reporting an earlier one.) (When two different parts or conditions are normalised to the same text the order does matter.)", "quantifier": "every sequence of Add calls, every permutation and every continuation of it, every path or map of tags within the conditions of C42, C64; every string for GlobTree, every glob and path for what is added to a GGlobTree, every query without blank keys and all tags for what is added to a GTagsTree", "why_tests_cant": "All permutations of all histories.", "anchors": ["gglob/gtree.go: GGlobTree.Add, addGGlob", "gtags/tree.go: GTagsTree.Add", "glob/tree.go: GlobTree.Add, addGlob"]}
{"id": "C78", "title": "Normalising twice changes nothing", "statement": "Parsing the normalised text (Node) of a parsed glob succeeds and gives the same glob: the same Node, MinLen, MaxLen, Prefix, Suffix, value map and items, hence the same answer for every string; and the same for dotted globs part by part, if no part is normalised to the empty text. This holds for globs without NUL and DEL whose classes do not span a change of the encoded length above ASCII, whose list values contain no class, no run of stars and no '?' before a star, and which have no list of a single value with wildcards and no class of a single wildcard character; each of these conditions is needed.", "quantifier": "every glob text within the conditions, every string matched", "why_tests_cant": "All texts; sorting, merging of adjacent items and the choice of prefix and suffix interact.", "anchors": ["glob/glob.go: Parse, Glob.Node", "gglob/gglob.go: Parse, GGlob.Node", "pkg/items/items.go: AppendItem", "pkg/items/wildcard.go: NextWildcardItem"]}
{"id": "C79", "title": "GlobTree matching does not panic", "statement": "GlobTree.Match returns one answer, on any string and any bytes, when all accepted globs satisfy the condition of C25 on their texts and no text follows a star inside a list value. It does not panic unless some accepted glob has a choice of list values that puts a '?', or U+FFFD standing alone, directly after a star. A malformed byte between two stars and a list with a '?' value directly after a star do make it panic.", "quantifier": "every history of Add calls (any texts, any bytes) without such a glob, every string, every number of steps", "why_tests_cant": "the panic depends on the combination of nodes in the shared tree and on the string", "anchors": ["pkg/items/tree.go: TreeItem.Match, matchStar, matchItemsInTree, matchStarItemsInTree", "glob/tree.go: GlobTree.Match"]}
{"id": "C80", "title": "A reported match is a match", "statement": "If Match of a parsed glob that satisfies the condition of C25 on its text (for instance one without '?') reports true for a string, the string is in the language of the glob text (a literal denotes itself, '*' any text, a class one symbol, a list the language of one of its values), whatever the lists contain: stars, classes and empty values inside lists may cause matches to be missed, never invented. More generally this holds for every glob in which no choice of list values puts a star that needs a symbol (\"*?\") directly after a star; without that condition false matches are reported. The same holds part by part for dotted globs, for Match and MatchByParts with any length, and for trees of globs and of dotted globs: after any calls of Add, whatever the tree reports for a string or a path is an accepted glob that denotes it (part by part for dotted globs). When a parsed query accepts a map of tags, or a tree of queries reports a query, the tags satisfy all conditions of the query text other than those with '!='.", "quantifier": "every well-encoded glob text without NUL, other than the lone star, without a list of a single value with wildcards, within the condition (for queries and trees of dotted globs also without DEL and with plain classes); every string and path, any bytes; every history of Add calls", "why_tests_cant": "a false match needs a particular combination of list values, item order and string", "anchors": ["glob/glob.go: Parse, Glob.Match", "pkg/items/items.go: matchItems, matchStarItems", "pkg/items/star.go: Star", "pkg/items/group.go", "gglob/gglob.go: GGlob.Match, MatchByParts", "gglob/gtree.go: GGlobTree.Add, Match, MatchByParts", "glob/tree.go: GlobTree.Add, Match", "pkg/items/tree.go", "gtags/tagged_term.go: TaggedTermList.MatchByTagsMap", "gtags/tree.go: MatchByTagsMap, MatchByTags"]}
{"id": "C81", "title": "Reading a query", "statement": "ParseSeriesByTag succeeds exactly on texts made of seriesByTag( ... ), spaces around ignored, holding at most 128 non-empty texts in single or double quotes with commas and spaces between them, each the text of a condition: a non-empty key without '=', '~' and '!', one of the operators =, !=, =~, !=~, and a value; white space around key and value is ignored and the key \"name\" stands for \"__name__\"; the value of =~ and !=~ must be an accepted regular expression, and a value of = and != with wildcards must be an accepted glob. The result holds exactly the conditions read, \"__name__\" first, then by key, operator and value. Otherwise an error is returned, never a panic. ParseTaggedConditions reads a list of conditions in the same way.", "quantifier": "every query text, any bytes; any regexp engine; any number of conditions for ParseTaggedConditions", "why_tests_cant": "the accepted texts are infinitely many, and so are the refused ones", "anchors": ["gtags/tagged_term.go: ParseSeriesByTag, ParseTaggedConditions, seriesByTagArgs"]}
{"id": "C82", "title": "What a query selects", "statement": "A query text selects a set of tags when each of its conditions is satisfied: key=value by a value of the key that equals the text or, if the text has wildcards, belongs to the language of the glob; key=~re by a value the regular expression matches; key!=value and key!=~re by any other value or the absence of the key. MatchByTagsMap of the parsed query is true exactly for the tags its text selects; GTagsTree.MatchByTagsMap reports exactly the accepted queries with conditions whose text selects the tags, each once, and on tags sorted by key GTagsTree.MatchByTags exactly the accepted queries whose text selects the tags. Globs with stars anywhere in list values select in the same way, up to the MaxLen of each glob.", "quantifier": "every query whose globs are in the fragment of C21 (and of C28 for trees) and whose keys are not blank, every history of Add calls, every non-empty set of tags (values: any bytes unless a class of the glob has several members and one of them beyond ASCII, else valid UTF-8 without U+FFFD), any regexp engine", "why_tests_cant": "the meaning of query texts ranges over all texts, registration histories and tags", "anchors": ["gtags/tagged_term.go: ParseSeriesByTag, TaggedTermList.MatchByTagsMap", "gtags/tree.go: GTagsTree.Add, MatchByTagsMap, MatchByTags"]}
{"id": "C83", "title": "ParseMust", "statement": "ParseMust of the packages glob and gglob returns exactly what Parse returns when Parse succeeds, and panics exactly when Parse returns an error; on well-encoded texts, exactly on the texts that are not acceptable (C72, C40). It always does one of the two.", "quantifier": "every text, any bytes", "why_tests_cant": "the texts are infinitely many", "anchors": ["glob/glob.go: ParseMust", "gglob/gglob.go: ParseMust"]}
{"id": "C84", "title": "Errors name the offending text", "statement": "When glob.Parse fails, the message of the error ends with a piece of the text that starts with a bracket; on a valid text it is the first thing that cannot be accepted: a closing bracket that closes nothing with what follows, a class with a bad body, a class or list that is not closed, or such a thing within a value of a list. When gglob.Parse fails, the error is the one of the first part that is not accepted, all parts before being accepted, or names the whole path when an empty part comes first. When ParseSeriesByTag fails, the error names the whole query if it is not seriesByTag(...) or has more than 128 conditions, the rest of the arguments where a quote is missing, or, for the first condition that cannot be read, the condition without operator or key, the text from an operator that does not exist, the value that is no regular expression, or what glob.Parse says of the value.", "quantifier": "every text that is refused, any bytes; any regexp engine", "why_tests_cant": "the refused texts are infinitely many", "anchors": ["pkg/items/errors.go", "gtags/errors.go", "glob/glob.go: Parse", "gglob/gglob.go: Parse", "gtags/tagged_term.go: ParseSeriesByTag"]}
{"id": "C85", "title": "Paths that are not well formed", "statement": "For any path, PathTags and GraphitePathTags return the name (up to the first separator, or all of the path) and, unescaped and in order, the tags before the first piece without '='; PathTagsMap, PathTagsMapB and the Graphite variants give the map of the same tags. The error is about the piece without '=' if there is one, otherwise about the name if its separator is missing or it has a '=' in it, otherwise nil. The message names the piece without '=' (refuted: the place of the name is empty in it).", "quantifier": "every path, any bytes, and every previous map", "why_tests_cant": "the paths are infinitely many", "anchors": ["gtags/tagged_term.go: PathTags, PathTagsMap, PathTagsMapB, GraphitePathTags, GraphitePathTagsMap, GraphitePathTagsMapB, NextTag, NextTagGraphite", "gtags/errors.go: ErrPathInvalid"]}
{"id": "C86", "title": "Matching paths and tags returns an answer", "statement": "GGlob.Match and MatchByParts return true or false on every path, every list of parts and every length when the parts of the glob satisfy the condition of C25. After any calls of Add that accept only such globs, GGlobTree.Match and MatchByParts return on every path. MatchByTagsMap and MatchByTags of a parsed query return on any tags when the globs in its '=' and '!=' conditions satisfy the condition of C25; after any calls of Add that accept only such queries, so do MatchByTagsMap of the tree of queries and, on sorted tags, MatchByTags. Without the condition all of them may panic (refuted: a part or value \"*{?,b}\").", "quantifier": "every parsed dotted glob and query under the condition, every history of Add calls (any texts, any bytes), every path, list of parts and list of tags, any regexp engine", "why_tests_cant": "a panic needs a particular combination of globs in the tree and of path or tags", "anchors": ["gglob/gglob.go: GGlob.Match, MatchByParts", "gglob/gtree.go: GGlobTree.Match, MatchByParts", "gtags/tagged_term.go: TaggedTermList.MatchByTagsMap, MatchByTags", "gtags/tree.go: GTagsTree.MatchByTagsMap, MatchByTags", "pkg/items/items.go: matchItems, matchStarItems"]}
{"id": "C87", "title": "Expanding and matching agree", "statement": "A text without leftover wildcards that Expand lists completely (no limit, no depth; no NUL and no class [-]) is accepted by Parse, and Match of the glob returns true exactly for the strings in the list. Read as a dotted glob, with no dot in a class, MatchByParts without a length is true exactly for the parts of the listed paths, and a GGlobTree that holds the glob reports it exactly for the listed paths (paths without empty parts and without a trailing dot). GGlob.Match should agree too, but rejects listed paths of more than one part (refuted).", "quantifier": "every such text, every string, path and list of parts (any bytes for Match of a glob), every history of Add calls", "why_tests_cant": "it relates two independent readers of the same text on all strings", "anchors": ["expand/expand.go: Expand", "expand/expression.go", "expand/runes.go", "glob/glob.go: Parse, Glob.Match", "gglob/gglob.go: GGlob.MatchByParts, Match", "gglob/gtree.go: GGlobTree.Add, Match"]}
{"id": "C88", "title": "Written paths reach the queries that select them", "statement": "A metric name and tags written as a tagged path (name?key=value&..., or Graphite's name;key=value;..., everything escaped), decoded with PathTagsMap or GraphitePathTagsMap and handed to a query or a tree of queries, are accepted or reported exactly for the queries whose text selects the name and tags that were written. With the tags in sorted order the same holds of PathTags or GraphitePathTags followed by MatchByTags.", "quantifier": "every name and list of tags with distinct keys (any bytes), every history of accepted queries, every well-formed or lone-class glob in them", "why_tests_cant": "it composes escaping, decoding, parsing of queries and tree matching over all names, tags and histories", "anchors": ["gtags/tagged_term.go: PathTags, PathTagsMap, GraphitePathTags, GraphitePathTagsMap", "pkg/escape/escape.go: Query", "pkg/escape/unescape.go: Unescape", "gtags/tree.go: GTagsTree.Add, MatchByTagsMap, MatchByTags", "gtags/tagged_term.go: ParseSeriesByTag, TaggedTermList.MatchByTagsMap"]}
{"id": "C89", "title": "The common beginning of strings", "statement": "interceptionLeft returns, for well-formed strings, the longest well-formed text that all of them begin with. (Of malformed strings it may return a text that one of them does not begin with, or panic.)", "quantifier": "every non-empty list of well-formed strings", "why_tests_cant": "the loop compares symbol by symbol at a byte index taken from the first string; that the index is a symbol boundary of every other one is an invariant over all lists and lengths", "anchors": ["pkg/items/stringlist.go: interceptionLeft"]}
{"id": "C90", "title": "Trees filled with texts and with parsed globs or queries", "statement": "Registering a glob by its text (Add) or parsed (AddGlob) comes to the same. A GGlobTree filled by any mixture of both, with texts that normalising twice leaves as normalising once does, never accepts two globs with a common name and answers every path and every list of parts as the tree that got the accepted globs by Add alone. A GlobTree does so if no two accepted globs have a name (text or normalised text) in common; otherwise it may not: AddGlob does not record the normalised text, so that Add of that text is accepted afterwards and silently takes the place of the glob. A GTagsTree filled by any mixture of Add and AddTerms reports exactly the matching queries accepted by Add, each once, with either Match function.", "quantifier": "every sequence of Add and AddGlob (AddTerms) calls, every string, path, list of parts, set of tags", "why_tests_cant": "interleavings of the two registration functions are unbounded and they keep different records of what was registered", "anchors": ["glob/tree.go: GlobTree.Add, GlobTree.AddGlob", "gglob/tree.go: GGlobTree.Add, GGlobTree.AddGlob", "gtags/tree.go: GTagsTree.Add, GTagsTree.AddTerms"]}
{"id": "C91", "title": "GTagsTree branches once on each key", "statement": "At every level of a GTagsTree the keys are sorted with __name__ first, no key occurs twice, and no condition is stored twice in one place, if the accepted queries name the metric at most once each and all of them do so or the first does not. (After a first query on the name alone, any other key is put in front of __name__, and a later condition on the name gets a second entry.)", "quantifier": "every history of Add calls with such queries, every item of the tree (exported as Root and Items)", "why_tests_cant": "the insertion by binary search must keep an invariant of every level of every tree", "anchors": ["gtags/items.go: findOrAppend, Parse", "gtags/tree.go: Add"]}
{"id": "C92", "title": "Matching tags that are not sorted", "statement": "MatchByTags, of a query's conditions and of a GTagsTree, on tags in any order and with repeated keys: what it accepts or stores has each of its = and =~ conditions met by a value that the tags give to the key (in a tree: a value that an accepted condition written alike accepts), each index is stored at most once, and on calm globs it returns. If the keys differ, a query with only such conditions is accepted or stored only if MatchByTagsMap does so. (More does not hold: unsorted tags make it miss queries the tags meet, and accept != conditions they do not meet.)", "quantifier": "every list of tags, every list of conditions, every history of Add calls with queries without blank keys", "why_tests_cant": "the binary search for a key must stay within the tags and be sound for every order of every list of tags", "anchors": ["gtags/tagged_term.go: MatchByTags", "gtags/items.go: MatchByTags", "gtags/tree.go: MatchByTags"]}
{"id": "C93", "title": "GlobTree stores a glob at most once", "statement": "GlobTree.Match stores no index twice and its counter is the number of different globs stored, when in every accepted glob only further * and ? come after a *, and the values of every list are literal text, none the beginning of another. In the fragment of C21 it then stores exactly the accepted globs that match s and are no plain text, each once; none is hidden. (Other globs may be stored several times for one string: *a*, {a,ab}{bc,c}, {a,?}.)", "quantifier": "every history of Add calls with such globs, every string (for the second part as in C34)", "why_tests_cant": "a double report needs two ways through some tree for some string; all trees and strings must be excluded", "anchors": ["glob/tree.go: Add, Match", "pkg/items/tree.go: Match, match", "pkg/items/store.go: LocateChildTreeItem"]}

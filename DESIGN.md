# Formal model of msaf1980/go-matcher

## 1. Method

The Go code is transcribed, function by function, into total computable Gallina
functions (Coq 8.16.1, standard library only).  Each property of
`properties.jsonl` is then one or more theorems about those functions, quantified
over all inputs, histories and sizes.  Where the code deviates from what a user
would expect, the property's statement says so, the deviation is characterised
exactly where we could, and a theorem whose name ends in `_refuted` exhibits it
(for a concrete witness or, when possible, for every input of some shape).  A theorem
that covered only part of its property would end in `_partial`; there is none left.

Layout of `rocq/theories/`:

| directory | content |
|---|---|
| `Model/` | definitions only; every definition cites file and lines of `/repo` |
| `Spec/`  | the vocabulary the theorems are stated in; does not use the model's parsers or matchers |
| `Proof/` | lemmas; the `*Top.v` files hold the final form of each statement |
| `Props/` | one file per area: the property theorems (`exact lemma`), a non-trivial concrete instance beside each, and `Print Assumptions` |
| `Conf/`  | conformance: test tables of the repository's own unit tests (glob, tree, gglob, gtags, expand, items, utils; not every test), replayed on the model by `vm_compute` |

`Props/` is generated from the `*Top.v` files by `tools/props.py`, `MANIFEST.json` by
`tools/manifest.py`; both outputs are committed, nothing is generated at build time.

## 2. Modelling decisions

* **Strings** are `list ascii` (bytes, not runes), so malformed UTF-8 is a first
  class input.  Go `string`/`[]byte` slicing becomes `firstn`/`skipn`.
* **UTF-8** (`Model/Utf8.v`): `utf8.DecodeRuneInString`, `DecodeLastRuneInString`,
  `RuneLen`, `EncodeRune`, `range` over a string and `strings.IndexRune` are transcribed
  from the Go standard library's documented algorithm (accept ranges per first byte,
  `RuneError` of width 1 on malformed input, width 0 on empty input).
* **Offsets**: Go's `-1` is `None`; a found offset is `Some n`.  Sizes that use `-1`
  as "unlimited" inside arithmetic (`MaxLen`, `MaxSize`) are `Z`, because the code
  adds to that sentinel.
* **int** is unbounded (`Z`/`nat`), except in `expand`: there the 64-bit counters wrap
  and `make` with too large a capacity panics (the limit 2^44 elements is that of amd64).
  Theorems about `expand` state `fits` hypotheses (within 64 bits).
* **Pointers and in-place mutation**: trees are functional trees; `Add` returns the
  new tree.  The code never aliases a node from two places, so this is faithful.
  Slices that are rewritten in place (range merging, duplicate removal) are lists
  with an explicit index-update function, keeping the two-index algorithm.
* **Maps** are association lists with lookup/insert/delete.  No modelled function
  depends on map iteration order (the only `range` over a map deletes all keys).
* **sort.Strings / sort.Slice** are modelled by insertion sort with the code's own
  comparator.  Elements that compare equal are equal values, except that of two tag
  conditions written alike the globs may keep different source texts (no modelled output shows
  which comes first; C59 is stated on what is written and matched).
* **panic**, **error** and **non-termination** are values: results have type
  `res A := Ok a | Err e | Panic | Fuel`.  Recursive functions whose termination is
  not structural take fuel.  `Fuel` is never a default answer: theorems exclude it
  explicitly.  "Terminates" means that with the fuel the entry point supplies (or, for
  trees, with some fuel and every larger one) `Fuel` is not returned; "does not
  terminate" means `Fuel` for every amount of fuel.
* **Errors** are values with the fields of the Go types; `err_text` is `Error()`.
* **Stores**: a matching function returns the list of `(query, index)` pairs it stores,
  in order, together with the count it returns, kept separately; `Model/Store.v` models
  what the four stores do with such calls.
* **regexp** (`=~`, `!=~`) is a parameter: an arbitrary partial compile function and an
  arbitrary match function.  Theorems hold for every such pair.
* **math/rand**: a function that draws random numbers returns the list of all its
  outcomes (`Model/Random.v`).

## 3. Specifications

* `Spec/Symbols.v`: `symbols s`, the cutting of any byte string into symbols (a well-formed
  UTF-8 sequence or a single malformed byte), `scalar`, `clean` (valid UTF-8 without U+FFFD).
* `Spec/Class.v`: what the body of a class `[..]` denotes (`class_pairs`, `in_class`,
  `good_class`); `Spec/ClassOps.v`: histories of Add/Adds/Merge; `Spec/SetSpec.v`: ASCII sets.
* `Spec/GlobSpec.v`: `denotes g w`, the language of a glob *text* as an inductive relation
  with one or two rules per construct; `well_formed`, `brackets_closed`; the conditions
  `regular`, `plain_singles`, `plain_classes`, `ascii_classes_single`, `lone_classes`, `only_star` on texts.
* `Spec/Lang.v`: `den`/`dens`, the language of items; `Spec/Safe.v`: `safe`, `path`, `star_any`, `star_stray`, `star_trap` (a `?`, or U+FFFD alone, after a star on a path);
  `Spec/Same.v`: equality of parse results up to the raw text.
* `Spec/RegistrySpec.v`: a history of Add calls as a list of accepted (text, index) pairs.
* `Spec/GlobTreeSpec.v`: `tree_glob`, `hidden`, `plain_text`; `Spec/TreeStarSpec.v`: `star_glob`, `shadowed`; `Spec/GGlobSpec.v`, `Spec/PathSpec.v`:
  dotted paths and globs part by part.
* `Spec/TagSpec.v`, `Spec/TagTreeSpec.v`: tags, terms, query texts, sorted tag lists;
  `Spec/QuerySpec.v`: the grammar of query texts; `Spec/SelectSpec.v`: the tags a query text selects; `Spec/TameSpec.v`: queries with calm globs (C80); `Spec/ApartSpec.v`: calm globs, by text (C25, C79, C80, C86); `Spec/CalmSpec.v`: dotted globs and queries with calm globs (C86); `Spec/SteadySpec.v`: dotted globs and queries whose globs are neat and calm (C42, C64, C65, C77); `Spec/CommonSpec.v`: common beginnings (C89); `Spec/AgreeSpec.v`: texts that Expand lists completely (C87); `Spec/MixSpec.v`: mixed calls with texts and with parsed globs or queries (C90); `Spec/FirstSpec.v`: the part that stands for another in a tree of dotted globs (C42, C77); `Spec/LevelSpec.v`: the keys at the levels of a tree of queries, the condition that stands for another (C64, C91); `Spec/FitSpec.v`: dotted globs whose parts match up to their MaxLen (C38, C39, C42); `Spec/FitTagSpec.v`: the same for queries (C82); `Spec/OnceSpec.v`: globs that match in one way (C93); `Spec/LaterSpec.v`: globs with stars only at their end (C36, C77).
* `Spec/ExpandSpec.v`: the factors of a text and their cartesian product.
* `Spec/Url.v`: percent-encoding byte by byte; `Spec/StoreSpec.v`: store histories;
  `Spec/IntersectSpec.v`: common beginnings; `Spec/UseSpec.v`: reports as store calls, least index;
  `Spec/Neat.v`: texts that are read back from their normalised form;
  `Spec/ErrSpec.v`: what an error names, and what a path that is not well formed decodes to.

"Symbols" are Unicode scalar values encoded in UTF-8.  The code treats U+FFFD
(`utf8.RuneError`) as "malformed", so exactness theorems are stated for *clean*
glob texts, and for clean subjects or globs in which no class has several members with one of
them beyond ASCII (`lone_classes`).  Termination, panic, registration and counting theorems range over all byte
strings unless said otherwise.

The *fragment of C21* named in several properties is `exact_lists` of `Spec/StarSpec.v`: the values
of a list after a `*` (a star in an earlier list counts) start with an ordinary character or a
non-empty class; such a list has a wildcard in it, or is followed by `*`, or ends the glob; a `*` in
a list value comes last in it; and a list with such a value is followed by an ordinary character, a
non-empty class or a list, or ends the glob.  To it come `plain_singles`, no NUL and not the glob `[*]`.
`regular_stars` is the same with text allowed after a star in a value (exact up to MaxLen).
`regular` (`Spec/GlobSpec.v`) is the part without stars in lists; it is the fragment of the exact
theorems about trees of globs (C33, C34, C36, C76, C77); `c34_stars` covers `star_glob` (`Spec/TreeStarSpec.v`), stars in lists included,
with completeness up to `shadowed`.  Every condition has a counterexample among the `c21_*_refuted` theorems.

## 4. Properties: what is modelled and how it is proved

| id | model | proof |
|---|---|---|
| C01 | StringSkipRunes(,Last), UTF-8 decoding | induction on the symbol list of an arbitrary byte string |
| C02-C04 | ASCIISet as eight 32-bit words | bit lemmas on N, induction on added bytes |
| C05 | WriteString + RunesRangeExpand | run decomposition, induction on the code point scanned; reading printed classes back |
| C06 | in-place RunesRangeMerge | loop invariant relating the array to a functional merge |
| C07 | ContainsUnicode binary search, Add/Adds/Merge | invariant on [low,high]; invariant over call histories |
| C08, C09 | RunesRangeExpand state machine | simulation with the class grammar of the spec |
| C10-C12 | Index, StartsWith, EndsWith, IndexByte | induction on symbols; non-termination by induction on fuel |
| C13, C14 | item Match/Find/MatchLast | per item kind |
| C15, C26 | MinLen/MaxLen | induction on item construction |
| C16 | AppendItem, Parse's merging | case analysis on item pairs; parser invariant (prefix, items, suffix denote the text) |
| C17 | Equal | nested induction on items |
| C18, C29 | ListExpand | uniqueness of sorted duplicate-free lists |
| C19 | FindFirst/MatchFirst | membership of first bytes |
| C20, C72, C83 | Parse, ParseMust | fuel adequacy of the tokenizer; bracket grammar; exact acceptance (Spec/Accept.v) by induction on the text, both ways |
| C21 | Parse + Match against `denotes` | parser correctness to item denotation, then mutual induction on fuel over the five loops of the matcher with the greedy-abort invariant |
| C22, C23, C27 | Match | direct |
| C24 | Match | a measure that every recursive call decreases |
| C25 | Match | `quiet` items cannot panic, and matching never gives an error; the items of the parser whose paths have no `?` and no lone U+FFFD after a star are quiet (Rune.Find finds U+FFFD in a malformed byte and reports three bytes, `after_found` then cuts past the end); a well-formed text has no lone U+FFFD (`Proof/TidyP.v`); for texts with lists kept apart, by induction over the parser loop with an invariant on what precedes the next item |
| C28 | Node | denotation of printed items |
| C30 | IntersectGlobs | loop invariant over positions and globs |
| C31, C32, C41, C66, C68 | Add/AddGlob/AddTerms state machines | invariants over histories, refinement to the registry |
| C33-C36 | TreeItem matching | the trie is the merge of the item lists of the accepted globs; matching a node reports the union over its children; induction on fuel, fuel monotonicity, weight bound; ending for any bytes by a measure on the rest of the string, with the list values bounded (Spec/EndSpec.v); what is stored was registered, by induction on the fuel through the six matchers |
| C37-C40 | gglob helpers, GGlob | induction on parts |
| C42-C44 | GTreeItem trie | refinement to the list of accepted globs, parametric in the part matcher; for all globs by an invariant that the item of every node is the part of the first accepted glob through that node |
| C45-C50, C73 | expand | factorisation of the text, state machine refined to the cartesian product in order |
| C51-C56 | escape | induction on bytes |
| C57-C60 | tag decoding and query parsing | induction on tags / conditions |
| C61-C65, C67 | terms, find, TaggedItem trie | refinement to the list of accepted queries |
| C69-C71 | stores | induction on the history |
| C75 | wildcard helpers | byte/rune correspondence of UTF-8 decoding |
| C76 | stores after matching | C34, C42, C64 composed with C69-C71; in any order of registration by C77, the least of permuted lists being the same |
| C77 | Add histories | acceptance is a symmetric condition on the calls; then C34, C42, C64 (in the form with the part or condition accepted first, so for all globs and queries) (also for neat and calm globs, by re-reading their normalised texts, C78); GlobTree, all globs: trees equal up to the order of children give permuted reports, by induction on the fuel through the six matchers; stars only at the end: a tree and the tree it grows into are matched side by side, no item but a final star ends the walk early; GGlobTree and GTagsTree: a tree and the tree it grows into are matched side by side, new branches store nothing but new globs; whether a match returns in another order: a tree is matched without failure exactly if, along the path of every accepted glob or query, each part or condition that is reached can be evaluated, which does not mention the order |
| C78 | Parse of Node | the items of a first parse are in normal form (nothing left to merge, no literal at either end) and each is read back from its own text; then the loop over their texts rebuilds the list and the bounds |
| C79 | TreeItem matching, panics | the item paths of the tree are, up to Equal, the paths of the accepted globs; "no star before a question mark or a lone U+FFFD" (C25) carries over along Equal because the recorded least lengths agree; induction on fuel |
| C80 | Glob.Match, GGlob.Match, MatchByParts, GlobTree.Match, GGlobTree.Match, GTagsTree matching | induction on fuel over the matchers: whatever the items find lies in the language of the remaining items, if every star with a least count follows no star on any path through the lists; the step from items to text is the one of C21; in the tree of globs the same induction runs over the matchers of pkg/items/tree.go, with the items on the path to the stored term as the remaining items; in the tree of dotted globs every report follows keys whose parts match, and C28 carries the language over to parts with the same canonical text; the same for the conditions of queries |
| C81 | ParseSeriesByTag, ParseTaggedConditions | both directions against a grammar of query texts (Spec/QuerySpec.v): induction on the argument loop; trimming by the symbols of the text; the order by C59's comparator |
| C82 | ParseSeriesByTag + MatchByTagsMap, GTagsTree | text-level meaning of queries (Spec/SelectSpec.v); C81, C61, C64, C65 composed with C21 and C28 |
| C84 | errors of glob.Parse, gglob.Parse, ParseSeriesByTag | induction on the parsers: whatever fails is the first thing not accepted, and the error carries its text |
| C85 | PathTags and the other path decoders, any path | induction on the pieces of the path; the error text is computed from the model of `Error()` |
| C86 | GGlob.Match, MatchByParts, GGlobTree, TaggedTermList and GTagsTree matching | every item of every node answers on every string (C25); induction on the path or the list of parts, for well-formed trees |
| C87 | Expand against Glob.Match, MatchByParts and GGlobTree.Match | both agree with `denotes` (C21, C50, C80); the language of a dotted text is cut at the dots, by induction over its closed brackets |
| C88 | written tagged paths, decoded and matched against queries and trees of queries | composition of C57, C58 and C82; the map of tags with distinct keys has the same values |
| C89 | `interceptionLeft` | induction on the symbols of the first string: what is scanned begins all the others |
| C90 | `run_calls` of Add and AddGlob/AddTerms | invariant: the tree is that of the accepted entries by Add alone, and all their indices (and, for dotted globs, normalised texts) are recorded; for queries: the marked paths are those of the queries of Add |
| C91 | `find_or_append`, `ti_parse` | the binary search on sorted keys finds the key or its place; invariant of all levels (sorted keys, conditions once, no dead branches) along the history; the path of an inserted query follows the conditions stored first |
| C92 | `terms_match_tags`, `find_key`, `ti_match_tags`, `tg_match_tags` | the search for a key stays within bounds and is sound on any keys (unsorted); induction on the tree: what is stored is a sublist of the paths of the tree whose positive conditions are met; witnesses that sorting is needed for more |
| C93 | `tree_match`, `t_match`, `tree_insert`, `glob_parse` | the terms of a tree, in order: an insertion adds one and removes at most some; in a tree where stars are leaves and list values exclude each other, what is stored is a sublist of them; the parser makes only such trees of such texts |
| C74 | WriteRandom | induction on items, over all outcomes |

Concurrency: the library has no goroutines, locks or channels and its documentation says
nothing about concurrent use.  The model has no shared memory, so no property about concurrent
calls is stated.

## 5. What is modelled and what is not

Modelled, with all their branches:

* `pkg/utils`: asciiset.go (all), runesranges.go (all), string.go (`StringSkipRunes`,
  `StringSkipRunesLast`, `SplitString`), utils.go.
* `pkg/items`: all item kinds (any, byte, rune, star, string, stringlist, group, chain,
  runesranges): `Equal`, `Match`, `Find`, `MatchLast`, `MinLen`, `MaxLen`, `WriteString`,
  `WriteRandom`, the list filters, `NewItemList`, `NewGroup`, `ListExpand`, `removeDuplicated`;
  items.go (`ItemsEqual`, `MatchItems`, `matchItems`, `matchStarItems`, `AppendItem`);
  wildcard.go; tree.go (all); store.go (all, `LocateChildTreeItem` included); utils.go (all).
* `glob`: glob.go and tree.go (all but `Raw`).
* `gglob`: gglob.go, gtree.go, utils.go (all; the wildcard helpers are the
  same text as those of pkg/items and modelled once).
* `gtags`: tagged_term.go, items.go, tree.go, errors.go (all).
* `expand`: expand.go, expression.go, runes.go, except `minLen` (which nothing calls).
* `pkg/escape`: escape.go, url.go, unescape.go (all).

Inlined where they are called: `String.Add*/Prepend*`, `Byte.Append*`, `Rune.Append*`, `NewString`,
`NewChain`, `hasName`, `isPercentEscape`, and the `String()` methods, which call `WriteString`.

Not modelled: the error types `ErrNodeNotEnd`, `ErrGlobNotExpanded` (never returned), the text of `ErrUnsupportedExp`,
`NodeItem` (unused by the packages above),
`CloneString`/`UnsafeString` (memory
sharing), capacity hints and `Grow` of builders, `pkg/tests` (test helpers), `cmd`-like
and benchmark code.

## 6. Trusted base

* Coq's kernel (8.16.1); `vm_compute` is used for concrete witnesses and examples only.
* `Print Assumptions` under every property theorem in `Props/` prints
  "Closed under the global context": no theorem depends on any axiom.
* No axioms are declared.  `vcheck` lists seven library axioms, the fields of the module type
  in `Coq.ssr.ssrunder`, a standard library file that is loaded through `ZifyBool`; no theorem
  uses them.
* The faithfulness of `Model/` to `/repo`: by transcription with line citations, by the
  replayed unit tests of the repository in `Conf/`, and of the modelled parts of Go's
  standard library (`strings`, `unicode/utf8`, `sort`, `math/rand`, the capacity limit of
  `make` on amd64).
* The seeded-bug experiments in `seeded/LOG.jsonl`: each line is one edit of the model in a
  scratch copy, with the property theorems that no longer hold.  A theorem counts as failed if
  its proof, or that of a lemma it depends on, is no longer accepted by Coq.  That is weaker than
  the theorem being false of the edited model: a proof script can also break because it no longer
  fits the text of a definition.  `run_on` names the revision a line was run on; theorem names
  are those of that revision.

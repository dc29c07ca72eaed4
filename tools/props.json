[
 [
  "RangesTop",
  "PClass",
  "C05-C12: character classes."
 ],
 [
  "EscapeTop",
  "PEscape",
  "C51-C56: escaping and unescaping."
 ],
 [
  "StoreTop",
  "PStore",
  "C69-C71: stores."
 ],
 [
  "ItemTop",
  "PItems",
  "C13-C19: glob items."
 ],
 [
  "GlobTop",
  "PGlob",
  "C20-C27, C72, C80, C83: parsing and matching globs."
 ],
 [
  "NodeTop",
  "PNode",
  "C28, C29: canonical text."
 ],
 [
  "GGlobTop",
  "PGGlob",
  "C37-C44, C80, C83: dotted globs and trees of them."
 ],
 [
  "TagTop",
  "PTags",
  "C57-C68, C81: tagged series and trees of tag queries."
 ],
 [
  "SelectTop",
  "PSelect",
  "C80, C82: what a query selects."
 ],
 [
  "ExpandTop",
  "PExpand",
  "C45-C50, C73: expansion."
 ],
 [
  "GlobTreeTop",
  "PTree",
  "C31-C36, C79, C80: trees of globs."
 ],
 [
  "IntersectTop",
  "PIntersect",
  "C30: the common prefix of globs."
 ],
 [
  "RandomTop",
  "PRandom",
  "C74: random strings."
 ],
 [
  "UseTop",
  "PUse",
  "C75-C77: wildcard helpers, trees with stores, order of registration."
 ],
 [
  "RereadTop",
  "PReread",
  "C78: reading the canonical text again."
 ],
 [
  "ErrTop",
  "PErrors",
  "C84, C85: what errors say, paths that are not well formed."
 ],
 [
  "ReturnsTop",
  "PReturns",
  "C86: matching paths and tags returns an answer."
 ],
 [
  "AgreeTop",
  "PAgree",
  "C87: what Expand lists and what the glob matches."
 ],
 [
  "JourneyTop",
  "PJourney",
  "C88: from a written path to the queries that select it."
 ],
 [
  "SteadyTop",
  "PSteady",
  "C42, C64, C65, C77: trees of steady globs and queries on any bytes."
 ],
 [
  "CommonTop",
  "PCommon",
  "C89: the common beginning of strings."
 ],
 [
  "TreePermTop",
  "PTreeOrder",
  "C42, C77: the order of registration, all globs."
 ],
 [
  "MixTop",
  "PMix",
  "C90: trees filled with texts and with parsed globs or queries."
 ],
 [
  "FirstTop",
  "PFirst",
  "C42: trees of dotted globs, all globs."
 ],
 [
  "LevelTop",
  "PLevel",
  "C64, C65, C91: trees of tag queries, all queries."
 ],
 [
  "FitTop",
  "PFit",
  "C38, C39, C42: dotted globs with stars inside list values."
 ],
 [
  "LooseTop",
  "PLoose",
  "C92: matching tags that are not sorted."
 ],
 [
  "FitTagTop",
  "PFitTag",
  "C82: queries with stars inside list values."
 ],
 [
  "OnceTop",
  "POnce",
  "C93: trees that report a glob at most once."
 ],
 [
  "LaterTop",
  "PLater",
  "C36, C77: what trees store before and after more is added."
 ],
 [
  "AlikeTop",
  "PAlike",
  "C77: the order of registration, for all globs and queries."
 ],
 [
  "OriginTop",
  "POrigin",
  "C33, C76: what trees store was registered; the least index in any order of registration."
 ]
]
-Q theories Verif
theories/Model/Bytes.v
theories/Model/Utf8.v
theories/Model/Utils.v
theories/Model/Ranges.v
theories/Model/Items.v
theories/Model/Glob.v
theories/Model/Store.v
theories/Model/Tree.v
theories/Model/Escape.v
theories/Model/GGlob.v
theories/Model/Expand.v
theories/Model/GTags.v
theories/Conf/Base.v
theories/Conf/ConfGlob.v
theories/Conf/ConfTree.v
theories/Conf/ConfGGlob.v
theories/Conf/ConfGTags.v
theories/Conf/ConfMisc.v
theories/Spec/Symbols.v
theories/Spec/SetSpec.v
theories/Proof/Utf8P.v
theories/Proof/SymbolsP.v
theories/Proof/SkipP.v
theories/Proof/AsciiSetP.v
theories/Proof/UtilsTop.v
theories/Props/PUtils.v
theories/Spec/Class.v
theories/Spec/ClassOps.v
theories/Proof/SortP.v
theories/Proof/MergeP.v
theories/Proof/RangesP.v
theories/Proof/ClassPrintP.v
theories/Proof/ClassSearchP.v
theories/Proof/RangesTop.v
theories/Props/PClass.v
theories/Spec/Url.v
theories/Spec/StoreSpec.v
theories/Proof/EscapeP.v
theories/Proof/EscapeTop.v
theories/Proof/StoreTop.v
theories/Props/PEscape.v
theories/Props/PStore.v
theories/Spec/Lang.v
theories/Spec/Safe.v
theories/Proof/LangP.v
theories/Proof/ItemP.v
theories/Proof/MatchP.v
theories/Spec/GlobSpec.v
theories/Proof/ListP.v
theories/Proof/DenotesP.v
theories/Proof/ParseP.v
theories/Proof/NextP.v
theories/Proof/GlobP.v
theories/Proof/GlobMatchP.v
theories/Proof/SafeP.v
theories/Proof/TermP.v
theories/Proof/PanicP.v
theories/Proof/TotalP.v
theories/Proof/WellP.v
theories/Proof/ItemTop.v
theories/Proof/GlobTop.v
theories/Spec/Same.v
theories/Proof/OrderP.v
theories/Proof/NodeP.v
theories/Proof/NodeTop.v
theories/Props/PItems.v
theories/Props/PGlob.v
theories/Props/PNode.v
theories/Spec/PathSpec.v
theories/Proof/PathP.v
theories/Proof/GGlobP.v
theories/Spec/RegistrySpec.v
theories/Proof/RegistryP.v
theories/Proof/GTreeP.v
theories/Spec/GGlobSpec.v
theories/Proof/GGlobTop.v
theories/Props/PGGlob.v
theories/Spec/TagSpec.v
theories/Proof/TagsP.v
theories/Proof/KeyP.v
theories/Proof/TermsP.v
theories/Proof/CondP.v
theories/Proof/RoundP.v
theories/Spec/TagTreeSpec.v
theories/Proof/TagTreeP.v
theories/Proof/TagTop.v
theories/Props/PTags.v
theories/Spec/ExpandSpec.v
theories/Proof/MergeNulP.v
theories/Proof/ExpandP.v
theories/Proof/ExpandReadP.v
theories/Proof/ExpandFacP.v
theories/Proof/ExpandAllP.v
theories/Proof/ExpandWeakP.v
theories/Proof/ExpandTop.v
theories/Props/PExpand.v
theories/Model/Intersect.v
theories/Spec/GlobTreeSpec.v
theories/Spec/IntersectSpec.v
theories/Proof/ItemEqP.v
theories/Proof/TreeP.v
theories/Proof/TreeInsP.v
theories/Proof/GlobTreeP.v
theories/Proof/TreeCountP.v
theories/Proof/TreeMonoP.v
theories/Proof/GlobTreeTop.v
theories/Proof/IntersectTop.v
theories/Props/PTree.v
theories/Props/PIntersect.v
theories/Model/Random.v
theories/Proof/RandomTop.v
theories/Props/PRandom.v
theories/Spec/UseSpec.v
theories/Proof/UseTop.v
theories/Props/PUse.v
theories/Spec/Neat.v
theories/Proof/RereadP.v
theories/Proof/RereadGP.v
theories/Proof/RereadTop.v
theories/Props/PReread.v
theories/Conf/ConfItems.v
theories/Conf/ConfTagItems.v
theories/Spec/EndSpec.v
theories/Proof/TreeEndP.v
theories/Proof/TreeEnd2P.v
theories/Proof/MinP.v
theories/Proof/TreePanicP.v
theories/Proof/TreeHangP.v
theories/Proof/SoundP.v
theories/Conf/ConfParse.v
theories/Conf/ConfTerms.v
theories/Spec/QuerySpec.v
theories/Proof/SeriesP.v
theories/Spec/SelectSpec.v
theories/Proof/SelectP.v
theories/Proof/SelectTop.v
theories/Props/PSelect.v
theories/Spec/Accept.v
theories/Proof/AcceptP.v
theories/Proof/GSoundP.v
theories/Proof/CheckP.v
theories/Proof/TreeSoundP.v
theories/Proof/RegNpP.v
theories/Proof/SizedP.v
theories/Spec/ErrSpec.v
theories/Proof/ErrP.v
theories/Proof/Err2P.v
theories/Proof/ErrTop.v
theories/Props/PErrors.v
theories/Spec/StarSpec.v
theories/Proof/StarsP.v
theories/Spec/TreeStarSpec.v
theories/Proof/TreeStarsP.v
theories/Proof/TreeStars2P.v
theories/Spec/TameSpec.v
theories/Proof/TagSoundP.v
theories/Spec/ApartSpec.v
theories/Proof/ApartP.v
theories/Proof/NoErrP.v
theories/Spec/CalmSpec.v
theories/Proof/ReturnsP.v
theories/Proof/ReturnsTop.v
theories/Props/PReturns.v
theories/Proof/AgreeP.v
theories/Proof/AgreeTop.v
theories/Spec/AgreeSpec.v
theories/Props/PAgree.v
theories/Proof/JourneyTop.v
theories/Props/PJourney.v
theories/Spec/SteadySpec.v
theories/Proof/CheckNeatP.v
theories/Proof/SteadyTop.v
theories/Props/PSteady.v
theories/Model/Common.v
theories/Spec/CommonSpec.v
theories/Proof/CommonTop.v
theories/Props/PCommon.v
theories/Proof/TreePermP.v
theories/Proof/TreePermTop.v
theories/Props/PTreeOrder.v
theories/Proof/TidyP.v
theories/Spec/MixSpec.v
theories/Proof/MixP.v
theories/Proof/TagMixP.v
theories/Proof/MixTop.v
theories/Props/PMix.v
theories/Spec/FirstSpec.v
theories/Proof/FirstP.v
theories/Proof/FirstTop.v
theories/Props/PFirst.v
theories/Spec/LevelSpec.v
theories/Proof/LevelP.v
theories/Proof/LevelTop.v
theories/Props/PLevel.v
theories/Spec/FitSpec.v
theories/Proof/FitTop.v
theories/Props/PFit.v
theories/Proof/LooseP.v
theories/Proof/LooseTop.v
theories/Props/PLoose.v
theories/Spec/FitTagSpec.v
theories/Proof/FitTagTop.v
theories/Props/PFitTag.v
theories/Spec/OnceSpec.v
theories/Proof/OnceP.v
theories/Proof/OnceTop.v
theories/Props/POnce.v
theories/Spec/LaterSpec.v
theories/Proof/LaterP.v
theories/Proof/LaterTop.v
theories/Props/PLater.v
theories/Proof/LaterReturnP.v
theories/Proof/LaterGP.v
theories/Proof/LaterTagsP.v
theories/Proof/AlikeP.v
theories/Proof/AlikeTagsP.v
theories/Proof/AlikeTop.v
theories/Props/PAlike.v
theories/Proof/OriginP.v
theories/Proof/OriginTop.v
theories/Props/POrigin.v

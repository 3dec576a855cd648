-Q theories Verif
theories/Dict.v
theories/DictProofs.v
theories/PropertiesDict.v
theories/B64.v
theories/B64Proofs.v
theories/PropertiesB64.v
theories/SparseVec.v
theories/SparseVecProofs.v
theories/PropertiesSparseVec.v
theories/Utoa.v
theories/UtoaProofs.v
theories/PropertiesUtoa.v
theories/SmallVec.v
theories/SmallVecProofs.v
theories/PropertiesSmallVec.v
theories/Array2D.v
theories/Array2DProofs.v
theories/PropertiesArray2D.v
theories/LogVal.v
theories/LogValProofs.v
theories/PropertiesLogVal.v
theories/Align.v
theories/AlignProofs.v
theories/PropertiesAlign.v
theories/BitPack.v
theories/BitPackProofs.v
theories/PropertiesBitPack.v
theories/Probing.v
theories/ProbingProofs.v
theories/PropertiesProbing.v
theories/SortedFind.v
theories/SortedFindProofs.v
theories/PropertiesSortedFind.v
theories/PCQueue.v
theories/PCQueueProofs.v
theories/PropertiesPCQueue.v
theories/HG.v
theories/HGProofs.v
theories/PropertiesHG.v
theories/Deriv.v
theories/Inside.v
theories/InsideProofs.v
theories/PropertiesInside.v
theories/OutsideProofs.v
theories/PropertiesOutside.v
theories/Viterbi.v
theories/ViterbiProofs.v
theories/PropertiesViterbi.v
theories/ProbProofs.v
theories/PropertiesProb.v
theories/Push.v
theories/PushProofs.v
theories/PropertiesPush.v
theories/Topo.v
theories/TopoSpec.v
theories/TopoProofs.v
theories/TopoDeriv.v
theories/PropertiesTopo.v
theories/Rescore.v
theories/RescoreSpec.v
theories/RescoreProofs.v
theories/PropertiesRescore.v
theories/Cube.v
theories/CubeProofs.v
theories/PropertiesCube.v
theories/KBest.v
theories/KBestSpec.v
theories/KBestProofs.v
theories/PropertiesKBest.v
theories/Mert.v
theories/MertSpec.v
theories/MertProofs.v
theories/PropertiesMert.v
theories/Stats.v
theories/Bleu.v
theories/BleuSpec.v
theories/BleuProofs.v
theories/PropertiesBleu.v
theories/BleuScoreProofs.v
theories/Surface.v
theories/SurfaceSpec.v
theories/SurfaceProofs.v
theories/PropertiesSurface.v
theories/ESer.v
theories/ESerProofs.v
theories/PropertiesESer.v
theories/Leven.v
theories/LevenSpec.v
theories/LevenProofs.v
theories/PropertiesLeven.v
theories/Ter.v
theories/TerSpec.v
theories/TerProofs.v
theories/PropertiesTer.v
theories/Opt.v
theories/OptProofs.v
theories/Suffix.v
theories/SuffixSpec.v
theories/SuffixProofs.v
theories/SuffixBuildProofs.v
theories/SuffixLookupProofs.v
theories/PropertiesSuffix.v
theories/Fix.v
theories/FixSpec.v
theories/FixProofs.v
theories/PropertiesFix.v
theories/Precomp.v
theories/PrecompSpec.v
theories/PrecompProofs.v
theories/PrecompIndexProofs.v
theories/PropertiesPrecomp.v
theories/Lattice.v
theories/LatticeSpec.v
theories/LatticeProofs.v
theories/PropertiesLattice.v
theories/Plf.v
theories/PlfSpec.v
theories/PlfProofs.v
theories/PropertiesPlf.v
theories/Rule.v
theories/RuleSpec.v
theories/RuleProofs.v
theories/PropertiesRule.v
theories/Parser.v
theories/ParserSpec.v
theories/ParserForestProofs.v
theories/ParserProofs.v
theories/ParserChartProofs.v
theories/ParserFillProofs.v
theories/ParserBijProofs.v
theories/ParserUnaryProofs.v
theories/ParserMainProofs.v
theories/PropertiesParser.v
theories/Lm.v
theories/LmSpec.v
theories/LmProofs.v
theories/LmChartProofs.v
theories/LmFeatureProofs.v
theories/LmMainProofs.v
theories/LmExample.v
theories/PropertiesLm.v
theories/Arpa.v
theories/ArpaSpec.v
theories/ArpaProofs.v
theories/ArpaLoadProofs.v
theories/ArpaVocabProofs.v
theories/ArpaFileProofs.v
theories/ArpaMarkProofs.v
theories/PropertiesArpa.v
theories/Prune.v
theories/PruneSpec.v
theories/PruneProofs.v
theories/PruneMarginProofs.v
theories/PruneIOProofs.v
theories/PruneLargeProofs.v
theories/PropertiesPrune.v
theories/FastAlign.v
theories/FastAlignSpec.v
theories/FastAlignDiagProofs.v
theories/FastAlignEMProofs.v
theories/FastAlignProofs.v
theories/FastAlignTrainProofs.v
theories/FastAlignWitness.v
theories/PropertiesFastAlign.v
theories/RuleEx.v
theories/RuleExSpec.v
theories/RuleExTargetProofs.v
theories/RuleExPhraseProofs.v
theories/RuleExSourceProofs.v
theories/RuleExLaidProofs.v
theories/RuleExProofs.v
theories/RuleExTopProofs.v
theories/RuleExPlaceProofs.v
theories/RuleCount.v
theories/RuleCountSpec.v
theories/RuleCountProofs.v
theories/RuleExWitness.v
theories/PropertiesRuleEx.v
theories/GradSpec.v
theories/Grad.v
theories/Expect.v
theories/GradLoss.v
theories/GradProofs.v
theories/ExpectProofs.v
theories/GradWitness.v
theories/PropertiesGrad.v
theories/Intersect.v
theories/IntersectSpec.v
theories/IntersectProofs.v
theories/IntersectLoopProofs.v
theories/IntersectMainProofs.v
theories/Sampler.v
theories/SamplerSpec.v
theories/SamplerProofs.v
theories/SamplerMainProofs.v
theories/RuleFactory.v
theories/RuleFactorySpec.v
theories/RuleFactoryProofs.v
theories/RuleFactoryTrieProofs.v
theories/PropertiesExtract.v
theories/Constrain.v
theories/ConstrainSpec.v
theories/ConstrainProofs.v
theories/ConstrainRuleProofs.v
theories/ConstrainParseProofs.v
theories/ConstrainMainProofs.v
theories/ConstrainAllProofs.v
theories/ConstrainFastProofs.v
theories/ConstrainTopProofs.v
theories/Trellis.v
theories/TrellisSpec.v
theories/TrellisProofs.v
theories/TrellisChainProofs.v
theories/TrellisMainProofs.v
theories/TrellisAllProofs.v
theories/TrellisLexProofs.v
theories/ConstrainRefProofs.v
theories/PropertiesConstrain.v
theories/PropertiesTrellis.v
theories/HgSample.v
theories/HgSampleSpec.v
theories/HgSampleProofs.v
theories/HgSampleRefProofs.v
theories/PropertiesHgSample.v
theories/Union.v
theories/UnionSpec.v
theories/UnionProofs.v
theories/UnionSortProofs.v
theories/UnionRefProofs.v
theories/PropertiesUnion.v
theories/Pb.v
theories/PbSpec.v
theories/PbBaseProofs.v
theories/PbStepProofs.v
theories/PbProofs.v
theories/PbRefProofs.v
theories/PropertiesPb.v
theories/Alias.v
theories/AliasSpec.v
theories/AliasProofs.v
theories/Ssk.v
theories/SskSpec.v
theories/SskProofs.v
theories/SskSimProofs.v
theories/AliasRefProofs.v
theories/PropertiesAlias.v
theories/Aer.v
theories/AerSpec.v
theories/AerProofs.v
theories/PropertiesAer.v
theories/BuiltProofs.v
theories/Csplit.v
theories/CsplitSpec.v
theories/CsplitProofs.v
theories/CsplitBuildProofs.v
theories/CsplitDerivProofs.v
theories/CsplitTopProofs.v
theories/PropertiesCsplit.v
theories/Onl.v
theories/OnlSpec.v
theories/OnlProofs.v
theories/PropertiesOnl.v
theories/Dtrain.v
theories/DtrainSpec.v
theories/DtrainProofs.v
theories/PropertiesDtrain.v
theories/Dscore.v
theories/DscoreSpec.v
theories/DscoreProofs.v
theories/DscoreScoreProofs.v
theories/PropertiesDscore.v
theories/Mira.v
theories/MiraSpec.v
theories/MiraProofs.v
theories/PropertiesMira.v
theories/Cutmira.v
theories/CutmiraSpec.v
theories/CutmiraProofs.v
theories/PropertiesCutmira.v
theories/ProMap.v
theories/ProMapSpec.v
theories/ProMapProofs.v
theories/PropertiesProMap.v
theories/CandSet.v
theories/CandSetSpec.v
theories/CandSetProofs.v
theories/PropertiesCandSet.v
theories/Weights.v
theories/WeightsSpec.v
theories/WeightsProofs.v
theories/PropertiesWeights.v
theories/Mbr.v
theories/MbrSpec.v
theories/MbrProofs.v
theories/PropertiesMbr.v
theories/Comb.v
theories/CombSpec.v
theories/CombProofs.v
theories/PropertiesComb.v
theories/Ngrams.v
theories/NgramsSpec.v
theories/NgramsProofs.v
theories/PropertiesNgrams.v
theories/TagFf.v
theories/TagFfSpec.v
theories/TagFfProofs.v
theories/PropertiesTagFf.v
theories/Ffset.v
theories/FfsetSpec.v
theories/FfsetProofs.v
theories/PropertiesFfset.v
theories/Ffbasic.v
theories/FfbasicSpec.v
theories/FfbasicProofs.v
theories/PropertiesFfbasic.v
theories/Lex.v
theories/LexSpec.v
theories/LexProofs.v
theories/PropertiesLex.v
theories/RuleFf.v
theories/RuleFfSpec.v
theories/RuleFfProofs.v
theories/PropertiesRuleFf.v
theories/Frag.v
theories/FragSpec.v
theories/FragProofs.v
theories/PropertiesFrag.v
theories/T2s.v
theories/T2sSpec.v
theories/T2sProofs.v
theories/PropertiesT2s.v
theories/Cfg.v
theories/CfgSpec.v
theories/CfgProofs.v
theories/PropertiesCfg.v
theories/Shape.v
theories/ShapeSpec.v
theories/ShapeProofs.v
theories/PropertiesShape.v
theories/Srcpath.v
theories/SrcpathSpec.v
theories/SrcpathProofs.v
theories/PropertiesSrcpath.v
theories/Ctx.v
theories/CtxSpec.v
theories/CtxProofs.v
theories/PropertiesCtx.v
theories/Pmatch.v
theories/PmatchSpec.v
theories/PmatchProofs.v
theories/PropertiesPmatch.v
theories/Ctools.v
theories/CtoolsSpec.v
theories/CtoolsProofs.v
theories/PropertiesCtools.v
theories/Strlib.v
theories/StrlibSpec.v
theories/StrlibProofs.v
theories/PropertiesStrlib.v
theories/Sgml.v
theories/SgmlSpec.v
theories/SgmlProofs.v
theories/PropertiesSgml.v

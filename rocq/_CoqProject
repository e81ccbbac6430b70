-Q theories Verif
theories/Prelude.v
theories/Misc.v
theories/MiscProofs.v
theories/Preferences.v
theories/Scores.v
theories/Spec.v
theories/ScoresProofs.v
theories/Search.v
theories/Rule.v
theories/RulesThiele.v
theories/Common.v
theories/SpecRules.v
theories/ThieleProofs.v
theories/BBProofs.v
theories/RevseqProofs.v
theories/OptProofs.v
theories/Compute.v
theories/SpecCompute.v
theories/ComputeProofs.v
theories/PrefProofs.v
theories/EquivProofs.v
theories/Heap.v
theories/HeapProofs.v
theories/ProfileFacts.v
theories/RuleProofs.v
theories/ExampleData.v
theories/SavFloat.v
theories/Milp.v
theories/MilpProofs.v
theories/RulesSolver.v
theories/SolverProofs.v
theories/SolverLex.v
theories/Claims_Thiele.v
theories/Claims_Profile.v
theories/Claims_Rule.v
theories/Checks.v
theories/SpecAxioms.v
theories/ChecksProofs.v
theories/Guarantees.v
theories/Claims_Checks.v
theories/SpecSeq.v
theories/RulesSeq.v
theories/SeqProofs.v
theories/PhragmenProofs.v
theories/EnestroemProofs.v
theories/RulesMes.v
theories/PoolProofs.v
theories/MesProofs.v
theories/MesLoop.v
theories/AvPhase.v
theories/MesFinal.v
theories/ComputeSeq.v
theories/ComputeSeqProofs.v
theories/Claims_Seq.v
theories/Proportional.v
theories/Claims_Prop.v
theories/RulesMonroe.v
theories/SpecMonroe.v
theories/MonroeProofs.v
theories/MonroeFlow.v
theories/MonroeRule.v
theories/GreedyMonroe.v
theories/MonroeProp.v
theories/MonroeExample.v
theories/Claims_Monroe.v
theories/RulesMore.v
theories/SpecMore.v
theories/RsdProofs.v
theories/EphProofs.v
theories/Claims_More.v
theories/SolverMonroe.v
theories/SpecLoads.v
theories/SolverPhragmen.v
theories/SolverLeximax.v
theories/SolverMaximin.v
theories/RefSolver.v
theories/SolverCompute.v
theories/SolverMore.v
theories/Claims_Solver.v
theories/ComputeAll.v
theories/SpecAll.v
theories/AllProofs.v
theories/Claims_All.v
theories/CheckSolver.v
theories/CheckSolverProofs.v
theories/SpecPrice.v
theories/PriceProofs.v
theories/PriceRules.v
theories/Claims_Price.v
theories/FileIO.v
theories/SpecFile.v
theories/FileProofs.v
theories/YamlProofs.v
theories/Output.v
theories/SpecOutput.v
theories/OutputProofs.v
theories/Claims_File.v
theories/Generate.v
theories/SpecGenerate.v
theories/GenerateProofs.v
theories/GeneratePoints.v
theories/Claims_Generate.v
theories/SpecSame.v
theories/SameSeq.v
theories/SpecIso.v
theories/Iso.v
theories/IsoSeq.v
theories/IsoAll.v
theories/Claims_Iso.v
theories/SpecMono.v
theories/Mono.v
theories/TieBreak.v
theories/Claims_Mono.v
theories/Claims_Same.v
theories/EnestroemPJR.v
theories/MaximinPJR.v
theories/ConsensusRun.v
theories/Claims_Phragmen.v
theories/SpecVary.v
theories/Vary.v
theories/VaryRuns.v
theories/VaryMes.v
theories/VaryLoads.v
theories/VaryAll.v
theories/Join.v
theories/JoinAll.v
theories/Pareto.v
theories/SingleSeat.v
theories/Claims_Vary.v
theories/SpecText.v
theories/StrProfile.v
theories/Compact.v
theories/CompactProofs.v
theories/YamlMeaning.v
theories/Claims_Text.v
theories/CheckReport.v
theories/SpecReport.v
theories/CheckReportProofs.v
theories/CheckReportMore.v
theories/Claims_Report.v
theories/RuleReport.v
theories/SpecRuleReport.v
theories/RuleReportProofs.v
theories/RuleReportMore.v
theories/RuleReportSeq.v
theories/RuleReportLoads.v
theories/RuleReportMes.v
theories/RuleReportMaximin.v
theories/SpecRuleTells.v
theories/RuleReportAll.v
theories/RuleReportOut.v
theories/Claims_RuleReport.v
theories/Floats.v
theories/RulesFloat.v
theories/FloatSearch.v
theories/FloatStruct.v
theories/SpecFloat.v
theories/FloatBounds.v
theories/FloatPhragmen.v
theories/FloatBinary.v
theories/FloatMes.v
theories/FloatMesRun.v
theories/FloatIncrement.v
theories/FloatCompute.v
theories/FloatExact.v
theories/Claims_Float.v
theories/TextLines.v
theories/Claims_Detail.v
theories/SpecFloatMore.v
theories/FloatEph.v
theories/FloatAbs.v
theories/FloatConsensus.v
theories/FloatEnestroem.v
theories/Claims_FloatMore.v
theories/FloatNear.v
theories/FloatMesQ.v
theories/FloatMesExact.v
theories/FloatLoads.v
theories/Claims_FloatMes.v
theories/Directory.v
theories/DirectoryProofs.v
theories/Claims_Directory.v
theories/SpecParty.v
theories/PartyLists.v
theories/PartyRules.v
theories/PartySeq.v
theories/PartyRest.v
theories/Claims_Party.v
theories/SpecBlank.v
theories/Blank.v
theories/BlankAll.v
theories/Claims_Blank.v
theories/SpecExtra.v
theories/Extra.v
theories/ExtraSeq.v
theories/ExtraEph.v
theories/ExtraAll.v
theories/ExtraFirst.v
theories/Claims_Extra.v
theories/LeximaxPJR.v
theories/Claims_LeximaxPJR.v
theories/SpecJR.v
theories/ThieleJR.v
theories/ThieleRules.v
theories/Claims_ThieleJR.v
theories/Approx.v
theories/ApproxRules.v
theories/Claims_Approx.v
theories/SpecDegree.v
theories/Degree.v
theories/Claims_Degree.v
theories/SpecCore.v
theories/Core.v
theories/Claims_Core.v
theories/SpecStrategy.v
theories/Strategy.v
theories/Claims_Strategy.v

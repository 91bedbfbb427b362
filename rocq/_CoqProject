-Q theories Verif
theories/Order.v
theories/Value.v
theories/Prov.v
theories/ListAux.v
theories/OSet.v
theories/SortedCol.v
theories/GallopFacts.v
theories/SortedColFacts.v
theories/ProvInst.v
theories/PropsCollections.v
theories/Schedulers.v
theories/Relation.v
theories/View.v
theories/SchedFacts.v
theories/Dataflow.v
theories/OpFacts.v
theories/Denote.v
theories/DataflowFacts.v
theories/DenFacts.v
theories/Iteration.v
theories/IterationFacts.v
theories/Views.v
theories/SchedLinear.v
theories/PropsEval.v
theories/PropsRun.v
theories/PropsTags.v
theories/PropsStop.v
theories/Utils.v
theories/PropsUtils.v
theories/Formula.v
theories/FormulaFacts.v
theories/PropsFormula.v
theories/PropsFormula2.v
theories/PropsProv.v
theories/VTree.v
theories/Sdd.v
theories/VTreeFacts.v
theories/VTreeBuild.v
theories/SddFacts.v
theories/SddBuild.v
theories/SddWmc.v
theories/PropsSdd.v
theories/VRotate.v
theories/PropsVTree.v
theories/Aggregate.v
theories/AggregateFacts.v
theories/PropsAgg.v
theories/PropsAgg2.v
theories/Back.v
theories/Scc.v
theories/SccFacts.v
theories/PropsStrat.v
theories/Eval.v
theories/Ram.v
theories/PropsExpr.v
theories/BackSem.v
theories/PropsUnused.v
theories/Optimize.v
theories/PropsOpt.v
theories/PropsOpt2.v
theories/PropsOpt3.v
theories/Dedup.v
theories/PropsDedup.v
theories/Increm.v
theories/PropsIncrem.v
theories/Exec.v
theories/PropsExec.v
theories/PropsExec2.v
theories/PropsExec3.v
theories/Dual.v
theories/PropsDual.v
theories/Plan.v
theories/PlanSem.v
theories/PlanFacts.v
theories/PlanFacts2.v
theories/PropsPlan.v
theories/VarTuple.v
theories/B2R.v
theories/RamSem.v
theories/VarTupleFacts.v
theories/PermFacts.v
theories/B2RFacts.v
theories/B2RFacts2.v
theories/B2RSpec.v
theories/B2RRule.v
theories/B2RScope.v
theories/PropsB2R.v
theories/B2RStrata.v
theories/StrataSem.v
theories/StrataFacts.v
theories/PropsStrata.v
theories/B2RTotal.v
theories/B2RPlaced.v
theories/PropsTotal.v
theories/PlanClash.v
theories/TypedProg.v
theories/PropsTyped.v
theories/PropsCompile.v
theories/PermOrder.v
theories/B2RWf.v
theories/PlanShape.v
theories/StrataWf.v
theories/RunSem.v
theories/RunFacts.v
theories/PropsRunProg.v
theories/Terminate.v
theories/RunTotal.v
theories/PropsTerm.v
theories/TermProg.v
theories/PropsTermProg.v
theories/Front.v
theories/FrontSem.v
theories/FrontFacts.v
theories/PropsFront.v
theories/FlatFacts.v
theories/PropsFlat.v
theories/Bound.v
theories/BoundSem.v
theories/BoundFacts.v
theories/BoundFacts2.v
theories/BoundFinite.v
theories/PropsBound.v
theories/PlanPad.v
theories/PadRun.v
theories/Flat0.v
theories/PropsOpt4.v
theories/OptPad.v
theories/FrontProg.v
theories/PropsFrontRun.v
theories/Demand.v
theories/PropsDemand.v
theories/PropsDemand2.v
theories/PropsDemandRun.v
theories/TypeSet.v
theories/Infer.v
theories/PropsTypeSet.v
theories/InferFacts.v
theories/InferRun.v
theories/InferSound.v
theories/TypeSpec.v
theories/PropsInfer.v
theories/Cast.v
theories/ValSpec.v
theories/PropsTypedEval.v
theories/PropsTypedModel.v
theories/PropsInferTerm.v
theories/PropsDeclared.v
theories/Entity.v
theories/PropsEntity.v
theories/PropsEntity2.v
theories/Case.v
theories/PropsCase.v
theories/FrontAgg.v
theories/AggSem.v
theories/AggFacts.v
theories/AggFacts2.v
theories/PropsFrontAgg.v
theories/PropsAggProg.v
theories/PropsQuant.v
theories/PropsAggBound.v
theories/Builtin.v
theories/PropsBuiltin.v
theories/PropsNumFun.v
theories/Soft.v
theories/PropsSoft.v
theories/AggMore.v
theories/PropsAggMore.v
theories/Normal.v
theories/PropsNormal.v
theories/Tagged.v
theories/PropsTagged.v
theories/CsvFile.v
theories/PropsCsv.v
theories/DynEnt.v
theories/PropsDynEnt.v
theories/Exclusive.v
theories/PropsExclusive.v
theories/Loading.v
theories/PropsLoading.v
theories/Boundary.v
theories/PropsBoundary.v
theories/Results.v
theories/PropsResults.v
theories/Attrs.v
theories/PropsAttrs.v
theories/TypeDecls.v
theories/PropsTypeDecls.v
theories/HeadRel.v
theories/PropsHeadRel.v
theories/InFiles.v
theories/PropsInFiles.v

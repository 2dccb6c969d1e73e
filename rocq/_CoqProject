-Q theories Verif
theories/Settings.v
theories/SettingsProofs.v
theories/P_Settings.v
theories/CacheTable.v
theories/P_CacheTable.v
theories/Bdd.v
theories/BddProofs.v
theories/BddHistory.v
theories/P_Bdd.v
theories/Pdag.v
theories/PdagProofs.v
theories/PdagAdd.v
theories/PdagSem.v
theories/P_Gate.v
theories/PdagKeeps.v
theories/Preproc.v
theories/PreprocProofs.v
theories/PreprocNorm.v
theories/PreprocMerge.v
theories/PreprocNeg.v
theories/P_Preproc.v
theories/Registry.v
theories/P_Registry.v
theories/Intersects.v
theories/P_Intersects.v
theories/Extern.v
theories/P_Extern.v
theories/TopEvents.v
theories/P_TopEvents.v
theories/Cycle.v
theories/P_Cycle.v
theories/Combination.v
theories/Ccf.v
theories/P_Ccf.v
theories/Formula.v
theories/P_Formula.v
theories/LinearMap.v
theories/P_LinearMap.v
theories/EventTree.v
theories/P_EventTree.v
theories/Phase.v
theories/P_Phase.v
theories/Sampling.v
theories/P_Sampling.v
theories/Interval.v
theories/P_Interval.v
theories/Exponential.v
theories/P_Exponential.v
theories/XmlStream.v
theories/XmlProofs.v
theories/P_Xml.v
theories/Sil.v
theories/SilProofs.v
theories/P_Sil.v
theories/Zbdd.v
theories/ZbddProofs.v
theories/ZbddHistory.v
theories/P_Zbdd.v
theories/ZbddGraph.v
theories/ZbddModules.v
theories/ZbddModulesProofs.v
theories/ZbddIter.v
theories/P_Products.v
theories/PreprocMore.v
theories/BddGraph.v
theories/BddZbdd.v
theories/P_BddGraph.v
theories/ZbddSigned.v
theories/BddAssemble.v
theories/BddModules.v
theories/P_BddProducts.v
theories/Expect.v
theories/Prob.v
theories/ProbProofs.v
theories/ProbGraph.v
theories/P_Prob.v
theories/P_Approx.v
theories/P_ProbFloat.v
theories/Order.v
theories/P_Order.v
theories/Modules.v
theories/ModulesTiming.v
theories/ModulesGraph.v
theories/ModulesStatic.v
theories/ModulesFind.v
theories/P_Modules.v
theories/Mocus.v
theories/MocusProofs.v
theories/InvertOrder.v
theories/P_Mocus.v
theories/Construct.v
theories/ConstructProofs.v
theories/ConstructSem.v
theories/ConstructBuild.v
theories/P_Construct.v
theories/UniqueTable.v
theories/UniqueTableProofs.v
theories/P_UniqueTable.v
theories/Complement.v
theories/ComplementProofs.v
theories/P_Complement.v
theories/Rooted.v
theories/Decompose.v
theories/DecomposeProofs.v
theories/BoolOpt.v
theories/BoolOptProofs.v
theories/BoolOptEdits.v
theories/BoolOptMain.v
theories/BoolOptFinal.v
theories/Distribute.v
theories/DistributeProofs.v
theories/DistributeLevel.v
theories/DistributeGroup.v
theories/DistributeAll.v
theories/DistributeMain.v
theories/Shaped.v
theories/ShapedOps.v
theories/ShapedPhases.v
theories/NullGates.v
theories/NullGatesProofs.v
theories/P_Preprocess.v
theories/Live.v
theories/Transfer.v
theories/P_Pipeline.v
theories/Serial.v
theories/SerialProofs.v
theories/P_Serial.v
theories/Full.v
theories/NullTotal.v
theories/Coalesce.v
theories/CoalesceProofs.v
theories/P_Traverse.v
theories/Neat.v
theories/P_Neat.v
theories/Course.v
theories/Normalize.v
theories/NormalizeProofs.v
theories/P_Normalize.v
theories/Deviates.v
theories/P_Deviates.v
theories/Uncertainty.v
theories/P_Uncertainty.v
theories/Undo.v
theories/UndoSpec.v
theories/UndoProofs.v
theories/UndoRuns.v
theories/UndoKeeps.v
theories/UndoKeeps2.v
theories/UndoBack.v
theories/UndoStack.v
theories/P_Undo.v
theories/MultiDef.v
theories/MultiDefProofs.v
theories/P_Definitions.v
theories/Tables.v
theories/TablesProofs.v
theories/TablesRuns.v
theories/P_Tables.v
theories/TablesBelow.v
theories/ModelTree.v
theories/ModelTreeProofs.v
theories/P_ModelTree.v
theories/Report.v
theories/ReportProofs.v
theories/ReportResults.v
theories/ReportInformation.v
theories/P_Report.v
theories/P_ReportExact.v
theories/Project.v
theories/ProjectProofs.v
theories/P_Project.v
theories/Alignment.v
theories/P_Alignment.v
theories/Shown.v
theories/P_Shown.v
theories/Numbers.v
theories/P_Numbers.v
theories/Ensure.v
theories/P_Ensure.v
theories/Dialog.v
theories/P_Dialog.v

-Q theories Verif
theories/Base.v
theories/Collections.v
theories/CollectionsSpec.v
theories/CollectionsLemmas.v
theories/PropCollections.v
theories/GraphSpec.v
theories/GraphLemmas.v
theories/Topo.v
theories/TopoLemmas.v
theories/Search.v
theories/SearchLemmas.v
theories/PropTopo.v
theories/PropSearch.v
theories/Storer.v
theories/StorerSpec.v
theories/StorerLemmas.v
theories/PropStorer.v
theories/Conc.v
theories/ConcSpec.v
theories/ConcLemmas.v
theories/PropConc.v
theories/Res.v
theories/Arith.v
theories/LogMath.v
theories/LogSpec.v
theories/LogLemmas.v
theories/PropLog.v
theories/Spn.v
theories/DP.v
theories/SpnSpec.v
theories/SpnLemmas.v
theories/InferLemmas.v
theories/PropInfer.v
theories/Leaves.v
theories/ProbSpec.v
theories/ProbLemmas.v
theories/ArgLemmas.v
theories/ProbCases.v
theories/PropProb.v
theories/MapSpec.v
theories/MapLemmas.v
theories/MapCases.v
theories/PropMap.v
theories/MultiSpec.v
theories/MultiLemmas.v
theories/PropMulti.v
theories/Walk.v
theories/WalkLemmas.v
theories/Struct.v
theories/StructSpec.v
theories/StructLemmas.v
theories/StructCases.v
theories/PropStruct.v
theories/Derive.v
theories/DeriveSpec.v
theories/DiffLemmas.v
theories/DeriveLemmas.v
theories/GradLemmas.v
theories/StepLemmas.v
theories/DeriveCases.v
theories/PipeLemmas.v
theories/PropDerive.v
theories/UnionFind.v
theories/UnionSpec.v
theories/UnionLemmas.v
theories/Indep.v
theories/IndepSpec.v
theories/IndepLemmas.v
theories/TestLemmas.v
theories/IndGraphLemmas.v
theories/Stats.v
theories/StatsSpec.v
theories/StatsLemmas.v
theories/IndepCases.v
theories/PropIndep.v
theories/GoMap.v
theories/Data.v
theories/DataSpec.v
theories/DataLemmas.v
theories/DataLoops.v
theories/DataRows.v
theories/DataParts.v
theories/DataByLabel.v
theories/DataCases.v
theories/PropData.v
theories/Score.v
theories/ScoreSpec.v
theories/ScoreLemmas.v
theories/EvalLemmas.v
theories/EvalConc.v
theories/Params.v
theories/ParamsSpec.v
theories/ParamsLemmas.v
theories/ScoreCases.v
theories/PropScore.v
theories/Codec.v
theories/Serial.v
theories/SerialSpec.v
theories/CodecLemmas.v
theories/SerialLemmas.v
theories/SerialCases.v
theories/PropSerial.v
theories/Hard.v
theories/HardSpec.v
theories/HardLemmas.v
theories/HardCases.v
theories/PropHard.v
theories/Misc.v
theories/MiscSpec.v
theories/MiscLemmas.v
theories/PropMisc.v
theories/Tables.v
theories/TablesSpec.v
theories/TablesLemmas.v
theories/PartitionLemmas.v
theories/PropTables.v
theories/Text.v
theories/TextSpec.v
theories/Parse.v
theories/TextLemmas.v
theories/ParseLemmas.v
theories/Arff.v
theories/ArffSpec.v
theories/ArffLemmas.v
theories/ArffCatLemmas.v
theories/CompileLemmas.v
theories/PropParse.v
theories/PropArff.v
theories/ArffReadSpec.v
theories/ArffReadLemmas.v
theories/PropArffRead.v
theories/Build.v
theories/Poon.v
theories/PoonSpec.v
theories/ScopedLemmas.v
theories/PoonCodes.v
theories/PoonLemmas.v
theories/PoonLink.v
theories/PoonConn.v
theories/PoonTop.v
theories/PoonCases.v
theories/PropPoon.v
theories/Dennis.v
theories/DennisSpec.v
theories/DennisScope.v
theories/DennisGraph.v
theories/DennisExpand.v
theories/DennisPost.v
theories/DennisBuild.v
theories/DennisTop.v
theories/DennisCases.v
theories/PropDennis.v
theories/Cluster.v
theories/ClusterSpec.v
theories/ClusterLemmas.v
theories/ClusterModes.v
theories/ClusterMedoids.v
theories/MedoidEnd.v
theories/MedoidTop.v
theories/Dbscan.v
theories/DbscanLemmas.v
theories/DbscanData.v
theories/ClusterCases.v
theories/PropCluster.v
theories/PropDbscan.v
theories/Gens.v
theories/GensSpec.v
theories/GensTree.v
theories/GensParts.v
theories/GensClusters.v
theories/GensLemmas.v
theories/GensCases.v
theories/PropGens.v
theories/Train.v
theories/TrainSpec.v
theories/TrainRange.v
theories/TrainKeep.v
theories/TrainShape.v
theories/TrainAll.v
theories/TrainKept.v
theories/TrainGrad.v
theories/TrainSteps.v
theories/TrainBatch.v
theories/TrainBgd.v
theories/TrainHard.v
theories/TrainOne.v
theories/TrainDisc.v
theories/TrainDiscHard.v
theories/TrainRoot.v
theories/TrainGradD.v
theories/TrainCases.v
theories/TrainRuns.v
theories/TrainProps.v
theories/PropTrain.v
theories/TrainGradB.v
theories/TrainPickSpec.v
theories/TrainPick.v
theories/PropPick.v
theories/PoonLearn.v
theories/PoonRun.v
theories/PoonBuilt.v
theories/PoonStruct.v
theories/PoonTotal.v
theories/PoonOrder.v
theories/PoonWhole.v
theories/PoonHist.v
theories/PoonSingle.v
theories/PoonLearnSpec.v
theories/PoonLearnCases.v
theories/PropPoonLearn.v
theories/Optics.v
theories/OpticsSpec.v
theories/OpticsLemmas.v
theories/PropOptics.v
theories/Kmeans.v
theories/KmeansSpec.v
theories/KmeansLemmas.v
theories/KmeansTop.v
theories/KmeansReal.v
theories/KmeansEnd.v
theories/KmeansData.v
theories/PropKmeans.v
theories/Img.v
theories/ImgSpec.v
theories/ImgLemmas.v
theories/ImgData.v
theories/ImgWrite.v
theories/ImgCmpl.v
theories/ImgCmplSpec.v
theories/ImgCmplLemmas.v
theories/ImgCases.v
theories/PropImg.v
theories/PropImgCmpl.v
theories/ImgConc.v
theories/ImgConcSpec.v
theories/ImgConcLemmas.v
theories/ImgConcData.v
theories/PropImgConc.v
theories/Jobs.v
theories/JobsSpec.v
theories/JobsLemmas.v
theories/JobsCases.v
theories/PropJobs.v
theories/Classify.v
theories/ClassifySpec.v
theories/ClassifyLemmas.v
theories/PropClassify.v
theories/Npy.v
theories/NpySpec.v
theories/NpyLemmas.v
theories/PropNpy.v
theories/Print.v
theories/PrintSpec.v
theories/PrintLemmas.v
theories/PropPrint.v
theories/DrawNet.v
theories/DrawNetSpec.v
theories/DrawNetLemmas.v
theories/PropDrawNet.v
theories/ClusterCycle.v
theories/Download.v
theories/DownloadSpec.v
theories/DownloadLemmas.v
theories/PropDownload.v
theories/GaussNew.v
theories/GaussNewSpec.v
theories/GaussNewLemmas.v
theories/PropGaussNew.v
theories/ChiP.v
theories/ChiPSpec.v
theories/ChiPLemmas.v
theories/ChiPFrac.v
theories/ChiPCases.v
theories/PropChiP.v
theories/SaveLoad.v
theories/SaveLoadSpec.v
theories/SaveLoadLemmas.v
theories/SaveLoadCases.v
theories/PropSaveLoad.v
theories/Rand.v
theories/RandSpec.v
theories/RandLemmas.v
theories/PropRand.v
theories/Seed.v
theories/SeedSpec.v
theories/SeedLemmas.v
theories/PropSeed.v
theories/VarGob.v
theories/VarGobSpec.v
theories/VarGobLemmas.v
theories/PropVarGob.v
theories/Colors.v
theories/ColorsSpec.v
theories/ColorsLemmas.v
theories/PropColors.v
theories/ChiAllSpec.v
theories/ChiAllLemmas.v
theories/ChiAllCases.v
theories/ChiAllExist.v
theories/PropChiAll.v
theories/PowerSpec.v
theories/PowerLemmas.v
theories/PowerGraph.v
theories/PropPower.v
theories/LearnedSpec.v
theories/LearnedLemmas.v
theories/LearnedCases.v
theories/PropLearned.v
theories/RoundedSpec.v
theories/RoundedLemmas.v
theories/RoundedCases.v
theories/PropRounded.v
theories/FloatSpec.v
theories/FloatLemmas.v
theories/FloatNet.v
theories/FloatCases.v
theories/PropFloat.v
theories/GainSpec.v
theories/GainLemmas.v
theories/GainCases.v
theories/PropGain.v
theories/HardGainSpec.v
theories/HardGainLemmas.v
theories/HardGainCases.v
theories/PropHardGain.v
theories/MissingSpec.v
theories/MissingLemmas.v
theories/MissingDennis.v
theories/MissingCases.v
theories/PropMissing.v
theories/HardKeepSpec.v
theories/BelowLemmas.v
theories/HardKeepLemmas.v
theories/HardKeepCases.v
theories/PropHardKeep.v
theories/PoonMissing.v
theories/PoonMissingCases.v
theories/PropPoonMissing.v
theories/SoftDerive.v
theories/SoftKeepLemmas.v
theories/SoftKeepCases.v
theories/PropSoftKeep.v
theories/DennisOrder.v
theories/DennisLearn.v
theories/DennisLearnLemmas.v
theories/DennisLearnCases.v
theories/PropDennisLearn.v
theories/CondSpec.v
theories/CondLemmas.v
theories/CondCases.v
theories/PropCond.v
theories/LocalSpec.v
theories/LocalLemmas.v
theories/LocalCases.v
theories/PropLocal.v
theories/ReorderSpec.v
theories/ReorderLemmas.v
theories/ReorderCases.v
theories/PropReorder.v

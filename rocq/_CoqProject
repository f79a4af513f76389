-Q theories Verif
theories/Prelude.v
theories/FilterModel.v
theories/FilterProofs.v
theories/CheckModel.v
theories/LCMModel.v
theories/LCMProofs.v
theories/ItemsetSpec.v
theories/VerticalProofs.v
theories/LCMLift.v
theories/TextModel.v
theories/TextProofs.v
theories/LCMFileModel.v
theories/LCMFinal.v
theories/PropFilter.v
theories/PropLCM.v
theories/LCMObjectModel.v
theories/PropLCMObject.v
theories/SlimModel.v
theories/SlimProofs.v
theories/SlimInv.v
theories/SlimRun.v
theories/SlimFit.v
theories/SlimUse.v
theories/SlimAppsModel.v
theories/PropSlim.v
theories/PropSlimApps.v
theories/SlimSizesModel.v
theories/SlimSizesProofs.v
theories/PropSlimSizes.v
theories/MBDModel.v
theories/PropMBD.v
theories/CliqueModel.v
theories/PropClique.v
theories/ArrayModel.v
theories/PropArray.v
theories/MinerModel.v
theories/PropMiner.v
theories/SplitModel.v
theories/SplitProofs.v
theories/DatasetModel.v
theories/PropDataset.v
theories/PeriodModel.v
theories/PropPeriod.v
theories/TreeModel.v
theories/TreeProofs.v
theories/PropTree.v
theories/FactorModel.v
theories/NestModel.v
theories/PropFactor.v
theories/MDLPModel.v
theories/PropMDLP.v
theories/SegModel.v
theories/PropSeg.v
theories/CoverModel.v
theories/PropCover.v
theories/PropTopK.v
theories/PoolModel.v
theories/PropPool.v
theories/CyclesModel.v
theories/PropCycles.v
theories/ExportModel.v
theories/PropExport.v
theories/TreeBlock.v
theories/NestProofs.v
theories/PropNest.v
theories/PropConcat.v
theories/GraphUtilModel.v
theories/PropGraphUtil.v
theories/PrequentialModel.v
theories/PropPrequential.v
theories/GraphCoverModel.v
theories/PropGraphCover.v
theories/GraphSearchModel.v
theories/PropGraphSearch.v
theories/PropGraphOptimum.v
theories/PropGraphHistory.v
theories/MergeModel.v
theories/PropMerge.v
theories/RewriteModel.v
theories/RewriteProofs.v
theories/PropRewrite.v
theories/GenerateModel.v
theories/PropGenerate.v
theories/GraphLengthModel.v
theories/KraftProofs.v
theories/PropGraphLength.v
theories/PropTableLength.v
theories/PropTableParts.v
theories/FoldModel.v
theories/PropFold.v
theories/PropFoldFound.v
theories/MineModel.v
theories/PropMineEvent.v
theories/PropMine.v
theories/CodeLengthModel.v
theories/PropCodeLength.v
theories/PropTreeLength.v
theories/PropTreeCode.v
theories/NestMineModel.v
theories/PropNestMine.v
theories/HorizontalModel.v
theories/PropHorizontal.v
theories/PropHorizontalRun.v
theories/ComplexModel.v
theories/PropComplex.v
theories/PropEnds.v
theories/MatchModel.v
theories/PropMatch.v
theories/ShowModel.v
theories/PropShow.v
theories/HistoryModel.v
theories/PropHistory.v
theories/RefitModel.v
theories/PropRefit.v
theories/ReportModel.v
theories/PropReport.v
theories/UbiqModel.v
theories/PropUbiq.v
theories/EstimateModel.v
theories/PropEstimate.v
theories/SlimOutModel.v
theories/PropSlimShow.v
theories/CacheModel.v
theories/PropCache.v
theories/GraphFileModel.v
theories/PropGraphFile.v
theories/StatsModel.v
theories/PropStats.v
theories/IsoModel.v
theories/PropIso.v
theories/InfoModel.v
theories/PropInfo.v
theories/AddressModel.v
theories/PropAddress.v
theories/FrameModel.v
theories/PropFrame.v
theories/NumpyModel.v
theories/PropNumpy.v
theories/SingletonModel.v
theories/PropSingleton.v
theories/DataInfoModel.v
theories/PropDataInfo.v
theories/TopPairModel.v
theories/PropTopPair.v
theories/CallbackCheckModel.v
theories/PropCallbackCheck.v
theories/DrawPatternModel.v
theories/PropDrawPattern.v
theories/LabelTextModel.v
theories/PropLabelText.v
theories/PropExact.v
theories/PropExactLcm.v
theories/DataPortModel.v
theories/DataPortProofs.v
theories/PropDataPort.v
theories/PropBlocks.v
theories/PropVectorizer.v
theories/PropRepeat.v

-Q theories Verif
theories/Np.v
theories/NpFacts.v
theories/SuperSceneModel.v
theories/SuperSceneSpec.v
theories/SuperSceneFacts.v
theories/SuperSceneHist.v
theories/SuperSceneFrame.v
theories/SuperSceneExamples.v
theories/SuperSceneProps.v
theories/SeedModel.v
theories/SeedFacts.v
theories/SeedProps.v
theories/LinkedModel.v
theories/LinkedGraph.v
theories/LinkedSpec.v
theories/LinkedFacts.v
theories/LinkedScene.v
theories/LinkedHist.v
theories/LinkedExamples.v
theories/LinkedProps.v
theories/LinkedSeed.v
theories/DispatchModel.v
theories/DispatchSpec.v
theories/DispatchFacts.v
theories/DispatchProps.v
theories/SceneModel.v
theories/SceneSpec.v
theories/SceneFacts.v
theories/StackFacts.v
theories/LnlikeModel.v
theories/LnlikeFacts.v
theories/ChainFacts.v
theories/SceneProps.v
theories/PosteriorModel.v
theories/PosteriorSpec.v
theories/PosteriorFacts.v
theories/PosteriorProps.v
theories/FastPosterior.v
theories/KernelModel.v
theories/KernelFacts.v
theories/KernelJac.v
theories/KernelSum.v
theories/KernelGrad.v
theories/KernelProps.v
theories/KernelMask.v
theories/KernelCase.v
theories/SlowModel.v
theories/SlowProps.v
theories/SlowCase.v
theories/GpuModel.v
theories/GpuProps.v
theories/ShearModel.v
theories/ShearProps.v
theories/ShearKernel.v
theories/PackModel.v
theories/PackFacts.v
theories/PackLoop.v
theories/PackBuild.v
theories/PackProps.v
theories/PackPsf.v
theories/StoreModel.v
theories/StoreFacts.v
theories/StoreProps.v
theories/StoreAdd.v
theories/StoreCap.v
theories/DeviceModel.v
theories/DeviceFacts.v
theories/DeviceLoop.v
theories/DeviceProps.v
theories/DeviceZero.v
theories/DeviceFloat.v
theories/DeviceCase.v
theories/LinOptModel.v
theories/LinOptProps.v
theories/LinOptDevice.v
theories/LinOptCase.v
theories/LinOptFail.v
theories/RegionModel.v
theories/RegionFacts.v
theories/RegionSat.v
theories/RegionProps.v
theories/SearchProps.v
theories/SearchMeta.v
theories/AnglesModel.v
theories/AnglesProps.v
theories/BoundsModel.v
theories/BoundsProps.v
theories/BoundsMore.v
theories/BoundsWidth.v
theories/BlockModel.v
theories/BlockProps.v
theories/ReflectModel.v
theories/ReflectProps.v
theories/ConfigModel.v
theories/ConfigProps.v
theories/ConfigStrict.v
theories/CombineModel.v
theories/CombineProps.v
theories/CombineCat.v
theories/EmModel.v
theories/EmFacts.v
theories/EmProps.v
theories/WcsModel.v
theories/WcsProps.v
theories/ResidModel.v
theories/ResidProps.v
theories/ProfileModel.v
theories/ProfileProps.v
theories/ProfileCase.v
theories/KernelPsf.v
theories/RegionBox.v
theories/MedianProps.v
theories/PlanModel.v
theories/SlowGrad.v
theories/PlanFacts.v
theories/PlanScene.v
theories/PlanGrad.v
theories/PlanProps.v
theories/PlanCase.v
theories/FitModel.v
theories/FitFacts.v
theories/FitProps.v
theories/FitHand.v
theories/FitCase.v
theories/QuantModel.v
theories/QuantFacts.v
theories/QuantProps.v
theories/QuantCase.v
theories/QuantPlace.v
theories/DeriveModel.v
theories/DeriveProps.v
theories/DeriveUnc.v
theories/DeriveCase.v
theories/ResultModel.v
theories/ResultFacts.v
theories/ResultProps.v
theories/ResultLoad.v
theories/ResultTask.v
theories/ResultCase.v
theories/DispatchTotal.v
theories/EndFacts.v
theories/EndProps.v
theories/EndNever.v
theories/ImagesModel.v
theories/ImagesProps.v
theories/ImagesCase.v
theories/CatalogModel.v
theories/CatalogFacts.v
theories/CatalogProps.v
theories/CatalogMore.v
theories/PsfConvModel.v
theories/PsfConvFacts.v
theories/PsfHmcFacts.v
theories/PsfConvProps.v
theories/PsfHmcProps.v
theories/PsfBlur.v
theories/PsfConvCase.v
theories/IdentModel.v
theories/IdentFacts.v
theories/IdentProps.v
theories/IdentMeta.v
theories/IdentRun.v
theories/MogModel.v
theories/MogFacts.v
theories/MogProps.v
theories/MogFlux.v
theories/MogCase.v
theories/MogLive.v
theories/StaticModel.v
theories/StaticFacts.v
theories/StaticProps.v
theories/StaticCase.v
theories/StampModel.v
theories/StampProps.v
theories/StampImage.v
theories/StampShow.v
theories/StampCase.v
theories/StateModel.v
theories/StateFacts.v
theories/StateProps.v
theories/StateCase.v
theories/DriverModel.v
theories/DriverFacts.v
theories/DriverProps.v
theories/DriverCase.v
theories/PriorModel.v
theories/PriorProps.v
theories/StateMore.v
theories/StateLive.v
theories/ChildModel.v
theories/ChildFacts.v
theories/ChildProps.v
theories/ChildStrict.v
theories/PlanShear.v
theories/StartModel.v
theories/StartFacts.v
theories/StartProps.v
theories/Ds9Model.v
theories/Ds9Props.v
theories/HalfModel.v
theories/HalfFacts.v
theories/HalfProps.v
theories/HalfCase.v
theories/WeightModel.v
theories/WeightFacts.v
theories/WeightProps.v
theories/WeightCase.v
theories/MockModel.v
theories/MockProps.v
theories/MockCase.v
theories/CornerModel.v
theories/CornerFacts.v
theories/CornerProps.v
theories/CornerCase.v
theories/ProfModel.v
theories/ProfProps.v
theories/ProfCase.v
theories/DemoModel.v
theories/DemoProps.v
theories/DemoCase.v
theories/ReportModel.v
theories/ReportProps.v
theories/ReportCase.v
theories/FrameModel.v
theories/FrameProps.v
theories/FrameCase.v
theories/SingleModel.v
theories/SingleFacts.v
theories/SingleProps.v
theories/SingleCase.v
theories/SingleCap.v
theories/GaussInt.v
theories/PixelFacts.v
theories/PixelProps.v
theories/PixelCase.v
theories/ConvProps.v
theories/ConvCase.v
theories/MixProps.v
theories/TwinProps.v
theories/TwinCase.v
theories/LabelProps.v
theories/LabelCase.v
theories/EmRepeat.v
theories/DemoFirst.v
theories/SearchRect.v
theories/CutModel.v
theories/CutProps.v
theories/CutCase.v
theories/DeviceShape.v
theories/CutEdge.v
theories/FluxProps.v
theories/FluxCase.v
theories/FluxPlace.v
theories/FitsCheck.v
theories/PriorBox.v
theories/DriverLive.v
theories/MockLive.v
theories/DemoLive.v
theories/HalfLive.v
theories/WeightLive.v
theories/ProfLive.v
theories/CornerLive.v
theories/FrameLive.v
theories/ResultFill.v
theories/WeightMu.v
theories/StaticMeta.v
theories/SceneSparse.v
theories/FitStart.v
theories/SceneBounds.v
theories/PlanNeg.v
theories/PsfMeta.v

-Q theories Verif
theories/Base.v
theories/Arith.v
theories/Pal.v
theories/World.v
theories/Attr.v
theories/Hist.v
theories/MedianCut.v
theories/Nearest.v
theories/Kmeans.v
theories/Blur.v
theories/ImageM.v
theories/Quant.v
theories/Remap.v
theories/BaseFacts.v
theories/Ieee.v
theories/Order.v
theories/IeeeFacts.v
theories/SpecPow.v
theories/PowRef.v
theories/SpecAttr.v
theories/AttrFacts.v
theories/QualityFacts.v
theories/PropAttr.v
theories/USeq.v
theories/SpecHist.v
theories/SpecImage.v
theories/BlurFacts.v
theories/ImageFacts.v
theories/HistFacts.v
theories/PropHist.v
theories/PropImage.v
theories/MedianFacts.v
theories/SearchFacts.v
theories/NearFacts.v
theories/QuantFacts.v
theories/RemapFacts.v
theories/Api.v
theories/ApiFacts.v
theories/ResultFacts.v
theories/Witness.v
theories/PropRemap.v
theories/ReuseFacts.v
theories/PropReuse.v
theories/LnFacts.v
theories/ColorFacts.v
theories/SpecPal.v
theories/PalFacts.v
theories/FixedFacts.v
theories/FixedIeee.v
theories/GammaFacts.v
theories/SetterFacts.v
theories/PropPalette.v
theories/SpecProgress.v
theories/ProgressFacts.v
theories/ProgressIeee.v
theories/MinFacts.v
theories/ProgressAll.v
theories/PropProgress.v
theories/PropTall.v
theories/RealArith.v
theories/TreeFacts.v
theories/NearReal.v
theories/SearchReal.v
theories/FixedPlace.v
theories/FewFacts.v
theories/PropSearch.v
theories/DitherZero.v
theories/ContrastLow.v
theories/LosslessReal.v
theories/FewImage.v
theories/RoundReal.v
theories/LosslessTop.v
theories/PropLossless.v
theories/SmallFloat.v
theories/ContrastIeee.v
theories/KeepPixels.v
theories/PropImportance.v
theories/SplitFacts.v
theories/MedianIeee.v
theories/MedianReal.v
theories/KmeansSched.v
theories/KmeansReal.v
theories/SearchInv.v
theories/HullReal.v
theories/HistIn.v
theories/HullTop.v
theories/PropCluster.v
theories/HistWeights.v
theories/PropWeights.v
theories/DitherBg.v
theories/BgTop.v
theories/BgReal.v
theories/BgIeee.v
theories/SpecDither.v
theories/DitherSpec.v
theories/DitherReal.v
theories/PropDither.v
theories/Mem.v
theories/MemFacts.v
theories/PropMem.v
theories/MemRust.v
theories/PropMemRust.v
theories/Ffi.v
theories/FfiFacts.v
theories/FfiReach.v
theories/PropFfi.v
theories/PalSimd.v
theories/SimdFacts.v
theories/PropSimd.v
theories/PrepareFacts.v
theories/PropPrepare.v
theories/SpecReport.v
theories/ReportFacts.v
theories/PropReport.v
theories/AvgIeee.v
theories/FiniteRemap.v
theories/AvgF32.v
theories/WeightIeee.v
theories/CutInv.v
theories/RoundInv.v
theories/FiniteSearch.v
theories/SpecFinite.v
theories/FiniteStart.v
theories/HistTotal.v
theories/FiniteTop.v
theories/NanGamma.v
theories/PropFinite.v
theories/MetricIeee.v
theories/NearIeee.v
theories/SpecDist.v
theories/SearchIeee.v
theories/PropNear.v
theories/ApartIeee.v
theories/AvgSame.v
theories/BackIeee.v
theories/FewRemap.v
theories/FewTop.v
theories/KeepTop.v
theories/ThinReal.v
theories/ThinIeee.v
theories/LosslessIeee.v
theories/KeepFacts.v
theories/PropKeep.v
theories/PropLosslessIeee.v
theories/SpecKmeans.v
theories/KmeansStep.v
theories/KmeansMono.v
theories/KmeansBox.v
theories/KmeansBad.v
theories/PropKmeans.v
theories/SpecPromise.v
theories/BoundFacts.v
theories/PropPromise.v
theories/StepOf.v
theories/StepReal.v
theories/PropStep.v
theories/ErrorFacts.v
theories/ErrorIeee.v
theories/PropErrors.v
theories/SpecCut.v
theories/CutReal.v
theories/CutEnd.v
theories/PropCut.v
theories/SmallGamma.v
theories/PropSmallGamma.v
theories/FastCut.v
theories/PropFast.v
theories/FastStep.v
theories/FastEarly.v
theories/PropFastStep.v
theories/SpecFixed.v
theories/FixedNear.v
theories/FixedFast.v
theories/PropFixedPlace.v

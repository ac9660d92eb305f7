-Q theories Verif

theories/Base.v
theories/Interleave.v
theories/Spec.v
theories/RngModel.v
theories/DenseModel.v
theories/DenseSpec.v
theories/DenseProofs.v
theories/DenseProofs2.v
theories/DenseProofs3.v
theories/PropsDense.v
theories/SparseSkopModel.v
theories/FySpec.v
theories/FyProofs.v
theories/PropsFy.v
theories/SamplerProofs.v
theories/SparseSpec.v
theories/LasoProofs.v
theories/SparseProofs.v
theories/SparseProofs2.v
theories/PropsSparse.v
theories/FloatModel.v
theories/FloatProofs.v
theories/FloatProofs2.v
theories/CdfProofs.v
theories/FloatProofs3.v
theories/PropsFloat.v
theories/SpFmtModel.v
theories/SpFmtSpec.v
theories/SpFmtProofs.v
theories/SpFmtProofs2.v
theories/SpFmtProofs3.v
theories/SpFmtProofs4.v
theories/SpFmtProofs5.v
theories/PropsSpFmt.v
theories/SpmmModel.v
theories/SpmmSpec.v
theories/SpmmProofs.v
theories/SpmmProofs2.v
theories/SpmmProofs3.v
theories/SpmmProofs4.v
theories/SpmmProofs5.v
theories/SpmmProofs6.v
theories/SpmmProofs7.v
theories/PropsSpmm.v
theories/UtilModel.v
theories/SketchModel.v
theories/LoopProofs.v
theories/SketchProofs.v
theories/SketchSpec.v
theories/SketchProofs2.v
theories/SketchProofs3.v
theories/UtilSpec.v
theories/UtilProofs.v
theories/SketchProofs4.v
theories/SketchProofs5.v
theories/SketchProofs6.v
theories/PropsSketch.v
theories/RngWordsModel.v
theories/RngWordsProofs.v
theories/PropsUtil.v
theories/OwnModel.v
theories/OwnSpec.v
theories/OwnProofs.v
theories/OwnProofs2.v
theories/OwnProofs3.v
theories/OwnProofs4.v
theories/OwnProofs5.v
theories/OwnProofs6.v
theories/PropsOwn.v
theories/IsoSpec.v
theories/IsoProofs.v
theories/IsoProofs2.v
theories/PropsIso.v
theories/StatSpec.v
theories/StatProofs.v
theories/DenseFloatModel.v
theories/DenseIsoProofs.v
theories/DenseIsoProofs2.v
theories/PropsStat.v
theories/LawProofs.v
theories/PropsLaw.v
theories/PropsExpand.v
theories/RoundModel.v
theories/RoundSpec.v
theories/ParamProofs.v
theories/RoundProofs.v
theories/RoundProofs2.v
theories/RoundProofs3.v
theories/PropsRound.v
theories/RoundProofs4.v
theories/PropsRoundSketch.v
theories/RoundProofs5.v
theories/PropsRoundSparse.v
theories/RoundSpec2.v
theories/RoundProofs6.v
theories/PropsRoundFinite.v
theories/BoxModel.v
theories/BoxSpec.v
theories/BoxPi.v
theories/BoxProofs.v
theories/BoxProofs2.v
theories/BoxProofs3.v
theories/BoxProofs4.v
theories/BoxFloatProofs.v
theories/BoxLibm.v
theories/BoxProofs5.v
theories/PropsGauss.v
theories/SketchSpec2.v
theories/SketchProofs7.v
theories/PropsSketch2.v
theories/RoundSpec3.v
theories/RoundProofs7.v
theories/RoundProofs8.v
theories/GemmModel.v
theories/GemmSpec.v
theories/GemmProofs.v
theories/BlasProofs.v
theories/PropsBlas.v
theories/ContractModel.v
theories/ContractProofs.v
theories/ContractProofs2.v
theories/PropsContract.v
theories/NormSpec.v
theories/NormProofs.v
theories/NormProofs2.v
theories/NormProofs3.v
theories/PropsNorm.v
theories/NormProofs4.v
theories/NormProofs5.v
theories/PropsNorm2.v
theories/GramSpec.v
theories/GramProofs.v
theories/GramProofs2.v
theories/GramProofs3.v
theories/GramProofs4.v
theories/PropsGram.v
theories/GramProofs5.v
theories/PropsGram2.v
theories/LogMoments.v
theories/PairProofs.v
theories/PairProofs2.v
theories/PairProofs3.v
theories/GaussMoments.v
theories/GaussNorm.v
theories/PropsNorm3.v
theories/TailSpec.v
theories/TailProofs.v
theories/TailProofs2.v
theories/TailProofs3.v
theories/TailProofs4.v
theories/PropsTail.v
theories/TailGauss.v
theories/TailGauss2.v
theories/TailGauss3.v
theories/PropsTail2.v
theories/TailComputed.v
theories/PropsTail3.v
theories/TailSparse.v
theories/TailSparse2.v
theories/PropsTail4.v
theories/TailComputed2.v
theories/PropsGram3.v
theories/PropsTail5.v
theories/TailComputed3.v
theories/PropsTail6.v
theories/PropsTail7.v
theories/OverflowModel.v
theories/OverflowProofs.v
theories/PropsOverflow.v
theories/PropsTail8.v
theories/NarrowModel.v
theories/PropsNarrow.v
theories/PropsNarrow2.v

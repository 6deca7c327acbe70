-Q theories Verif
theories/Num.v
theories/F64.v
theories/PermTac.v
theories/KdModel.v
theories/KdSpec.v
theories/KdProofs.v
theories/KdSound.v
theories/KnnUnique.v
theories/PyKdModel.v
theories/PyKdSpec.v
theories/PyKdProofs.v
theories/KdDemo.v
theories/KdPropsLemmas.v
theories/KdProps.v
theories/KnnExprModel.v
theories/KnnExprSpec.v
theories/KnnExprProofs.v
theories/KnnExprSem.v
theories/KnnExprPropsLemmas.v
theories/KnnMeanR.v
theories/KnnExprProps.v
theories/PairSums.v
theories/KendallModel.v
theories/KendallSpec.v
theories/KendallProofs.v
theories/F64Facts.v
theories/KsModel.v
theories/KsSpec.v
theories/KsProofs.v
theories/MwModel.v
theories/MwSpec.v
theories/MwProofs.v
theories/QSum.v
theories/AnovaModel.v
theories/AnovaSpec.v
theories/AnovaProofs.v
theories/Chi2Proofs.v
theories/SampleModel.v
theories/SampleSpec.v
theories/SampleProofs.v
theories/StatsPropsLemmas.v
theories/StatsProps.v
theories/IsoModel.v
theories/IsoSpec.v
theories/IsoProofs.v
theories/IsoQ.v
theories/IsoF64.v
theories/TrapzModel.v
theories/TrapzSpec.v
theories/TrapzProofs.v
theories/RocModel.v
theories/RocSpec.v
theories/RocProofs.v
theories/RocAuc.v
theories/RocConf.v
theories/NumPropsLemmas.v
theories/NumProps.v
theories/JaccModel.v
theories/JaccSpec.v
theories/JaccProofs.v
theories/PsiModel.v
theories/PsiSpec.v
theories/PsiProofs.v
theories/PsiDiscrete.v
theories/LzModel.v
theories/LzSpec.v
theories/LzProofs.v
theories/DigitModel.v
theories/DigitSpec.v
theories/DigitProofs.v
theories/CombModel.v
theories/CombSpec.v
theories/CombProofs.v
theories/EntropyModel.v
theories/EntropySpec.v
theories/EntropyProofs.v
theories/Num2PropsLemmas.v
theories/Num2Props.v
theories/FftSpec.v
theories/FftModel.v
theories/FftProofs.v
theories/FftPropsLemmas.v
theories/FftProps.v
theories/WStatsSpec.v
theories/WStatsModel.v
theories/WStatsProofs.v
theories/WStatsPropsLemmas.v
theories/XiModel.v
theories/XiSpec.v
theories/XiProofs.v
theories/WStatsProps.v
theories/StrSetSpec.v
theories/StrSetModel.v
theories/StrSetProofs.v
theories/StrSpec.v
theories/StopWords.v
theories/StrModel.v
theories/StrProofs.v
theories/SnowballModel.v
theories/StrPropsLemmas.v
theories/SnowballSpec.v
theories/SnowballProofs.v
theories/SnowballAmong.v
theories/StrProps.v
theories/SnowballSteps.v
theories/SnowballPropsLemmas.v
theories/SnowballProps.v
theories/LinModel.v
theories/LinSpec.v
theories/LinCore.v
theories/LinProofs.v
theories/LinOnline.v
theories/LinExprSpec.v
theories/LinExpr.v
theories/LinExpr2.v
theories/LinRolling.v
theories/LinHist.v
theories/LinCd.v
theories/LinMore.v
theories/LinDemos.v
theories/LinMore2.v
theories/LinPropsLemmas.v
theories/LinProps.v
theories/SplitModel.v
theories/SplitSpec.v
theories/SplitProofs.v
theories/SplitProofs2.v
theories/SplitParts.v
theories/SplitPropsLemmas.v
theories/SplitProps.v
theories/KnnIds.v
theories/MetricSpec.v
theories/MetricModel.v
theories/MetricProofs.v
theories/MetricProofs2.v
theories/MetricProofs3.v
theories/MetricProofs4.v
theories/MetricPropsLemmas.v
theories/NdcgSpec.v
theories/NdcgModel.v
theories/NdcgProofs.v
theories/NdcgTies.v
theories/NdcgProofs2.v
theories/NdcgPropsLemmas.v
theories/NdcgProps.v
theories/MetricProps.v
theories/MultiAucModel.v
theories/MultiAucSpec.v
theories/MultiAucProofs.v
theories/MultiAucProps.v
theories/StreakSpec.v
theories/StreakModel.v
theories/StreakProofs.v
theories/StreakProps.v
theories/LagSpec.v
theories/LagModel.v
theories/LagProofs.v
theories/LagPropsLemmas.v
theories/LagProps.v
theories/DescSpec.v
theories/DescModel.v
theories/DescProofs.v
theories/DescProps.v
theories/InfoSpec.v
theories/InfoModel.v
theories/InfoProofs.v
theories/InfoProofs2.v
theories/InfoPropsLemmas.v
theories/InfoProps.v
theories/SubseqSpec.v
theories/SubseqModel.v
theories/SubseqProofs.v
theories/SubseqPropsLemmas.v
theories/SubseqProps.v
theories/EncSpec.v
theories/EncModel.v
theories/EncProofs.v
theories/EncProps.v
theories/GcdSpec.v
theories/GcdModel.v
theories/GcdProofs.v
theories/GcdProps.v
theories/HavSpec.v
theories/HavModel.v
theories/HavProofs.v
theories/HavProps.v
theories/FloatxSpec.v
theories/FloatxModel.v
theories/FloatxProofs.v
theories/FloatxProps.v
theories/TransSpec.v
theories/TransModel.v
theories/TransProofs.v
theories/TransProps.v
theories/TtestSpec.v
theories/TtestModel.v
theories/TtestProofs.v
theories/TtestProps.v
theories/WinsSpec.v
theories/WinsModel.v
theories/WinsProofs.v
theories/WinsProps.v
theories/PipeModel.v
theories/PipeSpec.v
theories/PipeProofs.v
theories/PipeProps.v
theories/TfmModel.v
theories/TfmSpec.v
theories/TfmProofs.v
theories/TfmProps.v
theories/HotModel.v
theories/HotSpec.v
theories/HotProofs.v
theories/HotProps.v
theories/NtestModel.v
theories/NtestSpec.v
theories/NtestProofs.v
theories/NtestProps.v
theories/PcaModel.v
theories/PcaSpec.v
theories/PcaProofs.v
theories/PcaDemo.v
theories/PcaProps.v
theories/RepModel.v
theories/RepSpec.v
theories/RepProofs.v
theories/RepDemo.v
theories/RepProps.v
theories/RcondModel.v
theories/RcondSpec.v
theories/RcondProofs.v
theories/RcondDemo.v
theories/RcondProps.v
theories/SlrModel.v
theories/SlrSpec.v
theories/SlrProofs.v
theories/SlrDemo.v
theories/SlrProps.v
theories/ClsModel.v
theories/ClsSpec.v
theories/ClsProofs.v
theories/ClsOnline.v
theories/ClsDemo.v
theories/ClsProps.v
theories/DigammaModel.v
theories/DigammaSpec.v
theories/DigammaProofs.v
theories/KnnEntModel.v
theories/KnnEntSpec.v
theories/KnnEntProofs.v
theories/KnnEntProofs2.v
theories/KnnEntProofs3.v
theories/KnnEntProofs4.v
theories/KnnEntProps.v
theories/CopModel.v
theories/CopSpec.v
theories/CopProofs.v
theories/CopProofs2.v
theories/CopProofs3.v
theories/CopProps.v
theories/DiaModel.v
theories/DiaSpec.v
theories/DiaProofs.v
theories/DiaProofs2.v
theories/DiaProps.v
theories/DepModel.v
theories/DepSpec.v
theories/DepProofs.v
theories/DepProofs2.v
theories/DepProps.v
theories/ProfModel.v
theories/ProfSpec.v
theories/ProfProofs.v
theories/ProfProofs2.v
theories/ProfProofs3.v
theories/ProfProofs4.v
theories/ProfProps.v
theories/EditSpec.v
theories/EditModel.v
theories/EditProofs.v
theories/EditProofs2.v
theories/EditProofs3.v
theories/EditProps.v
theories/NearSpec.v
theories/NearModel.v
theories/NearProofs.v
theories/NearProofs2.v
theories/NearDemo.v
theories/NearProps.v
theories/NormPoly.v
theories/NormModel.v
theories/NormSpec.v
theories/NormPieces.v
theories/NormZero.v
theories/NormGauss.v
theories/NormChain.v
theories/NormErr.v
theories/NormRel.v
theories/NormProofs.v
theories/NormProps.v
theories/GamSpec.v
theories/GamModel.v
theories/GamInt.v
theories/GamLan.v
theories/GamLan2.v
theories/GamLan3.v
theories/GamLan4.v
theories/GamLan5.v
theories/GamProps.v
theories/GamInc.v
theories/GamSer.v
theories/GamFrac.v
theories/GamUr.v
theories/GamChi.v
theories/GamChiProps.v
theories/DigSpec.v
theories/DigPsi.v
theories/DigSmall.v
theories/DigRefl.v
theories/DigModel.v
theories/DigProofs.v
theories/DigProps.v
theories/BetaSpec.v
theories/BetaInt.v
theories/BetaFrac.v
theories/BetaErr.v
theories/BetaModel.v
theories/BetaLentz.v
theories/BetaStop.v
theories/BetaReg.v
theories/BetaTail.v
theories/BetaProofs.v
theories/BetaProps.v
theories/TightProofs.v
theories/TightEntropy.v
theories/TightProps.v
theories/TightTfm.v
theories/TightSpec.v
theories/TightHot.v
theories/InvModel.v
theories/InvSpec.v
theories/InvProofs.v
theories/InvTail.v
theories/InvProps.v

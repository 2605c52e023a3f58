-Q theories Verif
theories/Base.v
theories/MTModel.v
theories/MTSpec.v
theories/MTProofs.v
theories/ProbSpec.v
theories/ProbProofs.v
theories/MTErrorSpec.v
theories/MTErrorProofs.v
theories/MTMoreProofs.v
theories/Analysis.v
theories/MTFactor.v
theories/MTFloat.v
theories/Props_MultipleTesting.v
theories/DecModel.v
theories/DecSpec.v
theories/DecProofs.v
theories/DecMoreProofs.v
theories/DecisionsClaims.v
theories/Props_Decisions.v
theories/StorageModel.v
theories/StorageSpec.v
theories/StorageProofs.v
theories/CodecModel.v
theories/CodecSpec.v
theories/CodecProofs.v
theories/LoaderProofs.v
theories/StorageClaims.v
theories/Props_Storage.v
theories/ConcModel.v
theories/ConcSpec.v
theories/ConcProofs.v
theories/ConcClaims.v
theories/Props_Concurrency.v
theories/CodecClaims.v
theories/Props_Codec.v
theories/EdfModel.v
theories/EdfSpec.v
theories/EdfProofs.v
theories/EdfRotProofs.v
theories/EdfIntProofs.v
theories/EdfPowerProofs.v
theories/EdfClaims.v
theories/Props_Edf.v
theories/EdfIntClaims.v
theories/Props_EdfInt.v
theories/EdfMtClaims.v
theories/Props_EdfMt.v
theories/GraphModel.v
theories/GraphSpec.v
theories/GraphProofs.v
theories/GraphConnProofs.v
theories/GraphLineProofs.v
theories/GraphInvProofs.v
theories/GraphClaims.v
theories/Props_Graph.v
theories/RegistryModel.v
theories/RegistrySpec.v
theories/RegistryProofs.v
theories/RegistryClaims.v
theories/Props_Registry.v
theories/SamplerModel.v
theories/SamplerSpec.v
theories/SamplerClaims.v
theories/Props_Sampler.v
theories/ExpModel.v
theories/ExpSpec.v
theories/ExpProofs.v
theories/ExpRangeProofs.v
theories/ExpClaims.v
theories/Props_Exponential.v
theories/NormalLaw.v
theories/NormModel.v
theories/NormSpec.v
theories/NormProofs.v
theories/NormSymProofs.v
theories/NormAffProofs.v
theories/NormReflProofs.v
theories/NormClaims.v
theories/Props_Normality.v
theories/NormRangeSpec.v
theories/NormRangeProofs.v
theories/NormFiniteProofs.v
theories/NormBoundProofs.v
theories/NormRangeClaims.v
theories/Props_NormalityRanges.v
theories/LognormModel.v
theories/LognormSpec.v
theories/LognormProofs.v
theories/LognormIntProofs.v
theories/LognormClaims.v
theories/Props_LogNormal.v
theories/StudentModel.v
theories/StudentSpec.v
theories/StudentProofs.v
theories/StudentClaims.v
theories/Props_Student.v
theories/GammaModel.v
theories/GammaSpec.v
theories/GammaProofs.v
theories/GammaClaims.v
theories/Props_Gamma.v
theories/BetaModel.v
theories/BetaSpec.v
theories/BetaProofs.v
theories/BetaClaims.v
theories/Props_Beta.v
theories/MleModel.v
theories/MleSpec.v
theories/MleProofs.v
theories/MleMoreProofs.v
theories/MleFitProofs.v
theories/MleExamples.v
theories/MleClaims.v
theories/Props_MaximumLikelihood.v
theories/WeibullModel.v
theories/WeibullSpec.v
theories/WeibullProofs.v
theories/WeibullScoreProofs.v
theories/WeibullInvProofs.v
theories/WeibullFitProofs.v
theories/WeibullRangeProofs.v
theories/WeibullMoreProofs.v
theories/WeibullClaims.v
theories/Props_Weibull.v
theories/ChisqSpec.v
theories/ChisqProofs.v
theories/ChisqClaims.v
theories/Props_Chisq.v
theories/UniformModel.v
theories/UniformSpec.v
theories/LegendreProofs.v
theories/UniformProofs.v
theories/UniformStatProofs.v
theories/UniformKmProofs.v
theories/UniformMomentProofs.v
theories/UniformClaims.v
theories/Props_Uniform.v
theories/BhsModel.v
theories/BhsSpec.v
theories/BhsProofs.v
theories/BhsStatProofs.v
theories/BhsRangeProofs.v
theories/BhsClaims.v
theories/Props_Bhs.v
theories/NormFormSpec.v
theories/NormFormProofs.v
theories/NormDistProofs.v
theories/NormDist2Proofs.v
theories/NormTestProofs.v
theories/NormEppsProofs.v
theories/NormFormClaims.v
theories/Props_NormalityForms.v
theories/ExpFormSpec.v
theories/ExpFormProofs.v
theories/ExpForm2Proofs.v
theories/ExpForm3Proofs.v
theories/ExpFormClaims.v
theories/Props_ExponentialForms.v
theories/DetailSpec.v
theories/DetailClaims.v
theories/Props_Details.v
theories/NormMoreSpec.v
theories/NormMoreProofs.v
theories/NormMoreClaims.v
theories/Props_NormalityMore.v
theories/WeibullFormSpec.v
theories/WeibullFormProofs.v
theories/WeibullFormClaims.v
theories/Props_WeibullForms.v
theories/EdfFormSpec.v
theories/EdfFormProofs.v
theories/EdfFormClaims.v
theories/Props_EdfForms.v
theories/MTFloatModel.v
theories/MTFloatSpec.v
theories/MTFloatProofs.v
theories/MTFloatClaims.v
theories/Props_MTFloat.v
theories/LogKLSpec.v
theories/LogKLProofs.v
theories/LogKL2Proofs.v
theories/LogKLClaims.v
theories/Props_LogKL.v
theories/BetaLawSpec.v
theories/BetaLawProofs.v
theories/BetaLawClaims.v
theories/Props_BetaLaw.v
theories/BhsDistSpec.v
theories/BhsDistClaims.v
theories/Props_BhsDist.v
theories/NormPinSpec.v
theories/NormPinClaims.v
theories/Props_NormPin.v
theories/MCFloatModel.v
theories/MCFloatSpec.v
theories/MCFloatProofs.v
theories/MCFloat2Proofs.v
theories/MCFloatClaims.v
theories/Props_MCFloat.v
theories/DistFnModel.v
theories/DistFnSpec.v
theories/DistFnClaims.v
theories/Props_DistFn.v
theories/MCFloat3Claims.v
theories/Props_MCFloat3.v
theories/SizeSpec.v
theories/SizeClaims.v
theories/Props_Size.v
theories/ConvSpec.v
theories/ConvClaims.v
theories/Props_Conv.v
theories/Conv2Spec.v
theories/Conv2Claims.v
theories/Props_Conv2.v
theories/Power3Claims.v
theories/Props_Power3.v
theories/Power4Claims.v
theories/Props_Power4.v
theories/Power5Claims.v
theories/Props_Power5.v
theories/Power6Claims.v
theories/Props_Power6.v
theories/AltModel.v
theories/AltClaims.v
theories/Props_Alt.v
theories/PowerSpec.v
theories/PowerClaims.v
theories/Props_Power.v
theories/Power2Claims.v
theories/Props_Power2.v
theories/McMtSpec.v
theories/McMtClaims.v
theories/Props_McMt.v
theories/McMt2Claims.v
theories/Props_McMt2.v
theories/McMt3Claims.v
theories/Props_McMt3.v
theories/BhsScanSpec.v
theories/BhsScanClaims.v
theories/Props_BhsScan.v
theories/CompSpec.v
theories/CompClaims.v
theories/Props_Comp.v
theories/Comp2Claims.v
theories/Props_Comp2.v

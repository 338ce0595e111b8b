-Q theories Verif
theories/Num/Scalar.v
theories/Num/XReal.v
theories/Num/F64.v
theories/Model/Rust.v
theories/Model/Constraints.v
theories/Model/Probability.v
theories/Model/Utils.v
theories/Model/Params.v
theories/Model/Traits.v
theories/Model/Consts.v
theories/Model/Continuous.v
theories/Spec/ProbSpec.v
theories/Spec/ParamSpec.v
theories/Spec/UtilsSpec.v
theories/Spec/DistSpec.v
theories/Spec/ResSpec.v
theories/Proofs/ProbProofs.v
theories/Proofs/UtilsProofs.v
theories/Proofs/SimplexProofs.v
theories/Proofs/ConstraintProofs.v
theories/Proofs/TraitProofs.v
theories/Proofs/NewInv.v
theories/Proofs/Calc.v
theories/Proofs/Calc2.v
theories/Spec/GammaSpec.v
theories/Model/Continuous3.v
theories/Proofs/Improper.v
theories/Proofs/GammaFun.v
theories/Proofs/Subst.v
theories/Proofs/Mellin.v
theories/Proofs/ContProofs11.v
theories/Proofs/ContProofs12.v
theories/Proofs/ContProofs13.v
theories/Proofs/ContProofs14.v
theories/Proofs/ContProofs15.v
theories/Proofs/ContProofs16.v
theories/Proofs/ContProofs17.v
theories/Proofs/ContProofs18.v
theories/Proofs/XTac.v
theories/Proofs/ContProofs1.v
theories/Proofs/ContProofs2.v
theories/Proofs/ContProofs3.v
theories/Proofs/ContProofs4.v
theories/Proofs/UniformF64.v
theories/Spec/DiscreteSpec.v
theories/Proofs/DiscProofs1.v
theories/Proofs/DiscProofs2.v
theories/Proofs/DiscProofs3.v
theories/Proofs/DiscProofs4.v
theories/Proofs/DiscProofs5.v
theories/Properties/C27_C29_Uniform.v
theories/Properties/C01_C10_Probability.v
theories/Properties/C11_C17_Params.v
theories/Properties/C19_C21_Utils.v
theories/Properties/C22_C25_Traits.v
theories/Properties/C26_C33_Continuous.v
theories/Properties/C34_C40_Continuous.v
theories/Properties/C41_C47_Continuous.v
theories/Properties/C48_C55_Discrete.v
theories/Properties/C48_C53_F64.v
theories/Model/Continuous2.v
theories/Model/LogFact.v
theories/Model/Discrete.v
theories/Proofs/Gauss.v
theories/Proofs/Gauss2.v
theories/Proofs/ContProofs5.v
theories/Proofs/ContProofs6.v
theories/Proofs/ContProofs7.v
theories/Proofs/ContProofs8.v
theories/Proofs/ContProofs9.v
theories/Proofs/ContProofs10.v
theories/Proofs/Oracle.v
theories/Proofs/Unique.v
theories/Proofs/HeavyTail.v
theories/Proofs/ContProofs19.v
theories/Proofs/ContProofs20.v
theories/Properties/C83_C98_GammaFamily.v
theories/Proofs/ContProofs21.v
theories/Proofs/ContProofs22.v
theories/Proofs/ContProofs23.v
theories/Proofs/ContProofs24.v
theories/Properties/C99_C101_StudentT.v
theories/Spec/SampleSpec.v
theories/Proofs/ContProofs25.v
theories/Properties/C102_C107_Normals.v
theories/Proofs/ContProofs26.v
theories/Properties/C56_Convolution.v
theories/Properties/C74_C78_Modes.v
theories/Model/Mixture.v
theories/Spec/MixSpec.v
theories/Proofs/MixtureProofs.v
theories/Properties/C57_C60_Mixture.v
theories/Spec/BuildSpec.v
theories/Properties/C18_Build.v
theories/Properties/C24_C75_Global.v
theories/Model/Normal2.v
theories/Model/Linalg.v
theories/Model/MvNormal.v
theories/Model/Multivariate.v
theories/Spec/MvSpec.v
theories/Proofs/Normal2Proofs.v
theories/Properties/C61_C64_Normal2.v
theories/Spec/LapackSpec.v
theories/Proofs/Matrix.v
theories/Proofs/MvProofs.v
theories/Proofs/LapackInst.v
theories/Proofs/MvProofs2.v
theories/Proofs/MvProofs3.v
theories/Properties/C65_C67_MvNormal.v
theories/Proofs/DirichletProofs.v
theories/Proofs/MultiProofs.v
theories/Properties/C68_C70_Multivariate.v
theories/Proofs/Stirling.v
theories/Proofs/LogTable.v
theories/Proofs/LogFactUse.v
theories/Properties/C21_LogFactorial.v
theories/Spec/FitSpec.v
theories/Proofs/FitProofs1.v
theories/Proofs/FitProofs2.v
theories/Proofs/FitProofs3.v
theories/Proofs/FitProofs4.v
theories/Properties/C71_C79_Fitting.v
theories/Properties/C73_F64.v
theories/Model/Serde.v
theories/Spec/SerdeSpec.v
theories/Properties/C76_Serde.v
theories/Spec/CompoundSpec.v
theories/Proofs/BetaBinProofs.v
theories/Properties/C108_C109_BetaBinomial.v
theories/Proofs/ExpPush.v
theories/Proofs/ContProofs27.v
theories/Proofs/ContProofs28.v
theories/Proofs/Zeta.v
theories/Properties/C110_C112_ExtremeValue.v
theories/Proofs/LogGamma.v
theories/Spec/ZetaSpec.v
theories/Proofs/ZetaOracle.v
theories/Proofs/LogisticMoments.v
theories/Proofs/ContProofs29.v
theories/Properties/C113_C114_Logistic.v
theories/Proofs/DiscProofs6.v
theories/Proofs/DiscProofs7.v
theories/Properties/C115_C118_Discrete.v
theories/Properties/C119_Multivariate.v
theories/Proofs/ContProofs30.v
theories/Proofs/ContProofs31.v
theories/Properties/C120_C121_Moments.v
theories/Proofs/PsiHalf.v
theories/Proofs/GammaConvex.v
theories/Proofs/ExpIrr.v
theories/Proofs/PiBound.v
theories/Spec/AccuracySpec.v
theories/Proofs/F64Acc.v
theories/Proofs/ExpAcc.v
theories/Proofs/ContProofs32.v
theories/Proofs/ContProofs33.v
theories/Properties/C122_C124_Entropies.v
theories/Model/Samplers.v
theories/Model/Display.v
theories/Model/ErrorText.v
theories/Spec/RandSpec.v
theories/Spec/SupportSpec.v
theories/Proofs/RandProofs.v
theories/Proofs/RandProofs2.v
theories/Proofs/RandProofs3.v
theories/Proofs/RandProofs4.v
theories/Properties/C125_C127_Sampling.v
theories/Properties/C128_C130_Supports.v
theories/Properties/C131_C132_Constructors.v
theories/Spec/LibmSpec.v
theories/Spec/TotalSpec.v
theories/Spec/DisplaySpec.v
theories/Proofs/F64Order.v
theories/Proofs/LibmInst.v
theories/Proofs/F64Cdf.v
theories/Properties/C133_F64Cdf.v
theories/Properties/C134_Totality.v
theories/Proofs/F64Pdf.v
theories/Properties/C135_F64Pdf.v
theories/Properties/C136_Medians.v
theories/Properties/C137_MvSupports.v
theories/Properties/C138_ProbabilityOps.v
theories/Proofs/InvGaussLaw.v
theories/Properties/C139_SamplerLaws.v
theories/Properties/C140_GevGumbel.v
theories/Properties/C141_Degenerate.v
theories/Properties/C142_Relations.v
theories/Properties/C143_Transforms.v
theories/Properties/C144_LocationScale.v
theories/Properties/C145_Symmetry.v
theories/Properties/C146_DiscreteRelations.v
theories/Properties/C147_MvRelations.v
theories/Properties/C148_CentreOrder.v
theories/Properties/C133_C135_F64More.v
theories/Properties/C149_DiscreteF64.v
theories/Properties/C150_Display.v
theories/Properties/C151_ErrorText.v
theories/Properties/C152_F64Variance.v
theories/Properties/C153_F64Mean.v
theories/Properties/C154_Accessors.v
theories/Properties/C155_F64Samples.v
theories/Properties/C156_F64Special.v
theories/Properties/C157_F64Modes.v
theories/Proofs/DiscMedians.v
theories/Properties/C117_Medians.v
theories/Properties/C158_Remaining.v
theories/Properties/C159_F64Symmetry.v
theories/Properties/C94_C101_Ranges.v
theories/Properties/C121_GpdFormulas.v
theories/Properties/C86_BetaMedians.v
theories/Properties/C161_F64Mixture.v
theories/Properties/C162_F64Quantiles.v
theories/Properties/C163_F64Accuracy.v
theories/Properties/C164_F64Densities.v
theories/Properties/C165_F64GammaDensities.v
theories/Properties/C166_Constants.v
theories/Properties/C167_F64Discrete.v
theories/Properties/C168_F64MixtureAccuracy.v
theories/Properties/C169_F64Fits.v
theories/Properties/C170_F64Accessors.v
theories/Properties/C171_F64Entropy.v
theories/Properties/C109_Kurtosis.v
theories/Properties/C136_ChiMedians.v
theories/Properties/C160_F64Convolution.v
theories/Model/ProbOps.v

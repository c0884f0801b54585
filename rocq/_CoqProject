-Q theories Verif

theories/F64.v
theories/BOModel.v
theories/BOSpec.v
theories/BOFacts.v
theories/Prop_BO.v
theories/F64R.v
theories/OptModel.v
theories/OptSpec.v
theories/OptFacts.v
theories/InitModel.v
theories/OptFloat.v
theories/AdamFloat.v
theories/InitFacts.v
theories/LhsModel.v
theories/Prop_Lhs.v
theories/Prop_Opt.v
theories/Prop_Init.v
theories/StatModel.v
theories/Prop_Stat.v
theories/ParetoModel.v
theories/Prop_Pareto.v
theories/SerializeModel.v
theories/Prop_Serialize.v
theories/SeedModel.v
theories/Prop_Seed.v
theories/LinAlgModel.v
theories/LinAlg.v
theories/KernelModel.v
theories/GPModel.v
theories/GPSpec.v
theories/GPFacts.v
theories/Prop_GP.v
theories/Prop_GP2.v
theories/Psd.v
theories/MaternPsd.v
theories/KernelSpec.v
theories/KernelFacts.v
theories/KernelGrad.v
theories/Prop_Kernel.v
theories/MeanSpec.v
theories/MeanFacts.v
theories/Prop_Mean.v
theories/Prop_Load.v
theories/Prop_Load2.v
theories/MatCalc.v
theories/Det.v
theories/Prop_Lik.v
theories/Prop_Loo.v
theories/Prop_Lik2.v
theories/HpOptModel.v
theories/Prop_HpOpt.v
theories/Prop_HpOptF.v
theories/GaussInt.v
theories/AcquiModel.v
theories/Prop_EI.v
theories/Prop_Acqui.v
theories/Prop_Acqui2.v
theories/AcquiModelF.v
theories/Prop_AcquiF.v
theories/MultiGPModel.v
theories/MultiGPSpec.v
theories/MultiGPFacts.v
theories/Prop_MultiGP.v
theories/Prop_MultiGP2.v
theories/SparseModel.v
theories/SparseSpec.v
theories/Prop_Sparse.v
theories/SparseGPModel.v
theories/Prop_Sparse2.v
theories/CBModel.v
theories/Prop_CB.v
theories/Prop_CB2.v
theories/ParegoModel.v
theories/Prop_Parego.v
theories/Prop_Parego2.v
theories/ImgpoModel.v
theories/ImgpoSpec.v
theories/ImgpoFacts.v
theories/Prop_Imgpo.v
theories/Prop_Imgpo2.v
theories/Prop_Imgpo3.v
theories/ParLfModel.v
theories/Prop_ParLf.v
theories/Prop_MultiLoad.v
theories/EciModel.v
theories/Prop_Eci.v
theories/EhviModel.v
theories/Prop_Ehvi.v
theories/Prop_Ehvi2.v
theories/HvModel.v
theories/Prop_Hv.v
theories/MultiBoModel.v
theories/Prop_MultiBo.v
theories/NloptModel.v
theories/Prop_Nlopt.v
theories/LhsFModel.v
theories/Prop_LhsF.v
theories/BoxModel.v
theories/Prop_Box.v
theories/BORel.v
theories/BoGpModel.v
theories/Prop_BoGp.v
theories/Prop_BoGp2.v
theories/ParegoBoModel.v
theories/Prop_ParegoBo.v
theories/Prop_ParegoBo2.v
theories/GpStatModel.v
theories/Prop_GpStat.v
theories/SpgpModel.v
theories/SpgpSpec.v
theories/SpgpAlg.v
theories/Prop_Spgp.v
theories/Prop_Spgp2.v
theories/Prop_SpgpLik.v
theories/SpgpGradAlg.v
theories/Prop_SpgpGrad.v
theories/BenchModel.v
theories/Prop_Bench.v
theories/MultiSparseModel.v
theories/Prop_MultiSparse.v
theories/FpModel.v
theories/FpErr.v
theories/FpAlg.v
theories/FpChol.v
theories/FpSolve.v
theories/FpGp.v
theories/FpFin.v
theories/Prop_Fp.v
theories/FpKerModel.v
theories/FpKer.v
theories/FpKer2.v
theories/Prop_FpKer.v
theories/Prop_TextPrec.v
theories/FpLikModel.v
theories/FpLik.v
theories/Prop_FpLik.v
theories/ParModel.v
theories/ParFacts.v
theories/ParUseModel.v
theories/Prop_Par.v
theories/FpAcqModel.v
theories/FpAcq.v
theories/Prop_FpAcq.v
theories/FpLip.v
theories/Prop_Next.v
theories/Prop_Flush.v
theories/FpMeanModel.v
theories/FpHpModel.v
theories/FpImpl.v
theories/FpLife.v
theories/Prop_FpMean.v
theories/BORun.v
theories/Prop_BoFp.v
theories/FpBand.v
theories/BOCount.v
theories/BOLater.v
theories/Prop_Conv.v
theories/Prop_Ga.v
theories/Prop_Any.v
theories/Prop_Hp.v
theories/Prop_GpUcb.v
theories/Prop_Regret.v
theories/Prop_Stuck.v

-Q theories Verif
theories/Lib_Chol.v
theories/Lib_Definite.v
theories/Lib_Field.v
theories/Lib_GLS.v
theories/Lib_Lapack.v
theories/Lib_List.v
theories/Lib_Mixture.v
theories/Lib_Normal.v
theories/Lib_Psd.v
theories/Lib_Schur.v
theories/Lib_Sum.v
theories/Model_AcqBatch.v
theories/Model_Acquisition.v
theories/Model_Aggregate.v
theories/Model_Annealing.v
theories/Model_Ask.v
theories/Model_Batch.v
theories/Model_BatchBoxes.v
theories/Model_Box.v
theories/Model_Boxes.v
theories/Model_CMA.v
theories/Model_CMAES.v
theories/Model_CellVolume.v
theories/Model_Checkpoint.v
theories/Model_Cholesky.v
theories/Model_CondRun.v
theories/Model_Conditional.v
theories/Model_Csv.v
theories/Model_Daemon.v
theories/Model_EHVI.v
theories/Model_Error.v
theories/Model_Fast2.v
theories/Model_Features.v
theories/Model_Fmin.v
theories/Model_Forest.v
theories/Model_GP.v
theories/Model_GPSetup.v
theories/Model_Grid.v
theories/Model_HV.v
theories/Model_Hessian.v
theories/Model_Kernel.v
theories/Model_Lacour.v
theories/Model_Likelihood.v
theories/Model_Logger.v
theories/Model_MIES.v
theories/Model_MOBO.v
theories/Model_Metropolis.v
theories/Model_MiesPar.v
theories/Model_MoAcq.v
theories/Model_MoRun.v
theories/Model_MoSetup.v
theories/Model_Node.v
theories/Model_Noisy.v
theories/Model_NoisyPlugin.v
theories/Model_Opt.v
theories/Model_PCA.v
theories/Model_Pareto.v
theories/Model_PcaLoop.v
theories/Model_Penalized.v
theories/Model_Penalty.v
theories/Model_PredictVar.v
theories/Model_PriorCov.v
theories/Model_Propose.v
theories/Model_Rename.v
theories/Model_Restricted.v
theories/Model_Run.v
theories/Model_Sampler.v
theories/Model_Scale.v
theories/Model_Search.v
theories/Model_Seed.v
theories/Model_Shared.v
theories/Model_SkGP.v
theories/Model_Sol.v
theories/Model_Space.v
theories/Model_SpaceDict.v
theories/Model_SpaceInit.v
theories/Model_SpaceJson.v
theories/Model_Structure.v
theories/Model_Var.v
theories/Proofs_Ask.v
theories/Proofs_BatchBoxes.v
theories/Proofs_BatchClass.v
theories/Proofs_BatchFront.v
theories/Proofs_BatchPad.v
theories/Proofs_Box.v
theories/Proofs_Box2D.v
theories/Proofs_BoxFront.v
theories/Proofs_BoxRuns.v
theories/Proofs_Boxes.v
theories/Proofs_CMA.v
theories/Proofs_CMARuns.v
theories/Proofs_CellBound.v
theories/Proofs_CellClip.v
theories/Proofs_CellFast.v
theories/Proofs_CellIndex.v
theories/Proofs_CellVolume.v
theories/Proofs_Checkpoint.v
theories/Proofs_Cholesky.v
theories/Proofs_CondRun.v
theories/Proofs_Csv.v
theories/Proofs_DataFile.v
theories/Proofs_Error.v
theories/Proofs_Expect.v
theories/Proofs_ExpectCells.v
theories/Proofs_ExpectPos.v
theories/Proofs_Fast2.v
theories/Proofs_Features.v
theories/Proofs_Float32.v
theories/Proofs_Fmin.v
theories/Proofs_GP.v
theories/Proofs_HV.v
theories/Proofs_HVdom.v
theories/Proofs_HVgen.v
theories/Proofs_HVgrid.v
theories/Proofs_HVinit.v
theories/Proofs_HVlevel.v
theories/Proofs_HVmany.v
theories/Proofs_HVmeasure.v
theories/Proofs_Hessian.v
theories/Proofs_Improve.v
theories/Proofs_IndexProper.v
theories/Proofs_Kernel.v
theories/Proofs_Lacour.v
theories/Proofs_LacourRuns.v
theories/Proofs_LacourStage.v
theories/Proofs_LacourTag.v
theories/Proofs_Likelihood.v
theories/Proofs_LikelihoodCases.v
theories/Proofs_LikelihoodGrad.v
theories/Proofs_LikelihoodMax.v
theories/Proofs_LikelihoodModes.v
theories/Proofs_LikelihoodParts.v
theories/Proofs_LikelihoodTwo.v
theories/Proofs_MIES.v
theories/Proofs_MOBO.v
theories/Proofs_Metropolis.v
theories/Proofs_Metropolis2.v
theories/Proofs_MiesPar.v
theories/Proofs_MiesPar2.v
theories/Proofs_MiesReach.v
theories/Proofs_MiesStop.v
theories/Proofs_MoAcq.v
theories/Proofs_MoRun.v
theories/Proofs_Node.v
theories/Proofs_NodePaths.v
theories/Proofs_Opt.v
theories/Proofs_Pareto.v
theories/Proofs_PcaLoop.v
theories/Proofs_Penalty.v
theories/Proofs_PredictVar.v
theories/Proofs_Propose.v
theories/Proofs_Psd.v
theories/Proofs_Region.v
theories/Proofs_Restricted.v
theories/Proofs_Restricted2.v
theories/Proofs_Run.v
theories/Proofs_RunLoop.v
theories/Proofs_Sampler.v
theories/Proofs_Scale.v
theories/Proofs_Seed.v
theories/Proofs_Sol.v
theories/Proofs_SolDict.v
theories/Proofs_SolNew.v
theories/Proofs_SolOps.v
theories/Proofs_SolWrite.v
theories/Proofs_Space.v
theories/Proofs_SpaceInit.v
theories/Proofs_Structure.v
theories/Proofs_Var.v
theories/Properties_AcqArgs.v
theories/Properties_AcqBatch.v
theories/Properties_Acquisition.v
theories/Properties_Acquisition2.v
theories/Properties_Acquisition3.v
theories/Properties_Aggregate.v
theories/Properties_Alpha.v
theories/Properties_Annealing.v
theories/Properties_Ask.v
theories/Properties_Batch.v
theories/Properties_BatchBoxes.v
theories/Properties_Box.v
theories/Properties_Boxes.v
theories/Properties_CMA.v
theories/Properties_CMAES.v
theories/Properties_CellBound.v
theories/Properties_CellVolume.v
theories/Properties_Checkpoint.v
theories/Properties_Cholesky.v
theories/Properties_CondRun.v
theories/Properties_Conditional.v
theories/Properties_Csv.v
theories/Properties_Daemon.v
theories/Properties_Daemon2.v
theories/Properties_EHVI.v
theories/Properties_Error.v
theories/Properties_Expect.v
theories/Properties_ExpectPos.v
theories/Properties_Fast2.v
theories/Properties_Features.v
theories/Properties_Flat.v
theories/Properties_Fmin.v
theories/Properties_Forest.v
theories/Properties_GP.v
theories/Properties_GP2.v
theories/Properties_GP3.v
theories/Properties_GP4.v
theories/Properties_GPSetup.v
theories/Properties_HV.v
theories/Properties_HV3.v
theories/Properties_HVagree.v
theories/Properties_HVmany.v
theories/Properties_Hessian.v
theories/Properties_Improve.v
theories/Properties_Kernel.v
theories/Properties_KernelGrad.v
theories/Properties_Lacour.v
theories/Properties_Likelihood.v
theories/Properties_LikelihoodCases.v
theories/Properties_Logger.v
theories/Properties_MIES.v
theories/Properties_MOBO.v
theories/Properties_Metropolis.v
theories/Properties_MiesPar.v
theories/Properties_MiesReach.v
theories/Properties_MoAcq.v
theories/Properties_MoRun.v
theories/Properties_MoSetup.v
theories/Properties_Node.v
theories/Properties_Noisy.v
theories/Properties_NoisyPlugin.v
theories/Properties_Opt.v
theories/Properties_PCA.v
theories/Properties_Pareto.v
theories/Properties_PcaLoop.v
theories/Properties_Penalized.v
theories/Properties_Penalty.v
theories/Properties_PredictVar.v
theories/Properties_PriorCov.v
theories/Properties_Propose.v
theories/Properties_Psd.v
theories/Properties_Region.v
theories/Properties_Rename.v
theories/Properties_Restricted.v
theories/Properties_Run.v
theories/Properties_Sampler.v
theories/Properties_Scale.v
theories/Properties_Search.v
theories/Properties_Seed.v
theories/Properties_Shared.v
theories/Properties_SkGP.v
theories/Properties_Sol.v
theories/Properties_SolMore.v
theories/Properties_Space.v
theories/Properties_SpaceDict.v
theories/Properties_SpaceInit.v
theories/Properties_SpaceItems.v
theories/Properties_SpaceJson.v
theories/Properties_SpaceOps.v
theories/Properties_Structure.v
theories/Properties_Threshold.v
theories/Properties_Var.v
theories/Spec_Aggregate.v
theories/Spec_Ask.v
theories/Spec_BatchBoxes.v
theories/Spec_Boxes.v
theories/Spec_CMA.v
theories/Spec_Cholesky.v
theories/Spec_CondRun.v
theories/Spec_Conditional.v
theories/Spec_Csv.v
theories/Spec_Decompose.v
theories/Spec_Error.v
theories/Spec_Expect.v
theories/Spec_Flat.v
theories/Spec_GP.v
theories/Spec_HV.v
theories/Spec_HVmany.v
theories/Spec_Hessian.v
theories/Spec_Improve.v
theories/Spec_Kernel.v
theories/Spec_Likelihood.v
theories/Spec_MIES.v
theories/Spec_MOBO.v
theories/Spec_Metropolis.v
theories/Spec_MiesPar.v
theories/Spec_MoRun.v
theories/Spec_Node.v
theories/Spec_Opt.v
theories/Spec_Pareto.v
theories/Spec_PcaLoop.v
theories/Spec_PredictVar.v
theories/Spec_Propose.v
theories/Spec_Psd.v
theories/Spec_Run.v
theories/Spec_Sampler.v
theories/Spec_Sol.v
theories/Spec_SpaceInit.v
theories/Spec_Structure.v

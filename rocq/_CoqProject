-Q theories Verif
theories/Model/AamRuns.v
theories/Model/Affine.v
theories/Model/ApsGraph.v
theories/Model/ApsResult.v
theories/Model/Base.v
theories/Model/CascadeError.v
theories/Model/Checks.v
theories/Model/ClmFitter.v
theories/Model/Convolution.v
theories/Model/CorrFilter.v
theories/Model/Densify.v
theories/Model/Dict.v
theories/Model/Dlib.v
theories/Model/Doubles.v
theories/Model/Einsum.v
theories/Model/Ensemble.v
theories/Model/ErrorR.v
theories/Model/Face.v
theories/Model/FilterImages.v
theories/Model/Fitter.v
theories/Model/Fourier.v
theories/Model/Gpa.v
theories/Model/History.v
theories/Model/InitialShape.v
theories/Model/Instances.v
theories/Model/Io.v
theories/Model/Jacobian.v
theories/Model/LinAlg.v
theories/Model/LinearResult.v
theories/Model/LkTemplate.v
theories/Model/MeanShift.v
theories/Model/ModelInstance.v
theories/Model/Noise.v
theories/Model/NoisyTarget.v
theories/Model/Options.v
theories/Model/PadCrop.v
theories/Model/Perturb.v
theories/Model/Plots.v
theories/Model/Preprocess.v
theories/Model/Pretrained.v
theories/Model/ProbMap.v
theories/Model/Py.v
theories/Model/PyIndex.v
theories/Model/PyInt.v
theories/Model/Rbf.v
theories/Model/Recon.v
theories/Model/Regression.v
theories/Model/Regressors.v
theories/Model/Residual.v
theories/Model/Result.v
theories/Model/RunLoop.v
theories/Model/Sampling.v
theories/Model/SdAam.v
theories/Model/SdFeatures.v
theories/Model/SdmAlgorithm.v
theories/Model/SdmOrtho.v
theories/Model/SdmTrain.v
theories/Model/SdmVectors.v
theories/Model/SimilarityModel.v
theories/Model/StatTable.v
theories/Model/Stats.v
theories/Model/Summary.v
theories/Model/Train.v
theories/Model/TrainHeap.v
theories/Model/TrainImages.v
theories/Model/Updates.v
theories/Model/ViewOptions.v
theories/Model/Warnings.v
theories/Model/Warp.v
theories/Proofs/AamRuns.v
theories/Proofs/AamRunsExample.v
theories/Proofs/Affine.v
theories/Proofs/ApsGraph.v
theories/Proofs/AsmCentre.v
theories/Proofs/Base.v
theories/Proofs/Batches.v
theories/Proofs/Budget.v
theories/Proofs/CascadeError.v
theories/Proofs/CascadeTrace.v
theories/Proofs/Checks.v
theories/Proofs/ClmFitter.v
theories/Proofs/ClmFitterExample.v
theories/Proofs/ClmPose.v
theories/Proofs/Closest.v
theories/Proofs/Convolution.v
theories/Proofs/CorrFilter.v
theories/Proofs/Densify.v
theories/Proofs/Dict.v
theories/Proofs/Dlib.v
theories/Proofs/Doubles.v
theories/Proofs/Ensemble.v
theories/Proofs/ErrorR.v
theories/Proofs/Explained.v
theories/Proofs/Face.v
theories/Proofs/Fitter.v
theories/Proofs/FitterDemo.v
theories/Proofs/Fourier.v
theories/Proofs/Gpa.v
theories/Proofs/History.v
theories/Proofs/InitialShape.v
theories/Proofs/Instances.v
theories/Proofs/Io.v
theories/Proofs/Jacobian.v
theories/Proofs/LeastSquares.v
theories/Proofs/LinAlg.v
theories/Proofs/LkTemplate.v
theories/Proofs/MRing.v
theories/Proofs/MeanShift.v
theories/Proofs/ModelExample.v
theories/Proofs/ModelInstance.v
theories/Proofs/Moves.v
theories/Proofs/MovesSdm.v
theories/Proofs/Noise.v
theories/Proofs/Options.v
theories/Proofs/PadCrop.v
theories/Proofs/PadCropAt.v
theories/Proofs/Perturb.v
theories/Proofs/ProbMap.v
theories/Proofs/Projection.v
theories/Proofs/PyIndex.v
theories/Proofs/PyInt.v
theories/Proofs/Rbf.v
theories/Proofs/Recon.v
theories/Proofs/RegOrder.v
theories/Proofs/Regression.v
theories/Proofs/Regressors.v
theories/Proofs/Regressors2.v
theories/Proofs/Renumber.v
theories/Proofs/RenumberErrors.v
theories/Proofs/RenumberReg.v
theories/Proofs/Residual.v
theories/Proofs/Result.v
theories/Proofs/Resume.v
theories/Proofs/ResumeClm.v
theories/Proofs/RunLoop.v
theories/Proofs/Sampling.v
theories/Proofs/SdAam.v
theories/Proofs/SdAamExt.v
theories/Proofs/SdmAlgorithm.v
theories/Proofs/SdmOffsets.v
theories/Proofs/SdmOrtho.v
theories/Proofs/SdmSimulation.v
theories/Proofs/SdmTrain.v
theories/Proofs/SimilarityModel.v
theories/Proofs/StatTable.v
theories/Proofs/Stats.v
theories/Proofs/Stays.v
theories/Proofs/Summary.v
theories/Proofs/Torus.v
theories/Proofs/Train.v
theories/Proofs/TrainCrash.v
theories/Proofs/TrainHeap.v
theories/Proofs/TrainImages.v
theories/Proofs/TrainOrder.v
theories/Proofs/TrainOrderR.v
theories/Proofs/Updates.v
theories/Proofs/Warp.v
theories/Props/AamRuns.v
theories/Props/ApsGraph.v
theories/Props/ApsResult.v
theories/Props/AsmCentre.v
theories/Props/Base.v
theories/Props/Budget.v
theories/Props/CascadeError.v
theories/Props/Checks.v
theories/Props/ClmFitter.v
theories/Props/Convolution.v
theories/Props/CorrFilter.v
theories/Props/Densify.v
theories/Props/Dlib.v
theories/Props/Doubles.v
theories/Props/Ensemble.v
theories/Props/ErrorR.v
theories/Props/ExpertTargets.v
theories/Props/Explained.v
theories/Props/Face.v
theories/Props/FilterImages.v
theories/Props/FitStays.v
theories/Props/Fitter.v
theories/Props/Fourier.v
theories/Props/Gpa.v
theories/Props/History.v
theories/Props/InitialShape.v
theories/Props/Instances.v
theories/Props/Io.v
theories/Props/Jacobian.v
theories/Props/LinAlg.v
theories/Props/LinearResult.v
theories/Props/LkTemplate.v
theories/Props/MeanShift.v
theories/Props/ModelInstance.v
theories/Props/Moves.v
theories/Props/Noise.v
theories/Props/NoisyTarget.v
theories/Props/Options.v
theories/Props/PadCrop.v
theories/Props/Perturb.v
theories/Props/Placement.v
theories/Props/Plots.v
theories/Props/Preprocess.v
theories/Props/Pretrained.v
theories/Props/ProbMap.v
theories/Props/PyInt.v
theories/Props/Rbf.v
theories/Props/Recon.v
theories/Props/RegOrder.v
theories/Props/Regression.v
theories/Props/Regressors.v
theories/Props/Renumber.v
theories/Props/Residual.v
theories/Props/Resolution.v
theories/Props/ResolutionReference.v
theories/Props/Result.v
theories/Props/Resume.v
theories/Props/RunLoop.v
theories/Props/Sampling.v
theories/Props/SdAam.v
theories/Props/SdAamOrtho.v
theories/Props/SdmAlgorithm.v
theories/Props/SdmOrtho.v
theories/Props/SdmTrain.v
theories/Props/SimilarityModel.v
theories/Props/StatTable.v
theories/Props/Stats.v
theories/Props/Stays.v
theories/Props/Summary.v
theories/Props/Train.v
theories/Props/TrainCrash.v
theories/Props/TrainHeap.v
theories/Props/TrainImages.v
theories/Props/TrainOrder.v
theories/Props/Updates.v
theories/Props/ViewOptions.v
theories/Props/Warnings.v
theories/Props/Warp.v
theories/Props/WarpTrained.v
theories/Spec/AamRuns.v
theories/Spec/ApsGraph.v
theories/Spec/Base.v
theories/Spec/Budget.v
theories/Spec/CascadeError.v
theories/Spec/Checks.v
theories/Spec/ClmFitter.v
theories/Spec/Convolution.v
theories/Spec/CorrFilter.v
theories/Spec/Densify.v
theories/Spec/Dlib.v
theories/Spec/Doubles.v
theories/Spec/Ensemble.v
theories/Spec/ErrorR.v
theories/Spec/Explained.v
theories/Spec/Face.v
theories/Spec/Fitter.v
theories/Spec/Gpa.v
theories/Spec/History.v
theories/Spec/InitialShape.v
theories/Spec/Instances.v
theories/Spec/Io.v
theories/Spec/Jacobian.v
theories/Spec/LinAlg.v
theories/Spec/LkTemplate.v
theories/Spec/MeanShift.v
theories/Spec/ModelInstance.v
theories/Spec/Moves.v
theories/Spec/Noise.v
theories/Spec/Options.v
theories/Spec/PadCrop.v
theories/Spec/Perturb.v
theories/Spec/Placement.v
theories/Spec/Plots.v
theories/Spec/Pose.v
theories/Spec/Preprocess.v
theories/Spec/ProbMap.v
theories/Spec/PyIndex.v
theories/Spec/PyInt.v
theories/Spec/Rbf.v
theories/Spec/Recon.v
theories/Spec/Regression.v
theories/Spec/Regressors.v
theories/Spec/Renumber.v
theories/Spec/Residual.v
theories/Spec/Resolution.v
theories/Spec/Result.v
theories/Spec/Resume.v
theories/Spec/RunLoop.v
theories/Spec/Sampling.v
theories/Spec/SdAam.v
theories/Spec/SdmAlgorithm.v
theories/Spec/SdmTrain.v
theories/Spec/StatTable.v
theories/Spec/Stats.v
theories/Spec/Stays.v
theories/Spec/Summary.v
theories/Spec/Train.v
theories/Spec/TrainCrash.v
theories/Spec/TrainHeap.v
theories/Spec/TrainImages.v
theories/Spec/TrainOrder.v
theories/Spec/Updates.v
theories/Spec/ViewOptions.v
theories/Spec/Warnings.v
theories/Spec/Warp.v

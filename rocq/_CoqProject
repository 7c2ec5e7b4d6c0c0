-Q theories Verif
theories/Model/Array.v
theories/Model/BaseKernels.v
theories/Model/Dense.v
theories/Model/Frontend.v
theories/Model/Gp.v
theories/Model/Helpers.v
theories/Model/Integrated.v
theories/Model/IntegratedKernels.v
theories/Model/Jax.v
theories/Model/Kernel.v
theories/Model/Parallel.v
theories/Model/Sequential.v
theories/Model/SequentialOps.v
theories/Model/Spectrum.v
theories/Model/Ssm.v
theories/Prelude/MxCalc.v
theories/Prelude/Psd.v
theories/Prelude/Rstruct.v
theories/Prelude/Tens.v
theories/Prelude/Zmod.v
theories/Proofs/AssocScan.v
theories/Proofs/Border.v
theories/Proofs/Chain.v
theories/Proofs/ComponentThms.v
theories/Proofs/Components.v
theories/Proofs/DenseMore.v
theories/Proofs/DenseRefuted.v
theories/Proofs/DenseSho.v
theories/Proofs/DenseThms.v
theories/Proofs/Evaluate.v
theories/Proofs/Expm.v
theories/Proofs/FilterElem.v
theories/Proofs/Fit.v
theories/Proofs/FitAny.v
theories/Proofs/FitExample.v
theories/Proofs/FitInt.v
theories/Proofs/FitIntCond.v
theories/Proofs/FitIntPred.v
theories/Proofs/FitLin.v
theories/Proofs/FitMix.v
theories/Proofs/FitMore.v
theories/Proofs/FitRefute.v
theories/Proofs/FitThms.v
theories/Proofs/FrontDefined.v
theories/Proofs/FrontProps.v
theories/Proofs/FrontThms.v
theories/Proofs/Gauss.v
theories/Proofs/GpExt.v
theories/Proofs/GramPsd.v
theories/Proofs/IntBook.v
theories/Proofs/IntCondExample.v
theories/Proofs/IntCondThms.v
theories/Proofs/IntExact.v
theories/Proofs/IntExample.v
theories/Proofs/IntFlow.v
theories/Proofs/IntGram.v
theories/Proofs/IntLast.v
theories/Proofs/IntLastRefute.v
theories/Proofs/IntLeaf.v
theories/Proofs/IntNarrow.v
theories/Proofs/IntNarrowThms.v
theories/Proofs/IntOrder.v
theories/Proofs/IntPd.v
theories/Proofs/IntPredThms.v
theories/Proofs/IntPredict.v
theories/Proofs/IntSho.v
theories/Proofs/IntStar.v
theories/Proofs/IntThms.v
theories/Proofs/IntUnits.v
theories/Proofs/IntUnitsExample.v
theories/Proofs/IntVar.v
theories/Proofs/IntVarExample.v
theories/Proofs/IntWide.v
theories/Proofs/IntegratedThms.v
theories/Proofs/Joint.v
theories/Proofs/KalmanPd.v
theories/Proofs/KernelLti.v
theories/Proofs/KernelProps.v
theories/Proofs/KernelThms.v
theories/Proofs/LagInt.v
theories/Proofs/LeafLti.v
theories/Proofs/Leaves.v
theories/Proofs/Lti.v
theories/Proofs/MarkovChain.v
theories/Proofs/MaternLti.v
theories/Proofs/MeanPsd.v
theories/Proofs/MixCov.v
theories/Proofs/MixThms.v
theories/Proofs/MxInt.v
theories/Proofs/NameThms.v
theories/Proofs/Names.v
theories/Proofs/OverlapRefute.v
theories/Proofs/ParExact.v
theories/Proofs/ParFront.v
theories/Proofs/ParInt.v
theories/Proofs/ParIntFront.v
theories/Proofs/ParIntRefute.v
theories/Proofs/ParSchedule.v
theories/Proofs/ParStep.v
theories/Proofs/Periodic.v
theories/Proofs/PeriodicThms.v
theories/Proofs/Rename.v
theories/Proofs/ScanLemmas.v
theories/Proofs/SeqExact.v
theories/Proofs/SeqGp.v
theories/Proofs/SeqIdeal.v
theories/Proofs/SeqLinear.v
theories/Proofs/SeqMore.v
theories/Proofs/ShoLti.v
theories/Proofs/Spectrum.v
theories/Proofs/SpectrumFinal.v
theories/Proofs/SpectrumFourier.v
theories/Proofs/SpectrumKernel.v
theories/Proofs/SpectrumMore.v
theories/Proofs/SpectrumThms.v
theories/Proofs/StateCov.v
theories/Proofs/TransferExample.v
theories/Proofs/TransferThms.v
theories/Proofs/TransferUnits.v
theories/Proofs/UniqueNames.v
theories/Proofs/UnitsRefute.v
theories/Proofs/VanLoan.v
theories/Proofs/VanLoanThms.v
theories/Proofs/WindowCov.v
theories/Proofs/WindowKernel.v
theories/Props/C01.v
theories/Props/C02.v
theories/Props/C03.v
theories/Props/C04.v
theories/Props/C05.v
theories/Props/C06.v
theories/Props/C07.v
theories/Props/C08.v
theories/Props/C09.v
theories/Props/C10.v
theories/Props/C11.v
theories/Props/C12.v
theories/Props/C13.v
theories/Props/C14.v
theories/Props/C15.v
theories/Props/C16.v
theories/Props/C17.v
theories/Props/C18.v
theories/Props/C19.v
theories/Props/C20.v
theories/Props/C21.v
theories/Props/C22.v
theories/Props/C23.v
theories/Props/C24.v
theories/Props/C25.v
theories/Props/C26.v
theories/Props/C27.v
theories/Props/C28.v
theories/Props/C29.v
theories/Props/C30.v
theories/Props/C31.v
theories/Props/C32.v
theories/Props/C33.v
theories/Props/C34.v
theories/Props/C35.v
theories/Props/C36.v
theories/Props/C37.v
theories/Props/C38.v
theories/Props/C39.v
theories/Props/C40.v
theories/Props/C41.v
theories/Props/C42.v
theories/Props/C43.v
theories/Props/C44.v
theories/Props/C45.v
theories/Props/C46.v
theories/Props/C47.v
theories/Props/C48.v
theories/Props/C49.v
theories/Props/C50.v
theories/Props/C51.v
theories/Props/C52.v
theories/Props/C53.v
theories/Props/C54.v
theories/Props/C55.v
theories/Spec/Components.v
theories/Spec/Cov.v
theories/Spec/CovOf.v
theories/Spec/Data.v
theories/Spec/DenseCov.v
theories/Spec/Expm.v
theories/Spec/Exposures.v
theories/Spec/FirstOpen.v
theories/Spec/Gp.v
theories/Spec/IntCov.v
theories/Spec/IntTransform.v
theories/Spec/Integral.v
theories/Spec/JointProcess.v
theories/Spec/LogNormal.v
theories/Spec/Lti.v
theories/Spec/Markov.v
theories/Spec/Mixed.v
theories/Spec/Schedule.v
theories/Spec/Smoothable.v
theories/Spec/Spectra.v
theories/Spec/TestTimes.v
theories/Spec/Transform.v
theories/Spec/WfIntegrated.v
theories/Spec/WfKernel.v

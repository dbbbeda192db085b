-Q theories Verif

theories/Tensor.v
theories/Py.v
theories/Voigt.v
theories/VoigtProofs.v
theories/Algebra.v
theories/Calc.v
theories/Models.v
theories/Frameworks.v
theories/Spaces.v
theories/Spec.v
theories/EighProofs.v
theories/EigCore.v
theories/Spectral.v
theories/ContR.v
theories/EigPath.v
theories/StrCore.v
theories/StrProofs.v
theories/StrHess.v
theories/StrIso.v
theories/StrLimit.v
theories/StrMore.v
theories/StrError.v
theories/VCalc.v
theories/ModelProofs.v
theories/GenProofs.v
theories/InvCore.v
theories/InvProofs.v
theories/SpaceCore.v
theories/HistProofs.v
theories/PropMath.v
theories/IsoProofs.v
theories/PiolaProofs.v
theories/SpaceProofs.v
theories/DistProofs.v
theories/SpaceMore.v
theories/SpecialProofs.v
theories/Counter.v
theories/Dilatational.v
theories/ScaleProofs.v
theories/PropModels.v
theories/PropInvariants.v
theories/PropSpaces.v
theories/StrRoutes.v
theories/PropStretches.v
theories/Lab.v
theories/LabSpec.v
theories/LabMech.v
theories/LabOpt.v
theories/LabFit.v
theories/LabCurves.v
theories/PropLab.v
theories/NDCore.v
theories/NDRel.v
theories/NDOps.v
theories/NDHeap.v
theories/NDVoigt.v
theories/NDMath.v
theories/NDMath2.v
theories/NDMath3.v
theories/NDSpaces.v
theories/NDSpaceProofs.v
theories/NDSpaceMain.v
theories/NDFrameworks.v
theories/NDInvProofs.v
theories/NDModels.v
theories/NDEigh.v
theories/NDViews.v
theories/NDStrProofs.v
theories/NDGenProofs.v
theories/NDSpec.v
theories/NDTril.v
theories/NDLinks.v
theories/NDLinks2.v
theories/NDRaise.v
theories/NDAxes.v
theories/NDCounter.v
theories/PropND.v
theories/NDFrame.v
theories/PropFrame.v
theories/Torch.v
theories/TorchProofs.v
theories/TorchSweep.v
theories/TorchMain.v
theories/TorchHess.v
theories/PropTorch.v
theories/Threads.v
theories/NDParallel.v
theories/NDParallel2.v
theories/NDParSpaces.v
theories/PropParallel.v
theories/LabPlot.v
theories/LabPlotProofs.v
theories/PropPlot.v
theories/WorkSpec.v
theories/WorkProofs.v
theories/WorkLab.v
theories/PropWork.v
theories/NDLab.v
theories/NDLabProofs.v
theories/PropNDLab.v
theories/Rounded.v
theories/RoundedProofs.v
theories/RoundedStable.v
theories/RoundedCode.v
theories/RoundedSpec.v
theories/RoundedMath.v
theories/RoundedMore.v
theories/PropRounded.v
theories/RoundedSpaces.v
theories/RoundedSpacesProofs.v
theories/PropStable.v
theories/RoundedZero.v
theories/PropExact.v
theories/SymSpec.v
theories/SymAlg.v
theories/SymProofs.v
theories/SymCounter.v
theories/PropSym.v
theories/CurveSpec.v
theories/CurveProofs.v
theories/CurveOgden.v
theories/PropCurves.v
theories/LsqSpec.v
theories/LsqProofs.v
theories/PropLsq.v
theories/PrinSpec.v
theories/PrinProofs.v
theories/PropPrincipal.v
theories/SlopeSpec.v
theories/PropSlopes.v
theories/LinProofs.v
theories/PropLinear.v
theories/OutSpec.v
theories/NDOut.v
theories/PropOut.v
theories/Typed.v
theories/TypedSpec.v
theories/TypedProofs.v
theories/TypedSpaces.v
theories/TypedModels.v
theories/PropTyped.v
theories/EllSpec.v
theories/EllProofs.v
theories/PropElliptic.v
theories/PropTangent.v
theories/PropZip.v
theories/PropEnd.v
theories/PropAxes.v
theories/PropDocs.v
theories/EigNear.v
theories/RoundedLeaf.v
theories/RoundedStretch.v
theories/RoundedStretchProofs.v
theories/PropFloatStr.v
theories/RoundedGen.v
theories/PropFloatGen.v
theories/IEEE.v
theories/IEEEProofs.v
theories/IEEESpaces.v
theories/IEEEFloat.v
theories/IEEELeaf.v
theories/PropIEEE.v
theories/NDCall.v
theories/PropCall.v
theories/IEEEStretch.v
theories/IEEEStrProofs.v
theories/PropIEEEStr.v
theories/Shared.v
theories/SharedProofs.v
theories/SharedCore.v
theories/PropShared.v
theories/FitSpec.v
theories/FitProofs.v
theories/PropFit.v
theories/PropShear.v
theories/SumProofs.v
theories/PropSum.v
theories/PropFitGen.v
theories/NewtonSpec.v
theories/NewtonLin.v
theories/NewtonProofs.v
theories/NewtonCalm.v
theories/NewtonInv.v
theories/NewtonStr.v
theories/PropNewton.v
theories/PotentialSpec.v
theories/PotentialProofs.v
theories/PropPotential.v
theories/LoadSpec.v
theories/LoadProofs.v
theories/PropLoad.v
theories/RigidSpec.v
theories/RigidProofs.v
theories/PropRigid.v
theories/InexactSpec.v
theories/InexactProofs.v
theories/FloatNewtonSpec.v
theories/FloatNewtonProofs.v
theories/FloatRuns.v
theories/PropInexact.v
theories/NDFields.v
theories/PropFields.v
theories/NDFieldRaise.v
theories/NDFieldShapes.v

-Q theories Verif
theories/Py.v
theories/RSum.v
theories/Tensor.v
theories/TensorFacts.v
theories/KernelModel.v
theories/SpecKernel.v
theories/KernelFacts.v
theories/SpecLinAlg.v
theories/LinAlg.v
theories/GaussPSD.v
theories/GaussHermite.v
theories/FieldModel.v
theories/SpecField.v
theories/FieldFacts.v
theories/FieldLinear.v
theories/PropKernel.v
theories/PropField.v
theories/ManifoldModel.v
theories/SpecManifold.v
theories/ManifoldFacts.v
theories/ManifoldState.v
theories/PropManifoldAux.v
theories/PropManifold.v
theories/Fl.v
theories/OptimModel.v
theories/SpecOptim.v
theories/OptimFacts.v
theories/OptimFacts2.v
theories/SpecShared.v
theories/SharedFacts.v
theories/PropOptimAux.v
theories/PropOptim.v
theories/GeometryModel.v
theories/SpecGeometry.v
theories/GeometryFacts.v
theories/PropGeometry.v
theories/SpecSKS.v
theories/SKSFacts.v
theories/PropSKS.v
theories/ModuleModel.v
theories/SpecModule.v
theories/ModuleDual.v
theories/ModuleAlg.v
theories/ModuleLeaves.v
theories/ModuleImplicit.v
theories/ModuleMain.v
theories/ModuleRegular.v
theories/ModuleStrain.v
theories/SpecHistory.v
theories/ModuleHistory.v
theories/ModuleLoops.v
theories/ModuleBackend.v
theories/ModuleStale.v
theories/SolverExists.v
theories/PropModule.v
theories/ShootingModel.v
theories/SpecShooting.v
theories/ShootingPack.v
theories/ShootingDyn.v
theories/ShootingRun.v
theories/ShootingScheme.v
theories/ShootingMain.v
theories/ShootingInst.v
theories/ShootingFinal.v
theories/ShootingEuler.v
theories/FloatClock.v
theories/ShootingSchedule.v
theories/ShootingTotal.v
theories/ShootingExample.v
theories/PropShooting.v
theories/RegistrationModel.v
theories/SpecRegistration.v
theories/RegistrationRun.v
theories/RegistrationHeap.v
theories/RegistrationParams.v
theories/RegistrationLife.v
theories/RegistrationAtlas.v
theories/RegistrationShoot.v
theories/PropRegistration.v
theories/AtlasModel.v
theories/SpecAtlas.v
theories/AtlasFacts.v
theories/PropAtlas.v
theories/MeshModel.v
theories/AttachmentModel.v
theories/SpecAttachment.v
theories/VarifoldFacts.v
theories/VarifoldZero.v
theories/AttachmentFacts.v
theories/VarifoldMoves.v
theories/PropAttachment.v
theories/SpecMesh.v
theories/MeshFacts.v
theories/WindingAngle.v
theories/MeshAreas.v
theories/PropMesh.v
theories/UtilModel.v
theories/AabbModel.v
theories/AabbRead.v
theories/SpecBox.v
theories/SpecUtil.v
theories/AabbFacts.v
theories/PropBox.v
theories/PropBoxRead.v
theories/PropUtil.v
theories/ImageModel.v
theories/SpecImage.v
theories/ImageFacts.v
theories/PropImage.v
theories/MeshgenModel.v
theories/SpecMeshgen.v
theories/PropMeshgen.v
theories/FileModel.v
theories/PropFile.v
theories/SpecMotion.v
theories/MotionFacts.v
theories/MotionShoot.v
theories/MotionExample.v
theories/PropMotion.v
theories/MotionMomentum.v
theories/PropMomentum.v
theories/MiscModel.v
theories/PropMisc.v
theories/SpecTransport.v
theories/TransportFacts.v
theories/PropTransport.v
theories/LipschitzFacts.v
theories/FlowFacts.v
theories/PropFlow.v
theories/SpecRigid.v
theories/RigidField.v
theories/RigidBlock.v
theories/RigidModule.v
theories/RigidControl.v
theories/RigidRegular.v
theories/RigidShoot.v
theories/PropRigid.v
theories/ModulePosed.v
theories/DiffFacts.v
theories/DiffField.v
theories/DiffLeaf.v
theories/DiffModule.v
theories/SpecSmooth.v
theories/DiffBuild.v
theories/SmoothRun.v
theories/PropSmooth.v
theories/SpecReduce.v
theories/ReduceFacts.v
theories/PropReduce.v
theories/SpecEnergy.v
theories/EnergyFacts.v
theories/NoetherFacts.v
theories/PropEnergy.v
theories/SpecOrder.v
theories/OrderFacts.v
theories/OrderShoot.v
theories/PropOrder.v
theories/FourierModel.v
theories/FourierFacts.v
theories/PropFourier.v
theories/SpecConverge.v
theories/ConvergeFacts.v
theories/PropConverge.v
theories/SpecStorage.v
theories/StorageFacts.v
theories/PropStorage.v
theories/HeapModel.v
theories/SpecHeap.v
theories/HeapFacts.v
theories/PropHeap.v
theories/SpecReverse.v
theories/ReverseFacts.v
theories/ReverseShoot.v
theories/PropReverse.v
theories/PropFilled.v
theories/PropSuperpose.v
theories/SpecScale.v
theories/ScaleFlow.v
theories/ScaleFacts.v
theories/PropScale.v
theories/FitModel.v
theories/SpecFit.v
theories/FitFacts.v
theories/PropFit.v
theories/SpecElsewhere.v
theories/ElsewhereFacts.v
theories/PropElsewhere.v
theories/SpecUnits.v
theories/UnitsField.v
theories/UnitsModule.v
theories/UnitsControl.v
theories/UnitsShoot.v
theories/PropUnits.v
theories/SpecSimilar.v
theories/SimilarFacts.v
theories/SimilarLocal.v
theories/PropSimilar.v
theories/SpecUnitsReg.v
theories/UnitsReg.v
theories/PropUnitsReg.v
theories/PropSide.v
theories/SpecFitElsewhere.v
theories/FitElsewhere.v
theories/PropFitElsewhere.v
theories/SpecPassenger.v
theories/PassengerFacts.v
theories/PropPassenger.v
theories/SpecLocal.v
theories/PropLocal.v
theories/SpecFitUnits.v
theories/FitUnits.v
theories/PropFitUnits.v
theories/SpecRescale.v
theories/RescaleFacts.v
theories/PropRescale.v
theories/SpecAtlasElsewhere.v
theories/PropAtlasElsewhere.v
theories/PropSubjects.v
theories/SpecJoint.v
theories/JointFacts.v
theories/PropJoint.v
theories/SpecShuffle.v
theories/PropShuffle.v
theories/SpecReorder.v
theories/ReorderFacts.v
theories/SpecReorderReg.v
theories/ReorderReg.v
theories/ReorderExample.v
theories/PropReorder.v
theories/SpecCoeff.v
theories/CoeffFacts.v
theories/PropCoeff.v
theories/PropCoeffReg.v
theories/PropCoeffAtlas.v
theories/SpecCoeffFit.v
theories/PropCoeffFit.v
theories/PropCoeffOptim.v
theories/PropPrevious.v
theories/SpecRest.v
theories/PropRest.v
theories/PropRestSelf.v
theories/PropRestAtlas.v

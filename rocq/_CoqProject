-Q theories Verif
theories/SpecIndex.v
theories/ModelIndex.v
theories/ProofsIndex.v
theories/PropertiesIndex.v
theories/SpecRun.v
theories/ModelRun.v
theories/ProofsRun.v
theories/PropertiesRun.v
theories/ModelBarrier.v
theories/ProofsBarrier.v
theories/PropertiesBarrier.v
theories/ModelPanic.v
theories/SpecPanic.v
theories/ProofsPanic.v
theories/PropertiesPanic.v
theories/Lang.v
theories/ProofsLang.v
theories/Stencil.v
theories/ProofsStencil.v
theories/FormCommon.v
theories/Form1D.v
theories/Solver1D.v
theories/Macro.v
theories/ProofsMacro.v
theories/Foot1D.v
theories/Proofs1D.v
theories/SpecThreads.v
theories/ProofsThread1D.v
theories/Arith.v
theories/PropertiesThread1D.v
theories/SpecFields.v
theories/SpecBounds.v
theories/Exec.v
theories/ProofsExec.v
theories/ProofsValid.v
theories/ProofsValid1D.v
theories/ProofsExch1D.v
theories/ProofsRef1D.v
theories/Lattice.v
theories/ProofsLattice.v
theories/ProofsLattice1D.v
theories/ProofsCyclic1D.v
theories/ProofsBounds1D.v
theories/ProofsStale1D.v
theories/PropertiesSolver1D.v
theories/Fun1D.v
theories/ProofsFun1D.v
theories/ProofsFold1D.v
theories/ProofsPer1D.v
theories/ProofsDom1D.v
theories/SpecReal.v
theories/SpecNum.v
theories/ProofsReal1D.v
theories/ProofsAnti1D.v
theories/ProofsCons1D.v
theories/ProofsNum1D.v
theories/ProofsSign1D.v
theories/ProofsSym1D.v
theories/ProofsScale1D.v
theories/ProofsResults1D.v
theories/SpecMpdata.v
theories/ProofsTextbook1D.v
theories/ProofsRefute1D.v
theories/ProofsExamples1D.v
theories/PropertiesNum1D.v
theories/ModelReduce.v
theories/SpecReduce.v
theories/ProofsReduce.v
theories/PropertiesReduce.v
theories/ModelVarDt.v
theories/SpecVarDt.v
theories/ProofsVarDt.v
theories/PropertiesVarDt.v
theories/ModelRhs.v
theories/SpecRhs.v
theories/ProofsRhs.v
theories/PropertiesRhs.v
theories/ModelVip.v
theories/SpecVip.v
theories/ProofsVip.v
theories/PropertiesVip.v
theories/ModelOutput.v
theories/SpecOutput.v
theories/ProofsOutput.v
theories/ProofsVarOut.v
theories/PropertiesOutput.v
theories/ModelPrs.v
theories/SpecPrs.v
theories/ProofsPrs.v
theories/ProofsPrsEx.v
theories/PropertiesPrs.v
theories/ModelBcond.v
theories/SpecBcond.v
theories/ProofsBcond.v
theories/ProofsRemote.v
theories/ProofsBcondEx.v
theories/PropertiesBcond.v
theories/Form2D.v
theories/Solver2D.v
theories/ProofsFill.v
theories/Foot2D.v
theories/Proofs2D.v
theories/ProofsThread2D.v
theories/ProofsSched.v
theories/SpecFields2.v
theories/ProofsRefute2D.v
theories/PropertiesThread2D.v
theories/Boxes.v
theories/ProofsBoxes.v
theories/ProofsValid2D.v
theories/ProofsExch2D.v
theories/ProofsRef2D.v
theories/ProofsOne2D.v
theories/ProofsCyclic2D.v
theories/ProofsStale2D.v
theories/PropertiesCyclic2D.v
theories/FunN.v
theories/ProofsFunN.v
theories/ProofsRen2D.v
theories/ProofsNat2D.v
theories/ProofsFun2D.v
theories/ProofsNumN.v
theories/ProofsPerN.v
theories/ProofsReal2D.v
theories/ProofsAnti2D.v
theories/SpecNum2.v
theories/SpecRun2.v
theories/ProofsNum2D.v
theories/ProofsUnit2D.v
theories/ProofsResults2D.v
theories/ProofsExamples2D.v
theories/ProofsWitness2D.v
theories/PropertiesNum2D.v
theories/SpecMpdata2.v
theories/ProofsTextbook2D.v
theories/SpecSym2.v
theories/ProofsMirror2D.v
theories/ProofsSymN.v
theories/ProofsSymRun2D.v
theories/ProofsLinN.v
theories/ProofsLin2D.v
theories/ProofsSlice2D.v
theories/ProofsExamplesSym2D.v
theories/PropertiesSym2D.v
theories/Form3D.v
theories/Solver3D.v
theories/ProofsRen3D.v
theories/Foot3D.v
theories/Boxes3.v
theories/ProofsBoxes3.v
theories/Proofs3D.v
theories/ProofsValid3D.v
theories/ProofsGeom3D.v
theories/ProofsExch3D.v
theories/ProofsRef3D.v
theories/ProofsOne3D.v
theories/ProofsDirty.v
theories/ProofsFill3D.v
theories/ProofsThread3D.v
theories/SpecFields3.v
theories/ProofsCyclic3D.v
theories/ProofsSchedH.v
theories/ProofsRefute3D.v
theories/PropertiesCyclic3D.v
theories/ProofsNat3D.v
theories/ProofsFun3D.v
theories/ProofsReal3D.v
theories/ProofsAnti3D.v
theories/ProofsNum3D.v
theories/ProofsUnit3D.v
theories/SpecNum3.v
theories/SpecRun3.v
theories/ProofsResults3D.v
theories/ProofsExamples3D.v
theories/ProofsWitness3D.v
theories/PropertiesNum3D.v
theories/SpecSym3.v
theories/ProofsMirror3D.v
theories/ProofsSymRun3D.v
theories/ProofsLin3D.v
theories/SpecMpdata3.v
theories/ProofsTextbook3D.v
theories/ProofsSlice3D.v
theories/ProofsExamplesSym3D.v
theories/PropertiesSym3D.v
theories/ModelStress.v
theories/SpecStress.v
theories/ProofsStress.v
theories/ProofsStress2.v
theories/ProofsStress3.v
theories/ProofsStress4.v
theories/ProofsStress5.v
theories/ProofsStress6.v
theories/PropertiesStress.v
theories/ModelBouss.v
theories/SpecBouss.v
theories/ProofsBouss.v
theories/ProofsBouss2.v
theories/ProofsBouss3.v
theories/ProofsBouss4.v
theories/ModelHeat.v
theories/SpecHeat.v
theories/ProofsHeat.v
theories/PropertiesBouss.v
theories/ProofsRace.v
theories/ProofsRace3.v
theories/PropertiesRace.v
theories/ModelShallow.v
theories/SpecShallow.v
theories/ProofsShallow.v
theories/ProofsShallow2.v
theories/ProofsShallow3.v
theories/ProofsShallow4.v
theories/PropertiesShallow.v
theories/SpecWalls2.v
theories/ProofsWalls2D.v
theories/ProofsWallsWit.v
theories/PropertiesWalls.v
theories/SpecStress2.v
theories/ProofsStress7.v
theories/PropertiesStress2.v
theories/ProofsShallow5.v
theories/PropertiesShallow2.v
theories/SpecWalls3.v
theories/ProofsWallsUp.v
theories/ProofsWallsUpWit.v
theories/PropertiesWalls2.v
theories/SpecOpen2.v
theories/ProofsOpen2D.v
theories/ProofsOpenUp.v
theories/ProofsOpenWit.v
theories/PropertiesOpen2.v
theories/ModelHdf5.v
theories/SpecHdf5.v
theories/ProofsHdf5.v
theories/ProofsHdf5b.v
theories/ModelXdmf.v
theories/SpecXdmf.v
theories/ProofsXdmf.v
theories/PropertiesHdf5.v
theories/ModelParams.v
theories/SpecParams.v
theories/ProofsParams.v
theories/PropertiesParams.v
theories/SpecChannel2.v
theories/ProofsValidC2D.v
theories/ProofsRefC2D.v
theories/ProofsExchC2D.v
theories/ProofsChannel2D.v
theories/ProofsChannelRun.v
theories/ProofsChannelEx.v
theories/PropertiesChannel.v
theories/ProofsValidI2D.v
theories/ProofsRefI2D.v
theories/ProofsImgPt.v
theories/ProofsImages2D.v
theories/SpecImages2.v
theories/ProofsImagesRun.v
theories/ProofsImagesNum.v
theories/ProofsImagesWit.v
theories/ProofsImagesEx.v
theories/PropertiesImages.v
theories/ProofsImgPtX.v
theories/ProofsValidB2D.v
theories/ProofsExchB2D.v
theories/ProofsKeepB2D.v
theories/ProofsRefB2D.v
theories/SpecImagesBox.v
theories/ProofsBoxRun.v
theories/ProofsBoxNum.v
theories/ProofsBoxEx.v
theories/PropertiesBox.v
theories/ProofsBoxSym.v
theories/ProofsBoxTr.v
theories/ProofsBoxSymEx.v
theories/PropertiesBoxSym.v
theories/ProofsWallsLin.v
theories/ProofsWallsLinEx.v
theories/PropertiesWallsLin.v
theories/SpecMirrored.v
theories/ProofsMirrored.v
theories/PropertiesMirrored.v
theories/ModelGround.v
theories/SpecGround.v
theories/ProofsGround.v
theories/ProofsGround2.v
theories/ProofsGround3.v
theories/ProofsGround4.v
theories/ProofsGround5.v
theories/ProofsGround6.v
theories/ProofsGround7.v
theories/ProofsGround8.v
theories/ProofsGround9.v
theories/PropertiesGround.v
theories/ProofsWarm.v
theories/ProofsWarm2.v
theories/PropertiesWarm.v

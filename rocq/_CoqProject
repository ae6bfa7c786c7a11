-Q theories Verif
theories/Arith.v
theories/Arrays.v
theories/Prog.v
theories/Conc.v
theories/Mesh.v
theories/AuxVars.v
theories/Tend.v
theories/Model.v
theories/Hex.v
theories/Launch.v
theories/MeshProof.v
theories/MeshMem.v
theories/HexComb.v
theories/MeshFacts.v
theories/RSum.v
theories/Spec.v
theories/MeshR.v
theories/MeshCalc.v
theories/MeshThms.v
theories/PropsMesh.v
theories/Over.v
theories/Formulas.v
theories/KernBase.v
theories/Terms.v
theories/KernAux.v
theories/KernTend.v
theories/TendFn.v
theories/StepFn.v
theories/Ready.v
theories/Rel.v
theories/RelRun.v
theories/Relate.v
theories/TendVal.v
theories/RunThms.v
theories/PropsRun.v
theories/StepVal.v
theories/StepRun.v
theories/Tableau.v
theories/StepTake.v
theories/StepThms.v
theories/PropsStep.v
theories/SumParts.v
theories/RealOps.v
theories/RealTend.v
theories/Diag.v
theories/FieldInv.v
theories/ConsBase.v
theories/ConsThms.v
theories/PropsCons.v
theories/SteadyThms.v
theories/PropsSteady.v
theories/SimdThms.v
theories/PropsSimd.v
theories/TrSwap.v
theories/TracerThms.v
theories/PropsTracer.v
theories/Trap.v
theories/TrapThms.v
theories/PropsTrap.v
theories/Forced.v
theories/ForcedThms.v
theories/PropsForced.v
theories/Doomed.v
theories/FlagsThms.v
theories/PropsFlags.v
theories/CeilThms.v
theories/PropsCeil.v
theories/Driver.v
theories/DriverFn.v
theories/DriverThms.v
theories/PropsDriver.v
theories/TestFns.v
theories/Deriv.v
theories/TestThms.v
theories/PropsTests.v
theories/EqThms.v
theories/PropsEq.v
theories/Stencil.v
theories/Taylor.v
theories/Accur.v
theories/Accur2.v
theories/Accur3.v
theories/Accur4.v
theories/Sample.v
theories/Waves.v
theories/ConsistThms.v
theories/PropsConsist.v
theories/Equiv.v
theories/Equiv2.v
theories/Equiv3.v
theories/Shift.v
theories/EquivThms.v
theories/ShiftThms.v
theories/PropsShift.v
theories/Hyper.v
theories/HyperThms.v
theories/PropsHyper.v
theories/Vort.v
theories/VortThms.v
theories/PropsVort.v
theories/SuperThms.v
theories/PropsSuper.v
theories/Diffuse.v
theories/DiffuseThms.v
theories/PropsDiffuse.v
theories/Modes.v
theories/DecayNum.v
theories/DecayNum2.v
theories/DecayNum3.v
theories/WaveRun.v
theories/WaveStab.v
theories/TestRun.v
theories/TestRunFn.v
theories/WaveThms.v
theories/PropsWaves.v
theories/Frozen.v
theories/Transport.v
theories/Cplx.v
theories/AdvWaves.v
theories/AdvRun.v
theories/AdvNum.v
theories/AdvThms.v
theories/PropsAdv.v
theories/OpTest.v
theories/OpTestFn.v
theories/OpNum.v
theories/OpNum2.v
theories/OpRun.v
theories/OpErr.v
theories/OpThms.v
theories/PropsOp.v
theories/LinStep.v
theories/LinSpec.v
theories/Tangent.v
theories/LinRun.v
theories/LinNorm.v
theories/LinEnergy.v
theories/LinModes.v
theories/LinWave.v
theories/LinThms.v
theories/PropsLin.v
theories/ViscThms.v
theories/PropsVisc.v
theories/FloatFacts.v
theories/FloatMass.v
theories/FloatRun.v
theories/FloatRest.v
theories/FloatAlong.v
theories/FloatAdv.v
theories/FloatTr.v
theories/FloatThms.v
theories/PropsFloat.v
theories/UTaylor.v
theories/UCompose.v
theories/LaxAbs.v
theories/AdvEnergy.v
theories/AdvLax.v
theories/AdvConv.v
theories/ConvSpec.v
theories/ConvThms.v
theories/PropsConv.v
theories/TestAdv.v
theories/TestAdvThms.v
theories/PropsTestAdv.v
theories/Poinc.v
theories/PoincRun.v
theories/PoincThms.v
theories/PropsPoinc.v
theories/Sim.v
theories/SimScale.v
theories/SimThms.v
theories/PropsSim.v
theories/TestNl.v
theories/TestNlThms.v
theories/PropsTestNl.v
theories/MirrorHex.v
theories/SimMirror.v
theories/MirrorThms.v
theories/PropsMirror.v
theories/Lip.v
theories/TimeStep.v
theories/TimeConv.v
theories/TimeThms.v
theories/PropsTime.v
theories/Diff.v
theories/Order4.v
theories/LocalErr.v
theories/OrderConv.v
theories/Smooth.v
theories/SmoothT.v
theories/Order4Thms.v
theories/PropsOrder.v
theories/Picard.v
theories/ExistThms.v
theories/PropsExist.v
theories/EnergyThms.v
theories/PropsEnergy.v
theories/RevThms.v
theories/PropsRev.v
theories/VarThms.v
theories/PropsVar.v
theories/HypThms.v
theories/PropsHyp.v
theories/HeatSpec.v
theories/HeatPlane.v
theories/HeatThms.v
theories/PropsHeat.v
theories/TrFloat.v
theories/TrFlux.v
theories/TrRun.v
theories/TrAlong.v
theories/TrAdv.v
theories/TrFloatThms.v
theories/PropsTrFloat.v
theories/NearFloat.v
theories/HeatFloat.v
theories/HeatFloatThms.v
theories/HeatLsrk.v
theories/HeatLsrkThms.v
theories/PropsHeatFloat.v
theories/DrainThms.v
theories/PropsDrain.v
theories/HyperSpec.v
theories/HyperPlane.v
theories/SymStep.v
theories/Poincare.v
theories/HypdThms.v
theories/PropsHypd.v
theories/EnergyBudget.v
theories/PropsBudget.v
theories/Hodge.v
theories/HodgeThms.v
theories/PropsHodge.v
theories/RestThms.v
theories/PropsRest.v
theories/ViscSteady.v
theories/PropsViscSteady.v
theories/LeastEnergy.v
theories/PropsLeast.v
theories/StableThms.v
theories/PropsStable.v

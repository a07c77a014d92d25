-Q theories Verif
theories/Prelude.v
theories/Fl.v
theories/FlArith.v
theories/MCore.v
theories/MAgent.v
theories/MConc.v
theories/MHelp.v
theories/MReal.v
theories/MTune.v
theories/MMisc.v
theories/MValid.v
theories/MSpace.v
theories/MHeap.v
theories/MHeap2.v
theories/MGA.v
theories/SpecCore.v
theories/FlInt.v
theories/PSpace.v
theories/PGen.v
theories/SpecRun.v
theories/PHelp.v
theories/PSelect.v
theories/PLogic.v
theories/PSolve.v
theories/PRun.v
theories/PAny.v
theories/PPart.v
theories/Demo.v
theories/PropRun.v
theories/PropSelect.v
theories/PropAgent.v
theories/PropInit.v
theories/PropValid.v
theories/PropSpace.v
theories/PropCodec.v
theories/PropCons.v
theories/PropLayout.v
theories/PropGen.v
theories/PropSample.v
theories/PropReal.v
theories/PropHelp.v
theories/PropOpp.v
theories/PropTune.v
theories/PropMisc.v
theories/PropRepeat.v
theories/PHeap.v
theories/PropHeap.v
theories/PropHeap2.v
theories/MAlg.v
theories/MAlg2.v
theories/MAlg3.v
theories/MAlg4.v
theories/MAlg5.v
theories/MAlg6.v
theories/MAlg7.v
theories/MAlg8.v
theories/SpecAlg.v
theories/SpecWhen.v
theories/SpecSave.v
theories/PAlg.v
theories/PFree.v
theories/PClass.v
theories/PAlg2.v
theories/PAlg3.v
theories/PAlg4.v
theories/PAlg5.v
theories/PAlg6.v
theories/PAlg7.v
theories/PAlg8.v
theories/PAlg9.v
theories/PRef.v
theories/PFail.v
theories/PElse.v
theories/PAlg10.v
theories/FlRound.v
theories/FlPart.v
theories/FlShare.v
theories/FlOcc.v
theories/PAlg11.v
theories/PSave.v
theories/PAlg12.v
theories/PAlg13.v
theories/PAlg14.v
theories/MMath.v
theories/AMath.v
theories/MClass1.v
theories/AClass1.v
theories/MClass2.v
theories/AClass2.v
theories/MClass3.v
theories/AClass3.v
theories/MClass4.v
theories/AClass4.v
theories/MClass5.v
theories/AClass5.v
theories/AClass5b.v
theories/MClass6.v
theories/AClass6.v
theories/MClass7.v
theories/AClass7.v
theories/MClass8.v
theories/AClass8.v
theories/AClass8b.v
theories/AClass8c.v
theories/MClass9.v
theories/AClass9.v
theories/MClass10.v
theories/AClass10.v
theories/MClass11.v
theories/AClass11.v
theories/MClass12.v
theories/AClass12.v
theories/MClass13.v
theories/AClass13.v
theories/MClass14.v
theories/AClass14.v
theories/MClass15.v
theories/AClass15.v
theories/MClass16.v
theories/AClass16.v
theories/MClass17.v
theories/AClass17.v
theories/MClass18.v
theories/AClass18.v
theories/MClass19.v
theories/AClass19.v
theories/MClass20.v
theories/FlQueue.v
theories/AClass20.v
theories/AClass21.v
theories/MClass21.v
theories/AClass22.v
theories/MClass22.v
theories/AClass23.v
theories/MClass23.v
theories/AClass24.v
theories/MClass24.v
theories/FlSpark.v
theories/FlEnergy.v
theories/AClass25.v
theories/MClass25.v
theories/AClass26.v
theories/MClass26.v
theories/AClass27.v
theories/MClass27.v
theories/AClass28.v
theories/PropGA.v
theories/PropNever.v
theories/PropNever2.v
theories/PropNever3.v
theories/PropNever4.v
theories/PropLost.v
theories/PropNever5.v
theories/PropNever6.v
theories/PropNever7.v
theories/MHeap3.v
theories/PropHeap3.v
theories/PropSwarm.v
theories/PropSwarm2.v
theories/FlWheel.v
theories/PropWheel.v
theories/PropWheel2.v
theories/PropLost2.v
theories/AClass29.v
theories/AClass30.v
theories/PropSwarm3.v
theories/PropNever8.v

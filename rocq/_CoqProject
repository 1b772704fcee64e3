-Q theories Verif
theories/OField.v
theories/FMicromega.v
theories/PField.v
theories/MBase.v
theories/MEuclid.v
theories/SEuclid.v
theories/PEuclid.v
theories/TEuclid.v
theories/MSim.v
theories/SSim.v
theories/PSim.v
theories/TSim.v
theories/MPoly.v
theories/PPoly.v
theories/TPoly.v
theories/MDict.v
theories/PDict.v
theories/MMut.v
theories/SMut.v
theories/PMut.v
theories/PMut2.v
theories/PMut3.v
theories/TMut.v
theories/MSurf.v
theories/SSurf.v
theories/PSurf.v
theories/PSurf2.v
theories/PSurf3.v
theories/PSurf4.v
theories/TSurf.v
theories/MComb.v
theories/SComb.v
theories/PClos.v
theories/PComb.v
theories/PGenus.v
theories/PParity.v
theories/TComb.v
theories/MPoint.v
theories/SPoint.v
theories/PPoint.v
theories/PPoint2.v
theories/PPoint3.v
theories/PPoint4.v
theories/PTurn.v
theories/PTurn2.v
theories/PPoint5.v
theories/TPoint.v
theories/PSimple.v
theories/TPoly2.v
theories/ExTab.v
theories/MCircle.v
theories/SCircle.v
theories/PCircle.v
theories/PDelaunay.v
theories/TCircle.v
theories/MFlip.v
theories/PGlue.v
theories/SFlip.v
theories/PFlip.v
theories/PFlip2.v
theories/PFlip3.v
theories/PFlip4.v
theories/PFlip5.v
theories/TFlip.v
theories/MIET.v
theories/SIET.v
theories/PIET.v
theories/TIET.v
theories/MCache.v
theories/TCache.v
theories/MEq.v
theories/PEq.v
theories/TEq.v
theories/PBuild.v
theories/MRelabel.v
theories/SRelabel.v
theories/PRelabel.v
theories/TRelabel.v
theories/MGroup.v
theories/SGroup.v
theories/PGroup.v
theories/PGroup2.v
theories/TGroup.v
theories/MHom.v
theories/SHom.v
theories/PHom.v
theories/PHom2.v
theories/THom.v
theories/MMor.v
theories/PMor.v
theories/TMor.v
theories/MHomMor.v
theories/SHomMor.v
theories/PHom3.v
theories/THomMor.v
theories/MMatGroup.v
theories/SMatGroup.v
theories/PMatGroup.v
theories/PMatGroup2.v
theories/TMatGroup.v
theories/MCmp.v
theories/SCmp.v
theories/PCmp.v
theories/PCmp2.v
theories/TCmp.v
theories/MFam.v
theories/PFam.v
theories/PFam2.v
theories/PFam3.v
theories/TFam.v
theories/MCover.v
theories/SCover.v
theories/PCover.v
theories/TCover.v
theories/MDouble.v
theories/PDouble.v
theories/TDouble.v
theories/MJinv.v
theories/SJinv.v
theories/PJinv.v
theories/TJinv.v
theories/MSubdiv.v
theories/SSubdiv.v
theories/PSubdiv.v
theories/PSubdiv2.v
theories/PSubdiv3.v
theories/TSubdiv.v
theories/MCut.v
theories/SCut.v
theories/PCut.v
theories/PCut2.v
theories/PCut3.v
theories/PCut4.v
theories/PCut5.v
theories/PCut6.v
theories/PCut7.v
theories/TCut.v
theories/MChain.v
theories/SChain.v
theories/PChain.v
theories/PChain2.v
theories/PChain3.v
theories/TChain.v
theories/PJordan.v
theories/PJordan2.v
theories/PJordan3.v
theories/PJordan4.v
theories/PJordan5.v
theories/MEar.v
theories/SEar.v
theories/PEar.v
theories/PEar2.v
theories/PEar3.v
theories/PEar4.v
theories/PEar5.v
theories/TEar.v
theories/MLazy.v
theories/SLazy.v
theories/PLazy.v
theories/PLazy2.v
theories/PLazy3.v
theories/PLazy4.v
theories/PLazy5.v
theories/TLazy.v
theories/PConvex.v
theories/PPos.v
theories/PPos2.v
theories/TPos.v
theories/MTangent.v
theories/PLocal.v
theories/PLocal2.v
theories/PExit.v
theories/STangent.v
theories/PInward.v
theories/PTangent.v
theories/PTangent2.v
theories/PTangent3.v
theories/PTangent4.v
theories/TTangent.v
theories/SRotate.v
theories/PRotate.v
theories/TRotate.v
theories/MSaddle.v
theories/SSaddle.v
theories/PSaddle.v
theories/PSaddle2.v
theories/PSaddle3.v
theories/PSaddle4.v
theories/PSaddle5.v
theories/PSaddle6.v
theories/TSaddle.v
theories/PSaddle7.v
theories/MHyp.v
theories/SHyp.v
theories/PHyp.v
theories/PHyp2.v
theories/PHyp3.v
theories/PHyp4.v
theories/PHyp5.v
theories/PHyp6.v
theories/PHyp7.v
theories/THyp.v
theories/MHypSet.v
theories/SHypSet.v
theories/PHypSet.v
theories/PHypSet2.v
theories/PHypSet3.v
theories/PHypSet4.v
theories/PHypSet5.v
theories/PHypSet6.v
theories/PHypSet7.v
theories/PHypSet8.v
theories/PHypSet9.v
theories/THypSet.v
theories/MTV.v
theories/STV.v
theories/PTV.v
theories/PTV2.v
theories/PTV3.v
theories/PTV4.v
theories/PTV5.v
theories/TTV.v
theories/MHomSpace.v
theories/SHomSpace.v
theories/PHomSpace.v
theories/THomSpace.v
theories/MCohom.v
theories/SCohom.v
theories/PCohom.v
theories/TCohom.v
theories/MLInf.v
theories/SLInf.v
theories/PLInf.v
theories/PLInf2.v
theories/PLInf3.v
theories/TLInf.v
theories/PHypSeg.v
theories/THypSeg.v
theories/MNorm.v
theories/SNorm.v
theories/PNorm.v
theories/PNorm2.v
theories/TNorm.v
theories/MCos.v
theories/SCos.v
theories/PCos.v
theories/PCos2.v
theories/PCos3.v
theories/PCos4.v
theories/TCos.v
theories/MUnfold.v
theories/SUnfold.v
theories/PUnfold.v
theories/PUnfold2.v
theories/PUnfold3.v
theories/PUnfold4.v
theories/PUnfold5.v
theories/TUnfold.v
theories/MGen.v
theories/SGen.v
theories/PGen.v
theories/PGen2.v
theories/PGen3.v
theories/PGen4.v
theories/PGen5.v
theories/PGen6.v
theories/PGen7.v
theories/TGen.v
theories/MStep.v
theories/SStep.v
theories/PStep.v
theories/PStep2.v
theories/PStep3.v
theories/PStep4.v
theories/PStep5.v
theories/TStep.v
theories/MMap.v
theories/SMap.v
theories/PMap.v
theories/PMap2.v
theories/PMap3.v
theories/TMap.v

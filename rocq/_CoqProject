-Q theories Verif
theories/AddrBlocks.v
theories/AddrFacts.v
theories/AddrLroots.v
theories/AddrModel.v
theories/AddrProofs.v
theories/AddrSpec.v
theories/Anti.v
theories/AsyncFacts.v
theories/AsyncModel.v
theories/AsyncSpec.v
theories/Base.v
theories/BaseFacts.v
theories/BasisFacts.v
theories/BasisModel.v
theories/BasisShift.v
theories/BasisSpin.v
theories/ChkDump.v
theories/ChkFacts.v
theories/ChkLoad.v
theories/ChkModel.v
theories/CrunchAll.v
theories/CrunchEnd.v
theories/CrunchFacts.v
theories/CrunchModel.v
theories/CrunchPair.v
theories/CrunchRows.v
theories/CrunchSpec.v
theories/DetDummy.v
theories/DetFacts.v
theories/DetModel.v
theories/DetProd.v
theories/DetSpec.v
theories/DetSpinless.v
theories/EncModel.v
theories/ExcClass.v
theories/ExcFacts.v
theories/ExcModel.v
theories/ExcSpec.v
theories/FockFacts.v
theories/FockOps.v
theories/FockSpec.v
theories/FsuccFacts.v
theories/FsuccHop.v
theories/FsuccModel.v
theories/FsuccProofs.v
theories/HalfDms.v
theories/HalfFacts.v
theories/HalfFun.v
theories/HalfInner.v
theories/HalfModel.v
theories/HalfSpec.v
theories/HamEnd.v
theories/HamFlat.v
theories/HamLoop.v
theories/HamModel.v
theories/HamOps.v
theories/HamRows.v
theories/HamSim.v
theories/HamSpec.v
theories/HamSpman.v
theories/HamSum.v
theories/HamVals.v
theories/HciModel.v
theories/LadderAng.v
theories/LadderFock.v
theories/LadderMain.v
theories/LadderModel.v
theories/LadderSpec.v
theories/LadderStr.v
theories/LasElem.v
theories/LasFacts.v
theories/LasFock.v
theories/LasModel.v
theories/LasSigns.v
theories/LasSpec.v
theories/LinqFacts.v
theories/LinqModel.v
theories/LogModel.v
theories/LprodSpec.v
theories/LsisModel.v
theories/LsisPack.v
theories/LsisProofs.v
theories/LsisUpd.v
theories/LsisUpdModel.v
theories/OptModel.v
theories/OvlpFacts.v
theories/OvlpModel.v
theories/PermFock.v
theories/ProdEnergy.v
theories/ProdFacts.v
theories/ProdFock.v
theories/ProdModel.v
theories/ProdSpec.v
theories/PropAddr.v
theories/PropAsync.v
theories/PropBasis.v
theories/PropChk.v
theories/PropCrunch.v
theories/PropDet.v
theories/PropEnc.v
theories/PropExc.v
theories/PropFsucc.v
theories/PropHalf.v
theories/PropHam.v
theories/PropHci.v
theories/PropLadder.v
theories/PropLas.v
theories/PropLinq.v
theories/PropLog.v
theories/PropLsis.v
theories/PropOpt.v
theories/PropOrth.v
theories/PropOrthOvlp.v
theories/PropOvlp.v
theories/PropProd.v
theories/PropPsKern.v
theories/PropRdm.v
theories/PropSC.v
theories/PropScatter.v
theories/PropSigns.v
theories/PropSmult.v
theories/PropSoc.v
theories/PropSocPure.v
theories/PropSocRdm.v
theories/PropSocTrace.v
theories/PropSpaces.v
theories/PropSpfac.v
theories/PropSpfacHam.v
theories/PropSpfacRest.v
theories/PropSpfacS2.v
theories/PropSpfacTerm.v
theories/PropSpin.v
theories/PropSpinless.v
theories/PropSplit.v
theories/PropSpman.v
theories/PropSpmanEnd.v
theories/PropStdm.v
theories/PropTens.v
theories/PropTrans.v
theories/PropUcc.v
theories/PropUccOrb.v
theories/PropUccSpin.v
theories/PropUccSym.v
theories/PropUexc.v
theories/PropUgg.v
theories/PropUmat.v
theories/PropUroot.v
theories/PsKernModel.v
theories/RdmCrunch.v
theories/RdmEnd.v
theories/RdmFdm.v
theories/RdmLin.v
theories/RdmModel.v
theories/RdmPart.v
theories/RdmSums.v
theories/SCBlocks.v
theories/SCFacts.v
theories/SCMach.v
theories/SCModel.v
theories/SCPrint.v
theories/SCSpec.v
theories/SCSpin.v
theories/ScatterC.v
theories/ScatterFacts.v
theories/ScatterLoop.v
theories/ScatterModel.v
theories/ScatterSupp.v
theories/SignsFacts.v
theories/SignsModel.v
theories/SmultAlg.v
theories/SmultClosed.v
theories/SmultComm.v
theories/SmultMain1.v
theories/SmultMain2.v
theories/SmultMain3.v
theories/SmultModel.v
theories/SmultScale.v
theories/SmultSpec.v
theories/SmultTens.v
theories/SocFacts.v
theories/SocModel.v
theories/SocRdmModel.v
theories/SpacesClosure.v
theories/SpacesCoupling.v
theories/SpacesEnum.v
theories/SpacesHop.v
theories/SpacesMisc.v
theories/SpacesModel.v
theories/SpacesMore.v
theories/SpacesSpec.v
theories/SpacesTables.v
theories/SpfacFacts.v
theories/SpfacModel.v
theories/SpfacRestModel.v
theories/SpfacS2Model.v
theories/SpinModel.v
theories/SpinRot.v
theories/SpinlessFock.v
theories/SpinlessModel.v
theories/SpinlessProd.v
theories/SplitFacts.v
theories/SplitModel.v
theories/SpmanBridge.v
theories/SpmanEntry.v
theories/SpmanFam.v
theories/SpmanGet.v
theories/SpmanMain.v
theories/SpmanModel.v
theories/SpmanSpec.v
theories/Star.v
theories/StdmFacts.v
theories/StdmModel.v
theories/StdmShuffled.v
theories/StdmSum.v
theories/TensFacts.v
theories/TensModel.v
theories/TransFacts.v
theories/TransModel.v
theories/TransProofs.v
theories/UccHam.v
theories/UccInit.v
theories/UccModel.v
theories/UccOrb.v
theories/UccOrbModel.v
theories/UccProofs.v
theories/UccReal.v
theories/UccSymFacts.v
theories/UccSymModel.v
theories/UccSymOrder.v
theories/UccSymProofs.v
theories/UccSymSpin.v
theories/UccUniq.v
theories/UexcFacts.v
theories/UexcModel.v
theories/UggModel.v
theories/UggProofs.v
theories/UmatEnd.v
theories/UmatFacts.v
theories/UmatForm.v
theories/UmatModel.v
theories/UrootFacts.v
theories/UrootModel.v

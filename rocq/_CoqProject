-Q theories Verif
theories/Base.v
theories/Sums.v
theories/Tensor.v
theories/DFT.v
theories/GridModel.v
theories/GridSpec.v
theories/GridProofs.v
theories/GridCountProofs.v
theories/PropGrid.v
theories/PadModel.v
theories/PadProofs.v
theories/PropPad.v
theories/Lin3.v
theories/VecModel.v
theories/VecProofs.v
theories/PropVec.v
theories/OccModel.v
theories/OccSpec.v
theories/ProjProofs.v
theories/OccProofs.v
theories/OccFormProofs.v
theories/PropOcc.v
theories/PwModel.v
theories/PwSpec.v
theories/PwProofs.v
theories/PwGrad.v
theories/PropPw.v
theories/BraketModel.v
theories/BraketSpec.v
theories/BraketProofs.v
theories/PropBraket.v
theories/XcModel.v
theories/XcSpec.v
theories/EnergyModel.v
theories/EnergySpec.v
theories/EnergyProofs.v
theories/ExtProofs.v
theories/TotalProofs.v
theories/SymProofs.v
theories/RespProofs.v
theories/ShiftProofs.v
theories/XcProofs.v
theories/XcProofs2.v
theories/XcProofs3.v
theories/PropEnergy.v
theories/PropXc.v
theories/HamModel.v
theories/HamSpec.v
theories/HamProofs.v
theories/HamProofs2.v
theories/HamProofs3.v
theories/DerProofs.v
theories/PropHam.v
theories/EwaldModel.v
theories/EwaldSpec.v
theories/EwaldProofs.v
theories/PropEwald.v
theories/CalcModel.v
theories/CalcSpec.v
theories/CalcProofs.v
theories/CalcProofs2.v
theories/CalcProofs3.v
theories/CfgProofs.v
theories/PropCalc.v
theories/UpfModel.v
theories/UpfSpec.v
theories/UpfProofs.v
theories/UpfProofs2.v
theories/PropUpf.v
theories/SphModel.v
theories/SphSpec.v
theories/SphProofs.v
theories/ShProofs.v
theories/ShProofs2.v
theories/PropSph.v
theories/SbtModel.v
theories/SbtSpec.v
theories/SbtProofs.v
theories/SbtProofs2.v
theories/PropSbt.v
theories/LocModel.v
theories/LocSpec.v
theories/LocProofs.v
theories/LocProofs2.v
theories/PropLoc.v
theories/NlocModel.v
theories/NlocSpec.v
theories/NlocProofs.v
theories/NlocProofs2.v
theories/NlocProofs3.v
theories/NlocProofs4.v
theories/NlocProofs5.v
theories/NlocProofs6.v
theories/NlocProofs7.v
theories/PropNloc.v
theories/SpmdModel.v
theories/SpmdSpec.v
theories/SpmdProofs.v
theories/SpmdProofs2.v
theories/SpmdProofs3.v
theories/PropSpmd.v
theories/DrvModel.v
theories/DrvSpec.v
theories/DrvProofs.v
theories/DrvProofs2.v
theories/DrvProofs3.v
theories/DrvProofs4.v
theories/DrvProofs5.v
theories/DrvProofs6.v
theories/DrvProofs7.v
theories/PropDrv.v
theories/EigSpec.v
theories/EigProofs.v
theories/EigProofs2.v
theories/BndModel.v
theories/BndSpec.v
theories/BndProofs.v
theories/BndProofs2.v
theories/BndProofs3.v
theories/BndProofs4.v
theories/BndProofs5.v
theories/BndProofs6.v
theories/BndProofs7.v
theories/PpModel.v
theories/PpSpec.v
theories/PpProofs.v
theories/PpProofs2.v
theories/PpProofs3.v
theories/PpProofs4.v
theories/PpProofs5.v
theories/PropPp.v
theories/PropBnd.v
theories/EwaldProofs2.v
theories/CryProofs.v
theories/PropCry.v
theories/SbtProofs3.v
theories/UpfProofs3.v
theories/UpfProofs4.v
theories/UpfProofs5.v
theories/PpProofs6.v
theories/GgaModel.v
theories/GgaSpec.v
theories/GgaProofs.v
theories/GgaProofs2.v
theories/GgaProofs3.v
theories/GgaProofs4.v
theories/GgaProofs5.v
theories/GgaProofs6.v
theories/PropGga.v
theories/SymSpec.v
theories/RotProofs.v
theories/SymProofs2.v
theories/PropSym.v
theories/VarProofs.v
theories/PropVar.v
theories/SpinSpec.v
theories/SpinProofs.v
theories/PropSpin.v
theories/StatSpec.v
theories/StatProofs.v
theories/PropStat.v
theories/ScaleSpec.v
theories/ScaleProofs.v
theories/PropScale.v
theories/UseSpec.v
theories/UseProofs.v
theories/PropUse.v
theories/SupSpec.v
theories/SupProofs.v
theories/PropSup.v
theories/ForceSpec.v
theories/ForceProofs.v
theories/PropForce.v
theories/UpfSpec2.v
theories/UpfProofs6.v
theories/UpfProofs8.v
theories/PropUpf2.v
theories/BoundSpec.v
theories/BoundProofs.v
theories/BoundProofs2.v
theories/PropBound.v
theories/ReachSpec.v
theories/ReachProofs.v
theories/ReachProofs2.v
theories/ReachProofs3.v
theories/PropReach.v
theories/BminProofs.v
theories/PropBmin.v
theories/OccReachSpec.v
theories/OccReachProofs.v
theories/PropOccReach.v
theories/GeomSpec.v
theories/GeomProofs.v
theories/PropGeom.v
theories/IdemSpec.v
theories/IdemProofs.v
theories/IdemProofs2.v
theories/PropIdem.v
theories/AttSpec.v
theories/AttProofs.v
theories/AttProofs2.v
theories/AttProofs3.v
theories/AttProofs4.v
theories/AttProofs5.v
theories/PropAtt.v
theories/NcAttSpec.v
theories/NcAttProofs.v
theories/NcAttProofs2.v
theories/PropNcAtt.v
theories/KsSpec.v
theories/KsProofs.v
theories/KsProofs2.v
theories/KsProofs3.v
theories/KsProofs4.v
theories/KsLevels.v
theories/KsProofs5.v
theories/PropKs.v
theories/KsGen.v
theories/NcKsSpec.v
theories/NcKsProofs.v
theories/NcKsProofs2.v
theories/NcKsProofs3.v
theories/PropNcKs.v
theories/SimSpec.v
theories/SimProofs.v
theories/SimProofs2.v
theories/SimProofs3.v
theories/SimProofs4.v
theories/SimProofs5.v
theories/SimProofs6.v
theories/FreeSpec.v
theories/FreeProofs.v
theories/FreeProofs2.v
theories/FreeProofs3.v
theories/SimProofs7.v
theories/PropSim.v
theories/PropFree.v
theories/TempSpec.v
theories/TempProofs.v
theories/TempProofs2.v
theories/TempProofs3.v
theories/TempProofs4.v
theories/PropTemp.v
theories/SmearSpec.v
theories/SmearProofs.v
theories/SmearProofs2.v
theories/SmearProofs3.v
theories/SmearProofs4.v
theories/SmearProofs5.v
theories/PropSmear.v
theories/NcForceSpec.v
theories/NcForceProofs.v
theories/NcForceProofs2.v
theories/PropNcForce.v
theories/TempForceSpec.v
theories/TempForceProofs.v
theories/TempForceProofs2.v
theories/PropTempForce.v
theories/KbandProofs.v
theories/KbandProofs2.v
theories/PropKband.v
theories/RaiseSpec.v
theories/RaiseProofs.v
theories/RaiseProofs2.v
theories/PropRaise.v

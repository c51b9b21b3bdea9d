-Q theories Verif

theories/Base.v
theories/Bits.v
theories/BitsProofs.v
theories/Props_Bits.v
theories/SD.v
theories/Spec.v
theories/SDProofs.v
theories/SDProofs2.v
theories/SDProofs3.v
theories/SDProofs4.v
theories/SDProofs5.v
theories/Props_SD.v
theories/Sums.v
theories/FockSpec.v
theories/FockProofs.v
theories/SlaterCondon.v
theories/Ham.v
theories/HamProofs.v
theories/HamProofs2.v
theories/HamProofs3.v
theories/HamProofs4.v
theories/HamProofs5.v
theories/HamProofs6.v
theories/HamProofs7.v
theories/HamProofs8.v
theories/SparseSpec.v
theories/CsrView.v
theories/CsrProofs.v
theories/Dist.v
theories/DistProofs.v
theories/PropsHamGlue.v
theories/Props_Ham.v
theories/Nondet.v
theories/Asci.v
theories/AsciSpec.v
theories/AsciSort.v
theories/AsciContrib.v
theories/AsciContrib2.v
theories/AsciSearch.v
theories/AsciSearch2.v
theories/AsciSearch3.v
theories/AsciIter.v
theories/AsciGlue.v
theories/Constraint.v
theories/PruneProofs.v
theories/Props_Asci.v
theories/ConstraintSpec.v
theories/ConstraintProofs.v
theories/ConstraintProofs2.v
theories/ConstraintProofs3.v
theories/ConstraintDist.v
theories/ConstraintDist2.v
theories/ConstraintGlue.v
theories/Props_Constraint.v
theories/ConstraintContrib.v
theories/ConstraintSearch.v
theories/ConstraintSearch2.v
theories/ConstraintSearch3.v
theories/ConstraintGlue2.v
theories/Props_Constraint2.v
theories/Collective.v
theories/CollectiveSpec.v
theories/CollectiveProofs.v
theories/QuickProofs.v
theories/AsciMpi.v
theories/AsciMpiProofs.v
theories/AsciMpiSpec.v
theories/AsciMpiGlue.v
theories/AsciMpiGlue2.v
theories/Props_Collective.v
theories/Props_AsciMpi.v
theories/Mem.v
theories/MemProofs.v
theories/Spmv.v
theories/SpmvSpec.v
theories/SpmvProofs.v
theories/PSpmvProofs.v
theories/PSpmvProofs2.v
theories/PSpmvProofs3.v
theories/CooProofs.v
theories/SpmvGlue.v
theories/Props_Spmv.v
theories/Sparse.v
theories/ConvSpec.v
theories/SparseProofs1.v
theories/SparseProofs2.v
theories/SparseProofs3.v
theories/SparseProofs4.v
theories/SparseProofs5.v
theories/SparseProofs6.v
theories/SparseProofs7.v
theories/SparseProofs8.v
theories/SparseGlue.v
theories/Props_Sparse.v
theories/Text.v
theories/TextProofs.v
theories/IO.v
theories/IOSpec.v
theories/IOProofs.v
theories/FcidumpProofs.v
theories/FcidumpProofs2.v
theories/RdmIOProofs.v
theories/IOGlue.v
theories/Props_IO.v
theories/SparseIO.v
theories/SparseIOSpec.v
theories/SparseIOProofs.v
theories/SparseIOProofs2.v
theories/SparseIOProofs3.v
theories/SparseIOGlue.v
theories/Props_SparseIO.v
theories/Dense.v
theories/DenseSpec.v
theories/DenseProofs.v
theories/FockMatProofs.v
theories/RotProofs.v
theories/LinRespProofs.v
theories/HessProofs.v
theories/HessLinear.v
theories/ExpandProofs.v
theories/Mp2Proofs.v
theories/SymProofs.v
theories/DenseGlue.v
theories/DenseEx.v
theories/ExpandUnique.v
theories/Props_Dense.v
theories/Diis.v
theories/DiisSpec.v
theories/DiisProofs.v
theories/DiisProofs2.v
theories/Props_Diis.v
theories/Davidson.v
theories/DavSpec.v
theories/DavProofs.v
theories/DavProofs2.v
theories/DavProofs3.v
theories/DavProofs4.v
theories/DavProofs5.v
theories/DavProofs6.v
theories/DavProofs7.v
theories/DavProofs8.v
theories/DavProofs9.v
theories/DavProofs10.v
theories/DavProofs11.v
theories/DavProofs12.v
theories/DavProofs13.v
theories/DavProofs14.v
theories/DavEx.v
theories/Props_Davidson.v
theories/Mcscf.v
theories/McscfSpec.v
theories/McscfProofs.v
theories/McscfProofs2.v
theories/McscfProofs3.v
theories/McscfProofs4.v
theories/McscfProofs5.v
theories/RdmSymProofs.v
theories/CasciSpec.v
theories/McscfProofs6.v
theories/McscfGlue.v
theories/McscfGlue2.v
theories/McscfEx.v
theories/McscfGlue3.v
theories/Props_Mcscf.v
theories/AsciRot.v
theories/AsciRotSpec.v
theories/AsciRotProofs.v
theories/AsciRotProofs2.v
theories/AsciRotEx.v
theories/AsciRotGlue.v
theories/Props_AsciRot.v
theories/AsciPar.v
theories/AsciParProofs.v
theories/AsciParProofs2.v
theories/AsciParProofs3.v
theories/AsciParSpec.v
theories/AsciParProofs4.v
theories/AsciParGlue.v
theories/AsciParGlue2.v
theories/AsciParEx.v
theories/Props_AsciPar.v
theories/NumGrad.v
theories/NumGradSpec.v
theories/NumGradProofs.v
theories/NumGradAcc.v
theories/NumGradAcc2.v
theories/NumGradGlue.v
theories/NumGradEx.v
theories/Props_NumGrad.v
theories/Ini.v
theories/IniSpec.v
theories/IniProofs.v
theories/IniGlue.v
theories/Props_Ini.v
theories/FreezeProofs.v
theories/FreezeSpec.v
theories/FreezeProofs2.v
theories/FreezeProofs3.v
theories/FreezeGlue.v
theories/FreezeProofs4.v
theories/FreezeGlue2.v
theories/FreezeEx.v
theories/Props_Freeze.v
theories/Driver.v
theories/DriverSpec.v
theories/DriverProofs.v
theories/DriverProofs2.v
theories/DriverProofs3.v
theories/DriverProofs4.v
theories/DriverGlue.v
theories/DriverEx.v
theories/RotInvProofs.v
theories/RotInvProofs2.v
theories/RotInvProofs3.v
theories/RotInvProofs4.v
theories/RotInvSpec.v
theories/RotInvGlue.v
theories/RotInvGlue2.v
theories/RotInvEx.v
theories/DriverRot.v
theories/DriverRotEx.v
theories/DriverRotGlue.v
theories/DriverRdm.v
theories/DriverOut.v
theories/DriverOutEx.v
theories/Props_Driver.v
theories/Props_RotInv.v
theories/Bfgs.v
theories/BfgsSpec.v
theories/BfgsProofs.v
theories/BfgsProofs2.v
theories/BfgsProofs3.v
theories/BfgsProofs4.v
theories/BfgsGlue.v
theories/BfgsEx.v
theories/Props_Bfgs.v
theories/Lobpcg.v
theories/LobpcgSpec.v
theories/LobpcgProofs.v
theories/LobpcgProofs2.v
theories/LobpcgProofs3.v
theories/LobpcgProofs4.v
theories/LobpcgGlue.v
theories/LobpcgEx.v
theories/Props_Lobpcg.v
theories/Graph.v
theories/GraphSpec.v
theories/GraphProofs.v
theories/Props_Graph.v
theories/ReadRb.v
theories/ReadRbSpec.v
theories/ReadRbProofs.v
theories/ReadRbEx.v
theories/Props_ReadRb.v
theories/AsciRotPar.v
theories/AsciRotParSpec.v
theories/AsciRotParProofs.v
theories/AsciRotParGlue.v
theories/AsciRotParEx.v
theories/Props_AsciRotPar.v
theories/DriverMpi.v
theories/DriverMpiProofs.v
theories/DriverMpiProofs2.v
theories/DriverMpiGlue.v
theories/DriverMpiRot.v
theories/DriverMpiRotGlue.v
theories/DriverMpiRdm.v
theories/DriverMpiRdmGlue.v
theories/Props_DriverMpi.v

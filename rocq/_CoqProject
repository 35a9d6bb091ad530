-Q theories Verif
theories/SetVec_Spec.v
theories/PackSetvec_Model.v
theories/PackSetvec_Proof.v
theories/PackSetvec_Prop.v
theories/SizeSetvec_Model.v
theories/SizeSetvec_Proof.v
theories/SizeSetvec_Proof2.v
theories/SizeSetvec_Proof3.v
theories/SizeSetvec_Proof4.v
theories/SizeSetvec_Proof5.v
theories/SizeSetvec_Proof6.v
theories/SizeSetvec_Prop.v
theories/Base_Spec.v
theories/Op_Model.v
theories/Tape_Spec.v
theories/Tape_Model.v
theories/Tape_Proof.v
theories/Tape_Proof2.v
theories/Tape_Proof3.v
theories/Tape_Proof4.v
theories/Tape_Proof5.v
theories/Tape_Proof6.v
theories/Tape_Proof7.v
theories/Tape_Proof8.v
theories/Tape_Val.v
theories/Tape_Dwf.v
theories/Tape_Proof9.v
theories/Tape_Proof10.v
theories/Tape_Hist.v
theories/Tape_Prop.v
theories/IndexSort_Model.v
theories/IndexSort_Proof.v
theories/IndexSort_Prop.v
theories/SparseRc_Spec.v
theories/SparseRc_Model.v
theories/SparseRc_Proof.v
theories/SparseRc_Prop.v
theories/PolyEval_Spec.v
theories/PolyEval_Model.v
theories/PolyEval_Proof.v
theories/PolyEval_Prop.v
theories/Util_Model.v
theories/Util_Prop.v
theories/Color_Model.v
theories/Color_Spec.v
theories/Color_Proof.v
theories/Color_Proof2.v
theories/Color_Proof3.v
theories/Color_Prop.v
theories/Sweep_Model.v
theories/Sweep_Eqs.v
theories/Sweep_Eqs2.v
theories/Sweep_Tape.v
theories/Sweep_Uniq.v
theories/Drv_Model.v
theories/Drv_Proof.v
theories/Drv_Proof2.v
theories/Tape_Swf.v
theories/Drv_Proof3.v
theories/Sweep_RevExt.v
theories/Drv_Proof4.v
theories/Drv_Spec.v
theories/Drv_Prop.v
theories/Field_Spec.v
theories/Sweep_Dir.v
theories/Drv_Dir.v
theories/Drv_Dir2.v
theories/Drv_Dir3.v
theories/Drv_Dir4.v
theories/Qbase.v
theories/Drv_DirProp.v
theories/Real_Base.v
theories/Tay_Calc.v
theories/Sweep_Val0.v
theories/Tay_Sub.v
theories/Tay_Tape.v
theories/Drv_Link.v
theories/Tay_Prop.v
theories/Tay_Ex.v
theories/Vec_Spec.v
theories/Vec_Model.v
theories/Vec_Proof.v
theories/Vec_Proof2.v
theories/Vec_Prop.v
theories/VB_Model.v
theories/VB_Proof.v
theories/VB_Prop.v
theories/Trk_Spec.v
theories/Trk_Model.v
theories/Trk_Prop.v
theories/Link_Model.v
theories/Link_Prop.v
theories/Iter_Model.v
theories/Iter_Prop.v
theories/LU_Model.v
theories/LU_Proof.v
theories/LU_Proof2.v
theories/LU_Proof3.v
theories/LU_Prop.v
theories/Rev_Calc.v
theories/Rev_Sub.v
theories/Rev_Sub2.v
theories/Rev_Sub3.v
theories/Rev_Sub4.v
theories/Rev_Sub5.v
theories/Rev_Sub6.v
theories/Rev_Sub7.v
theories/Rev_Frame.v
theories/Rev_Prim.v
theories/Rev_Tape.v
theories/Rev_Spec.v
theories/Rev_Prop.v
theories/Rev_Ex.v
theories/Tape_Vec.v
theories/Spar_Model.v
theories/Spar_Proof.v
theories/Spar_Proof2.v
theories/Spar_Proof3.v
theories/Spar_Prop.v
theories/Spar_DerProp.v
theories/Spar_Ex.v
theories/Hes_Model.v
theories/Hes_Proof.v
theories/Hes_Proof2.v
theories/Hes_Proof3.v
theories/Hes_Proof4.v
theories/Hes_Proof5.v
theories/Hes_Prop.v
theories/Hes_Ex.v
theories/Der_Model.v
theories/Der_Spec.v
theories/Der_Proof.v
theories/Der_Proof2.v
theories/Der_Proof3.v
theories/Der_Proof4.v
theories/Der_Prop.v
theories/Der_Ex.v
theories/Csum_Spec.v
theories/Csum_Prop.v
theories/Quad_Model.v
theories/Quad_Spec.v
theories/Quad_Proof.v
theories/Quad_Proof2.v
theories/Quad_Proof3.v
theories/Quad_Prop.v
theories/Rev_Zero.v
theories/Sub_Spec.v
theories/Sub_Model.v
theories/Sub_Proof.v
theories/Sub_Proof2.v
theories/Sub_Proof3.v
theories/Sub_Proof4.v
theories/Sub_Tape.v
theories/Sub_Prop.v
theories/Zero_Prop.v
theories/Sub_Ex.v
theories/TA_Spec.v
theories/TA_Model.v
theories/TA_Proof.v
theories/TA_Proof2.v
theories/TA_Proof3.v
theories/TA_Refine.v
theories/TA_Prop.v
theories/TA_Main.v
theories/VG_Model.v
theories/VG_Proof.v
theories/VG_Dead.v
theories/VG_Renum.v
theories/VG_Fold.v
theories/VG_Sum.v
theories/VG_Main.v
theories/Tape_Gen.v
theories/Abs_Model.v
theories/Abs_Proof.v
theories/Abs_Proof2.v
theories/Abs_Proof3.v
theories/Abs_Prop.v
theories/Opt_Model.v
theories/Opt_Proof.v
theories/Opt_Proof2.v
theories/Opt_Proof3.v
theories/Opt_Proof4.v
theories/Opt_Proof5.v
theories/Opt_Proof6.v
theories/Opt_Prop.v
theories/Graph_Spec.v
theories/Graph_Model.v
theories/Graph_Proof1.v
theories/Graph_Proof2.v
theories/Graph_Proof3.v
theories/Graph_Proof4.v
theories/Graph_Proof5.v
theories/Graph_Proof6.v
theories/Graph_Proof7.v
theories/Graph_Prop.v
theories/Atom_Model.v
theories/Atom_Proof1.v
theories/Atom_Proof2.v
theories/Atom_Proof3.v
theories/Atom_Proof4.v
theories/Atom_Proof5.v
theories/Atom_Prop.v
theories/Atom_Proof6.v
theories/AtomDyn_Model.v
theories/AtomDyn_Proof.v
theories/AtomDyn_Prop.v
theories/AtomHes_Model.v
theories/AtomHes_Proof.v
theories/AtomHes_Prop.v
theories/CSkip_Model.v
theories/CSkip_Proof.v
theories/CSkip_Proof2.v
theories/CSkip_Prop.v
theories/Tape_GenC.v
theories/Tape_Codes.v
theories/CExp_Spec.v
theories/CExp_Prop.v
theories/CmpIdx_Prop.v
theories/F2V_Model.v
theories/F2V_Prop.v

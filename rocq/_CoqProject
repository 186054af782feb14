-Q theories Verif
theories/Num.v
theories/NumFacts.v
theories/Vec.v
theories/VecFacts.v
theories/Motor_Model.v
theories/Motor_Proofs.v
theories/Motor_Properties.v
theories/Joint_Model.v
theories/ExtQ.v
theories/Joint_Spec.v
theories/Joint_Proofs.v
theories/Joint_Properties.v
theories/Body_Model.v
theories/Body_Proofs.v
theories/Body_Properties.v
theories/Deriv.v
theories/Body_R.v
theories/ExtR.v
theories/Joint_R.v
theories/Tree.v
theories/Link_Model.v
theories/Tree_Proofs.v
theories/Link_Spec.v
theories/Link_Proofs.v
theories/Chain_Proofs.v
theories/Link_Properties.v
theories/Chain_Properties.v
theories/Kin_Spec.v
theories/Kin_Proofs.v
theories/Jacobi_Model.v
theories/Jacobi_Proofs.v
theories/Kin_Properties.v
theories/Kin_R.v
theories/Dyn_Spec.v
theories/Dyn_Proofs.v
theories/Dyn_Properties.v
theories/Dyn_R.v
theories/Walk.v
theories/ABI_Model.v
theories/Walk_Proofs.v
theories/ABI_Spec.v
theories/ABI_Alg.v
theories/ABI_Proofs.v
theories/ABI_State.v
theories/ABI_ID.v
theories/ABI_Q.v
theories/ABI_Properties.v
theories/ABI_PSD.v
theories/Walk_Ex.v
theories/ABIEx_Spec.v
theories/ABI_Ex.v
theories/ABI_Trial.v
theories/ABI_Two.v
theories/ABIEx_Properties.v
theories/Break_Spec.v
theories/Break_Proofs.v
theories/Break_Properties.v
theories/Zmp_Properties.v
theories/Contact_Model.v
theories/Contact_Properties.v
theories/IK_Model.v
theories/IK_Spec.v
theories/IK_Cells.v
theories/IK_Laws.v
theories/IK_Gauss.v
theories/IK_Index.v
theories/IKCell_Properties.v
theories/IK_Dims.v
theories/IK_Rows.v
theories/IK_Usable.v
theories/IKRow_Properties.v
theories/IK_Quad.v
theories/IKSolve_Properties.v
theories/IKEval_Properties.v
theories/IK_Erase.v
theories/IKAcm_Properties.v
theories/IKSeq_Properties.v
theories/IK_R.v
theories/Imp_R.v
theories/CD_Model.v
theories/CD_Spec.v
theories/CD_Proofs.v
theories/CD_Geo.v
theories/CDReg_Properties.v
theories/CD_Inv.v
theories/CDChk_Properties.v
theories/CDVert_Properties.v
theories/Brep_Model.v
theories/Brep_Spec.v
theories/Brep_Geo.v
theories/Brep_Proofs.v
theories/Brep_Trunc.v
theories/Brep_Conv.v
theories/Brep_Properties.v
theories/Ztk_Model.v
theories/Ztk_Spec.v
theories/Ztk_Proofs.v
theories/Ztk_Chain.v
theories/Ztk_Posture.v
theories/Ztk_Read.v
theories/Ztk_Properties.v
theories/Conf_Model.v
theories/Conf_Spec.v
theories/Conf_Proofs.v
theories/Conf_Q.v
theories/Conf_R.v
theories/Conf_Dev.v
theories/Conf_Chain.v
theories/Conf_Properties.v
theories/IKConf_Model.v
theories/IKConf_Spec.v
theories/IKConf_Proofs.v
theories/IKConf_Properties.v
theories/Inertia_Spec.v
theories/Inertia_Proofs.v
theories/Inertia_Properties.v
theories/Urdf_Model.v
theories/Urdf_Spec.v
theories/Urdf_Tree.v
theories/Urdf_Doc.v
theories/Urdf_Walk.v
theories/Urdf_Read.v
theories/Urdf_Proofs.v
theories/Urdf_Pose.v
theories/Urdf_Q.v
theories/Urdf_Properties.v
theories/Mp_Model.v
theories/Mp_Spec.v
theories/Mp_Proofs.v
theories/Mp_Properties.v
theories/Cad_Model.v
theories/Cad_Spec.v
theories/Cad_Proofs.v
theories/Cad_Properties.v
theories/Seq_Model.v
theories/Seq_Spec.v
theories/Seq_Proofs.v
theories/Seq_Step.v
theories/Seq_Grav.v
theories/Seq_Properties.v
theories/Ikapp_Model.v
theories/Ikapp_Spec.v
theories/Ikapp_Proofs.v
theories/Ikapp_Hold.v
theories/Ikapp_Lines.v
theories/Ikapp_Properties.v
theories/Zvs_Model.v
theories/Zvs_Properties.v
theories/Tools_Model.v
theories/Tools_Properties.v
theories/Shape_Model.v
theories/Shape_Properties.v
theories/Gp_Model.v
theories/Gp_Properties.v
theories/Manip_Model.v
theories/Manip_Properties.v
theories/UrdfForm_Proofs.v
theories/UrdfForm_Properties.v
theories/ZtkOrder_Spec.v
theories/ZtkOrder_Proofs.v
theories/ZtkOrder_Properties.v
theories/IKInt_Properties.v
theories/Move_Properties.v
theories/Vol_Model.v
theories/Vol_Properties.v
theories/MoveABI_Properties.v
theories/Payload_Properties.v
theories/Tempo_Properties.v
theories/IKMeth_Model.v
theories/IKMeth_Properties.v
theories/Ellips_Model.v
theories/Ellips_Properties.v
theories/ABILists_Properties.v

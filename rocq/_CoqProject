-Q theories Verif
theories/Outcome.v
theories/Interp_Model.v
theories/Interp_Spec.v
theories/Interp_Lemmas.v
theories/Interp_Proofs.v
theories/Interp_Nest.v
theories/Interp_Blank.v
theories/Number_Model.v
theories/Number_Spec.v
theories/Number_Proofs.v
theories/Interp_Props.v
theories/Ranks_Model.v
theories/Ranks_Proofs.v
theories/Ranks_Props.v
theories/AdType_Model.v
theories/AdType_Props.v
theories/Groups_Model.v
theories/Groups_Proofs.v
theories/Groups_Props.v
theories/Database_Model.v
theories/Database_Proofs.v
theories/Database_Props.v
theories/Mesh_Model.v
theories/Mesh_Proofs.v
theories/Mesh_Props.v
theories/MeshPar_Props.v
theories/Brick_Props.v
theories/FuncReg_Model.v
theories/FuncReg_Props.v
theories/Flat_Model.v
theories/Flat_Props.v
theories/FuncMan_Model.v
theories/FuncMan_Proofs.v
theories/FuncMan_Props.v
theories/FuncEval_Model.v
theories/FuncEval_Spec.v
theories/FuncEval_Proofs.v
theories/FuncEval_Props.v
theories/Storage_Model.v
theories/Storage_Props.v
theories/Sparse_Model.v
theories/Sparse_Props.v
theories/Mass_Model.v
theories/Mass_Props.v
theories/Tableau_Model.v
theories/Tableau_Props.v
theories/Transient_Model.v
theories/Transient_Proofs.v
theories/Transient_Props.v
theories/Newton_Model.v
theories/Newton_Props.v
theories/PCG_Model.v
theories/PCG_Props.v
theories/Adjoint_Model.v
theories/Adjoint_Props.v
theories/Nearest_Model.v
theories/Nearest_Props.v
theories/Assembly_Model.v
theories/Assembly_Props.v
theories/OptVec_Model.v
theories/OptVec_Props.v
theories/Params_Model.v
theories/Params_Props.v
theories/Objective_Model.v
theories/Objective_Props.v
theories/Rerun_Model.v
theories/Rerun_Props.v
theories/Settings_Model.v
theories/Settings_Props.v
theories/Interp_Names.v
theories/BCond_Model.v
theories/BCond_Proofs.v
theories/BCond_Props.v
theories/BProj_Model.v
theories/BProj_Proofs.v
theories/BProj_Props.v
theories/FluxBC_Model.v
theories/FluxBC_Props.v
theories/Phys_Model.v
theories/Phys_Spec.v
theories/Phys_Proofs.v
theories/Therm_Model.v
theories/Therm_Props.v
theories/Flow_Model.v
theories/Flow_Props.v
theories/NS_Proofs.v
theories/NS_Props.v
theories/Elast_Model.v
theories/Elast_Props.v
theories/Stab_Props.v
theories/MassL2_Props.v
theories/Phys_Tac.v
theories/Trans_Model.v
theories/Trans_Props.v
theories/Maxwell_Model.v
theories/Maxwell_Props.v
theories/Fields_Model.v
theories/Fields_Spec.v
theories/Fields_Proofs.v
theories/Fields_Props.v
theories/PostObj_Model.v
theories/PostObj_Spec.v
theories/PostObj_Proofs.v
theories/PostObj_Props.v
theories/PostErr_Model.v
theories/PostErr_Spec.v
theories/PostErr_Props.v
theories/Darcy_Model.v
theories/Darcy_Props.v
theories/KL_Props.v
theories/HDG_Model.v
theories/HDG_Spec.v
theories/HDG_Proofs.v
theories/HDG_Eig.v
theories/HDG_Eig3.v
theories/HDG_Props.v
theories/Euler_Props.v
theories/Geom_Model.v
theories/Geom_Spec.v
theories/Geom_Proofs.v
theories/Geom_Props.v
theories/Piola_Props.v
theories/Subgrid_Model.v
theories/Subgrid_Spec.v
theories/Subgrid_Proofs.v
theories/Subgrid_Props.v
theories/UQ_Model.v
theories/UQ_Spec.v
theories/UQ_Proofs.v
theories/UQ_Props.v
theories/Small_Model.v
theories/Small_Props.v
theories/Sensor_Model.v
theories/Sensor_Props.v
theories/Init_Model.v
theories/Init_Props.v
theories/Fire_Model.v
theories/Fire_Props.v
theories/NeoH_Model.v
theories/NeoH_Props.v
theories/Crystal_Model.v
theories/Crystal_Props.v
theories/Phase_Model.v
theories/Phase_Props.v
theories/Setup_Model.v
theories/Setup_Props.v
theories/LinAlg_Model.v
theories/LinAlg_Props.v
theories/Gather_Model.v
theories/Gather_Props.v
theories/VDNS_Model.v
theories/VDNS_Proofs.v
theories/VDNS_Props.v
theories/Maxwell2_Model.v
theories/Maxwell2_Props.v
theories/Kinetic_Model.v
theories/Kinetic_Props.v
theories/MaxFP_Model.v
theories/MaxFP_Props.v
theories/HFace_Model.v
theories/HFace_Props.v
theories/MSMan_Model.v
theories/MSMan_Props.v
theories/Files_Model.v
theories/Files_Props.v
theories/SGSolve_Model.v
theories/SGSolve_Props.v
theories/Vis_Model.v
theories/Vis_Props.v
theories/Micro_Model.v
theories/Micro_Props.v
theories/CombMesh_Model.v
theories/CombMesh_Props.v
theories/AdjSched_Model.v
theories/AdjSched_Props.v
theories/LinSolve_Model.v
theories/LinSolve_Props.v
theories/Respond_Model.v
theories/Respond_Props.v
theories/IPDB_Model.v
theories/IPDB_Props.v
theories/IQBook_Model.v
theories/IQBook_Props.v
theories/Sub2_Model.v
theories/Sub2_Props.v
theories/MBasis_Model.v
theories/MBasis_Props.v
theories/DParam_Model.v
theories/DParam_Props.v
theories/PMass_Model.v
theories/PMass_Props.v
theories/SMass_Model.v
theories/SMass_Props.v
theories/FluxResp_Model.v
theories/FluxResp_Props.v
theories/FFT_Model.v
theories/FFT_Props.v
theories/Batch_Model.v
theories/Batch_Props.v
theories/Purge_Model.v
theories/Purge_Props.v
theories/DWR_Model.v
theories/DWR_Props.v
theories/PPBlock_Model.v
theories/PPBlock_Props.v
theories/MeshSens_Model.v
theories/MeshSens_Props.v
theories/PrevJac_Model.v
theories/PrevJac_Props.v

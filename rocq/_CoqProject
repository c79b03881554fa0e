-Q theories Verif
theories/Angle_Model.v
theories/Angle_Proofs.v
theories/Angle_Props.v
theories/Angle_Spec.v
theories/Angle_Tables_Proofs.v
theories/Arn_Model.v
theories/Arn_Proofs.v
theories/Arn_Proofs2.v
theories/Arn_Proofs3.v
theories/Arn_Props.v
theories/Arn_Spec.v
theories/Banach_Proofs.v
theories/Base.v
theories/BaseR.v
theories/Boundary_Model.v
theories/Boundary_Proofs.v
theories/Boundary_Props.v
theories/Boundary_Spec.v
theories/Cell_Model.v
theories/Cell_Proofs.v
theories/Cell_Props.v
theories/Cell_Spec.v
theories/Cmfd_Model.v
theories/Cmfd_Proofs.v
theories/Cmfd_Proofs2.v
theories/Cmfd_Proofs3.v
theories/Cmfd_Proofs4.v
theories/Cmfd_Proofs5.v
theories/Cmfd_Proofs6.v
theories/Cmfd_Props.v
theories/Cmfd_Spec.v
theories/Cpc_Model.v
theories/Cpc_Proofs.v
theories/Cpc_Proofs2.v
theories/Cpc_Proofs3.v
theories/Cpc_Proofs4.v
theories/Cpc_Props.v
theories/Cpc_Spec.v
theories/Cpow_Model.v
theories/Cpow_Proofs.v
theories/Cpow_Proofs2.v
theories/Cpow_Props.v
theories/Cpow_Spec.v
theories/Csg_Model.v
theories/Csg_Proofs.v
theories/Csg_Props.v
theories/Csg_Spec.v
theories/Davidson_Model.v
theories/Davidson_Proofs.v
theories/Davidson_Proofs2.v
theories/Davidson_Proofs3.v
theories/Davidson_Props.v
theories/Davidson_Spec.v
theories/Dense_Model.v
theories/Dense_Proofs.v
theories/Dense_Props.v
theories/Dense_Spec.v
theories/Diffusion_Model.v
theories/Diffusion_Proofs.v
theories/Diffusion_Props.v
theories/Diffusion_Spec.v
theories/Dpos_Proofs.v
theories/Dpos_Proofs2.v
theories/Dpos_Proofs3.v
theories/Dpos_Props.v
theories/Dpos_Spec.v
theories/Driver_Model.v
theories/Driver_Proofs.v
theories/Driver_Proofs2.v
theories/Driver_Props.v
theories/Driver_Spec.v
theories/DsaCase_Proofs.v
theories/Dsa_Model.v
theories/Dsa_Proofs.v
theories/Dsa_Proofs2.v
theories/Dsa_Proofs3.v
theories/Dsa_Props.v
theories/Dsa_Spec.v
theories/Dsolve_Model.v
theories/Dsolve_Proofs.v
theories/Dsolve_Proofs2.v
theories/Dsolve_Proofs3.v
theories/Dsolve_Props.v
theories/Dsolve_Spec.v
theories/Ecl_Model.v
theories/Ecl_Proofs.v
theories/Ecl_Proofs2.v
theories/Ecl_Proofs3.v
theories/Ecl_Props.v
theories/Ecl_Spec.v
theories/Ecmfd_Model.v
theories/Ecmfd_Proofs.v
theories/Ecmfd_Proofs2.v
theories/Ecmfd_Proofs3.v
theories/Ecmfd_Props.v
theories/Ecmfd_Spec.v
theories/Ediff_Model.v
theories/Ediff_Proofs.v
theories/Ediff_Proofs2.v
theories/Ediff_Proofs3.v
theories/Ediff_Proofs4.v
theories/Ediff_Props.v
theories/Ediff_Spec.v
theories/Eis_Model.v
theories/Eis_Props.v
theories/Ext_Model.v
theories/Ext_Proofs.v
theories/Ext_Proofs2.v
theories/Ext_Proofs3.v
theories/Ext_Props.v
theories/Ext_Spec.v
theories/Fcl_Model.v
theories/Fcl_Proofs.v
theories/Fcl_Props.v
theories/Fcl_Spec.v
theories/GdCase_Proofs.v
theories/Gd_Model.v
theories/Gd_Proofs.v
theories/Gd_Props.v
theories/Gd_Spec.v
theories/Gds_Model.v
theories/Gds_Proofs.v
theories/Gds_Proofs2.v
theories/Gds_Props.v
theories/Gds_Spec.v
theories/GenCase_Proofs.v
theories/Gen_Model.v
theories/Gen_Proofs.v
theories/Gen_Proofs2.v
theories/Gen_Proofs3.v
theories/Gen_Props.v
theories/Gen_Spec.v
theories/Gmres_Model.v
theories/Gmres_Proofs.v
theories/Gmres_Props.v
theories/Gmres_Spec.v
theories/Gs_Proofs.v
theories/Harm_Model.v
theories/Harm_Proofs.v
theories/Harm_Props.v
theories/Harm_Spec.v
theories/Hdf_Model.v
theories/Hdf_Proofs.v
theories/Hdf_Proofs2.v
theories/Hdf_Proofs3.v
theories/Hdf_Props.v
theories/Hdf_Spec.v
theories/Homog_Proofs.v
theories/Ilut_Model.v
theories/Ilut_Proofs.v
theories/Ilut_Proofs2.v
theories/Ilut_Proofs3.v
theories/Ilut_Proofs4.v
theories/Ilut_Proofs5.v
theories/Ilut_Props.v
theories/Ilut_Spec.v
theories/IterConv_Proofs.v
theories/Iter_Model.v
theories/Iter_Proofs.v
theories/Iter_Props.v
theories/Iter_Spec.v
theories/Kinetics_Model.v
theories/Kinetics_Proofs.v
theories/Kinetics_Props.v
theories/Kinetics_Spec.v
theories/Loop.v
theories/Lra_Model.v
theories/Lra_Proofs.v
theories/Lra_Proofs2.v
theories/Lra_Props.v
theories/Lra_Spec.v
theories/Manager_Model.v
theories/Manager_Proofs.v
theories/Manager_Props.v
theories/Manager_Spec.v
theories/Material_Model.v
theories/Material_Proofs.v
theories/Material_Props.v
theories/Material_Spec.v
theories/Matrix_Model.v
theories/Matrix_Proofs.v
theories/Matrix_Props.v
theories/Matrix_Spec.v
theories/Mesh_Model.v
theories/Mesh_Proofs.v
theories/Mesh_Props.v
theories/Mesh_Spec.v
theories/MgkCase_Proofs.v
theories/Mgk_Model.v
theories/Mgk_Proofs.v
theories/Mgk_Props.v
theories/Mgk_Spec.v
theories/Orthog_Cases.v
theories/Orthog_Contin.v
theories/Orthog_Discrete.v
theories/Orthog_Gs.v
theories/Orthog_Legendre.v
theories/Orthog_Model.v
theories/Orthog_Proofs.v
theories/Orthog_Props.v
theories/Orthog_Spec.v
theories/Parser_Model.v
theories/Parser_Proofs.v
theories/Parser_Proofs2.v
theories/Parser_Props.v
theories/Parser_Spec.v
theories/PiConv_Proofs.v
theories/PiEig_Proofs.v
theories/PiGs_Proofs.v
theories/PiLinear_Proofs.v
theories/PiPos_Proofs.v
theories/Pi_Proofs.v
theories/Pi_Props.v
theories/Pi_Spec.v
theories/Picture_Model.v
theories/Picture_Proofs.v
theories/Picture_Proofs2.v
theories/Picture_Proofs3.v
theories/Picture_Proofs4.v
theories/Picture_Proofs5.v
theories/Picture_Props.v
theories/Picture_Spec.v
theories/Pin_Model.v
theories/Pin_Proofs.v
theories/Pin_Proofs2.v
theories/Pin_Proofs3.v
theories/Pin_Proofs4.v
theories/Pin_Proofs5.v
theories/Pin_Proofs6.v
theories/Pin_Proofs7.v
theories/Pin_Proofs8.v
theories/Pin_Props.v
theories/Pin_Spec.v
theories/Power_Proofs.v
theories/Precond_Proofs.v
theories/Region_Model.v
theories/Region_Proofs.v
theories/Region_Props.v
theories/Region_Spec.v
theories/Rom_Model.v
theories/Rom_Proofs.v
theories/Rom_Props.v
theories/Rom_Spec.v
theories/Select_Model.v
theories/Select_Proofs.v
theories/Select_Proofs2.v
theories/Select_Props.v
theories/Select_Spec.v
theories/Solver_Model.v
theories/Solver_Proofs.v
theories/Solver_Props.v
theories/Solver_Spec.v
theories/SourceAll_Proofs.v
theories/Source_Model.v
theories/Source_Proofs.v
theories/Source_Props.v
theories/Source_Spec.v
theories/Spc_Model.v
theories/Spc_Proofs.v
theories/Spc_Proofs2.v
theories/Spc_Props.v
theories/Spc_Spec.v
theories/SweepAll_Proofs.v
theories/SweepBalance_Proofs.v
theories/SweepInst_Proofs.v
theories/SweepLinear_Proofs.v
theories/Sweep_Model.v
theories/Sweep_Proofs.v
theories/Sweep_Props.v
theories/Sweep_Spec.v
theories/TablesInt_Proofs.v
theories/Tables_Model.v
theories/Tables_Proofs.v
theories/Tables_Proofs2.v
theories/Tables_Proofs3.v
theories/Tables_Proofs4.v
theories/Tables_Props.v
theories/Tables_Spec.v
theories/Tally_Model.v
theories/Tally_Proofs.v
theories/Tally_Proofs2.v
theories/Tally_Proofs3.v
theories/Tally_Proofs4.v
theories/Tally_Proofs5.v
theories/Tally_Proofs6.v
theories/Tally_Proofs7.v
theories/Tally_Props.v
theories/Tally_Spec.v
theories/Tiling_Proofs.v
theories/Tmat_Model.v
theories/Tmat_Proofs.v
theories/Tmat_Proofs2.v
theories/Tmat_Props.v
theories/Tmat_Spec.v
theories/Tracker_Model.v
theories/Tracker_Proofs.v
theories/Tracker_Proofs10.v
theories/Tracker_Proofs2.v
theories/Tracker_Proofs3.v
theories/Tracker_Proofs4.v
theories/Tracker_Proofs5.v
theories/Tracker_Proofs6.v
theories/Tracker_Proofs7.v
theories/Tracker_Proofs8.v
theories/Tracker_Proofs9.v
theories/Tracker_Props.v
theories/Tracker_Spec.v
theories/Util_Model.v
theories/Util_Proofs.v
theories/Util_Props.v
theories/Util_Spec.v
theories/Vector_Model.v
theories/Vector_Proofs.v
theories/Vector_Props.v
theories/Vector_Spec.v
theories/Walk_Model.v
theories/Walk_Proofs.v
theories/Walk_Props.v
theories/Walk_Spec.v
theories/WgCase_Proofs.v
theories/Wg_Proofs.v
theories/Wg_Props.v
theories/Wg_Spec.v

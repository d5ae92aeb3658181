-Q theories Verif
theories/Py.v
theories/Alg.v
theories/ListX.v
theories/NdArray_Model.v
theories/NdArray_Proof.v
theories/Contract_Model.v
theories/Contract_Spec.v
theories/Contract_Proof.v
theories/Mode_Proof.v
theories/Projector_Proof.v
theories/Contract_Prop.v
theories/Ord.v
theories/Svd_Model.v
theories/Svd_Spec.v
theories/Svd_Proof.v
theories/Svd_Prop.v
theories/Tools_Model.v
theories/Tools_Spec.v
theories/Tools_Proof.v
theories/Tools_Prop.v
theories/Net_Model.v
theories/Net_Spec.v
theories/Trav_Proof.v
theories/Acyc_Proof.v
theories/Link_Spec.v
theories/Link_Proof.v
theories/Graph_Prop.v
theories/Units_Model.v
theories/Units_Spec.v
theories/Units_Proof.v
theories/Units_Prop.v
theories/Tri_Model.v
theories/Tri_Spec.v
theories/Tri_Proof.v
theories/Tri_Prop.v
theories/Env_Spec.v
theories/Env_Proof.v
theories/TEnv_Proof.v
theories/EnvSem_Proof.v
theories/EnvThm_Proof.v
theories/Env_Prop.v
theories/Vec_Spec.v
theories/Vec_Proof.v
theories/Vec_Prop.v
theories/Gen_Spec.v
theories/Gen_Proof.v
theories/Gen_Prop.v
theories/Sweep_Model.v
theories/Sweep_Spec.v
theories/Sweep_Proof.v
theories/Unite_Proof.v
theories/Rsplit_Proof.v
theories/Sweep_Prop.v
theories/Move_Spec.v
theories/Split_Proof.v
theories/Relink_Proof.v
theories/Move_Proof.v
theories/MoveRoot_Proof.v
theories/Pair_Proof.v
theories/State_Spec.v
theories/State_Proof.v
theories/Round_Proof.v
theories/Contraction_Proof.v
theories/Move_Prop.v
theories/Mid_Proof.v
theories/Cache_Model.v
theories/Cache_Spec.v
theories/Cache_Proof.v
theories/CacheExact_Proof.v
theories/CacheMove_Proof.v
theories/Cache_Prop.v
theories/Propagate_Model.v
theories/Propagate_Spec.v
theories/Propagate_Proof.v
theories/Propagate_Prop.v
theories/Heom_Model.v
theories/Heom_Spec.v
theories/Heom_Proof.v
theories/HeomThm_Proof.v
theories/Heom_Prop.v
theories/Cplx.v
theories/Normalize_Model.v
theories/Normalize_Spec.v
theories/Normalize_Proof.v
theories/Normalize_Prop.v
theories/Template_Model.v
theories/Template_Spec.v
theories/Template_Proof.v
theories/TplChain_Proof.v
theories/TplAuto_Proof.v
theories/HuffName_Proof.v
theories/TplTree_Proof.v
theories/Template_Prop.v
theories/Mps_Model.v
theories/Mps_Spec.v
theories/Mps_Proof.v
theories/MpsEnv_Proof.v
theories/Heis_Proof.v
theories/Dmrg_Spec.v
theories/Dmrg_Proof.v
theories/DmrgSweep_Proof.v
theories/Mps_Prop.v
theories/Corr_Model.v
theories/Corr_Spec.v
theories/Corr_Proof.v
theories/Corr_Prop.v
theories/Phonon_Model.v
theories/Phonon_Spec.v
theories/Phonon_Proof.v
theories/Phonon_Prop.v
theories/Dvr_Model.v
theories/Dvr_Spec.v
theories/Dvr_Proof.v
theories/Dvr2_Proof.v
theories/Dvr3_Proof.v
theories/Dvr_Prop.v
theories/PoDvr_Model.v
theories/PoDvr_Spec.v
theories/PoDvr_Proof.v
theories/PoDvr_Prop.v
theories/Davidson_Model.v
theories/Davidson_Spec.v
theories/Davidson_Proof.v
theories/Davidson_Prop.v
theories/MlInit_Model.v
theories/MlInit_Spec.v
theories/MlInit_Proof.v
theories/MlInit_Prop.v
theories/Spin_Model.v
theories/Spin_Spec.v
theories/Spin_Proof.v
theories/Spin_Prop.v
theories/NetState_Model.v
theories/NetState_Spec.v
theories/NetState_Proof.v
theories/NetState_Prop.v
theories/Grid_Model.v
theories/Grid_Spec.v
theories/Grid_Proof.v
theories/Grid_Prop.v
theories/CorrX_Spec.v
theories/CorrX_Proof.v
theories/CorrX_Prop.v
theories/Eom_Spec.v
theories/Eom_Proof.v
theories/Eom_Model.v
theories/EomRate_Proof.v
theories/Eom_Prop.v
theories/Expect_Model.v
theories/Expect_Spec.v
theories/Expect_Proof.v
theories/Expect_Prop.v
theories/Reroot_Proof.v
theories/Direct_Model.v
theories/Direct_Spec.v
theories/DirectAlg_Proof.v
theories/DirectSem_Proof.v
theories/DirectGrad_Proof.v
theories/DirectRun_Proof.v
theories/DirectThm_Proof.v
theories/Direct_Prop.v
theories/Flow_Spec.v
theories/Flow_Proof.v
theories/Flow_Prop.v
theories/Huff_Spec.v
theories/Huff_Proof.v
theories/Huff_Prop.v
theories/Mctdh_Model.v
theories/Mctdh_Spec.v
theories/Kron_Proof.v
theories/Mctdh_Proof.v
theories/Mctdh_Prop.v
theories/Pade_Spec.v
theories/Pade_Proof.v
theories/PadeSeries_Proof.v
theories/PadeRoots_Proof.v
theories/Matsubara_Proof.v
theories/BoseFermi_Model.v
theories/BoseFermi_Proof.v
theories/BoseFermi_Prop.v
theories/Sbm_Spec.v
theories/Sbm_Model.v
theories/Sbm_Proof.v
theories/Sbm_Prop.v
theories/Spd_Spec.v
theories/Spd_Model.v
theories/Spd_Prop.v
theories/DenseH_Model.v
theories/DenseH_Proof.v
theories/DenseH_Prop.v
theories/Auto_Spec.v
theories/Auto_Model.v
theories/Auto_Proof.v
theories/Auto_Prop.v
theories/Rk4_Spec.v
theories/Rk4_Model.v
theories/Rk4_Proof.v
theories/Rk4Thm_Proof.v
theories/Rk4_Prop.v
theories/Ode_Spec.v
theories/Ode_Model.v
theories/Ode_Proof.v
theories/OdeThm_Proof.v
theories/OdeUpd_Proof.v
theories/OdeLoop_Proof.v
theories/Ode_Prop.v
theories/Ps_Spec.v
theories/Ps_Model.v
theories/Ps_Proof.v
theories/PsMove_Proof.v
theories/PsRight_Proof.v
theories/Ps_Prop.v
theories/Seom_Model.v
theories/Seom_Spec.v
theories/Seom_Proof.v
theories/SeomRate_Proof.v
theories/Seom_Prop.v
theories/Start_Model.v
theories/Start_Spec.v
theories/Start_Proof.v
theories/Start_Prop.v
theories/March_Model.v
theories/March_Spec.v
theories/MarchLin_Proof.v
theories/March_Proof.v
theories/MarchMore_Proof.v
theories/MarchTree_Proof.v
theories/March_Prop.v
theories/SpinGraph_Model.v
theories/SpinGraph_Spec.v
theories/SpinGraph_Proof.v
theories/SpinAux_Proof.v
theories/SpinGraph_Prop.v
theories/Wave_Model.v
theories/Wave_Spec.v
theories/Wave_Proof.v
theories/WaveNorm_Proof.v
theories/WaveMore_Proof.v
theories/Wave_Prop.v
theories/HeomGrid_Model.v
theories/HeomGrid_Spec.v
theories/HeomGrid_Proof.v
theories/HeomGrid2_Proof.v
theories/HeomGrid3_Proof.v
theories/HeomGrid_Prop.v
theories/SbmDense_Model.v
theories/SbmDense_Spec.v
theories/SbmDense_Proof.v
theories/SbmDense_Prop.v
theories/Ft_Model.v
theories/Ft_Spec.v
theories/Ft_Proof.v
theories/FtTree_Proof.v
theories/FtSearch_Proof.v
theories/FtThermal_Proof.v
theories/Ft_Prop.v
theories/Step_Model.v
theories/Step_Spec.v
theories/Step_Proof.v
theories/StepRun_Proof.v
theories/Step_Prop.v
theories/Norm_Spec.v
theories/NormAlg_Proof.v
theories/Norm_Proof.v
theories/NormRun_Proof.v
theories/NormEnd_Proof.v
theories/Norm_Prop.v
theories/Last_Spec.v
theories/MlGen_Model.v
theories/MlGen_Proof.v
theories/MlGen_Prop.v
theories/Discretise_Model.v
theories/Discretise_Spec.v
theories/Discretise_Proof.v
theories/Discretise_Prop.v
theories/Angle_Model.v
theories/Angle_Spec.v
theories/Angle_Proof.v
theories/Angle_Prop.v
theories/Herm_Model.v
theories/Herm_Spec.v
theories/Herm_Proof.v
theories/Herm_Prop.v
theories/Cas_Model.v
theories/Cas_Spec.v
theories/Cas_Proof.v
theories/Cas_Prop.v
theories/Window_Model.v
theories/Window_Spec.v
theories/Window_Prop.v
theories/Krylov_Model.v
theories/Krylov_Spec.v
theories/Krylov_Prop.v
theories/Gauss_Model.v
theories/Gauss_Spec.v
theories/Gauss_Proof.v
theories/Gauss_Prop.v
theories/Dobj_Model.v
theories/Dobj_Spec.v
theories/Dobj_Prop.v
theories/PoMean_Model.v
theories/PoMean_Spec.v
theories/PoMean_Prop.v
theories/Config_Model.v
theories/Config_Spec.v
theories/Config_Prop.v
theories/HeomExp_Model.v
theories/HeomExp_Spec.v
theories/HeomExp_Prop.v

-Q theories Verif
theories/Prelude.v
theories/Prelude_Proofs.v
theories/Scalar.v
theories/RealLib.v
theories/Ieee_Model.v
theories/Ieee_Proofs.v
theories/Ieee_Props.v
theories/Misc_Model.v
theories/Misc_Proofs.v
theories/Misc_Props.v
theories/Raw_Model.v
theories/Raw_Spec.v
theories/Raw_Proofs.v
theories/RawMat_Proofs.v
theories/RawReal_Proofs.v
theories/Tdrc_Model.v
theories/Tdrc_Proofs.v
theories/Raw_Props.v
theories/VecMat_Model.v
theories/VecMat_Spec.v
theories/VecMat_Proofs.v
theories/VecMat2_Proofs.v
theories/VecMat3_Proofs.v
theories/VecMat_Props.v
theories/Pex_Model.v
theories/Pex_Spec.v
theories/Pex_Proofs.v
theories/Pex_Props.v
theories/Complex_Model.v
theories/Complex_Spec.v
theories/Complex_Proofs.v
theories/Complex2_Proofs.v
theories/Complex_Props.v
theories/Collect_Model.v
theories/Collect_Spec.v
theories/Collect_Proofs.v
theories/Collect_Props.v
theories/Fmat.v
theories/Fmat_Proofs.v
theories/Safe.v
theories/LE_Model.v
theories/LE_Proofs.v
theories/LE2_Proofs.v
theories/LE3_Proofs.v
theories/LE4_Proofs.v
theories/LE5_Proofs.v
theories/LE6_Proofs.v
theories/LE_Spec.v
theories/Det_Proofs.v
theories/LE7_Proofs.v
theories/LE8_Proofs.v
theories/LE9_Proofs.v
theories/LE_Props.v
theories/Graph_Model.v
theories/Graph_Spec.v
theories/Graph_Proofs.v
theories/Graph_Props.v
theories/FFT_Model.v
theories/FFT_Spec.v
theories/FFT_Proofs.v
theories/FFT2_Proofs.v
theories/FFT_Props.v
theories/PexStr_Model.v
theories/PexStr_Props.v
theories/IP_Model.v
theories/IP_Spec.v
theories/IP_Proofs.v
theories/IP2_Proofs.v
theories/IP3_Proofs.v
theories/IP4_Proofs.v
theories/IP5_Proofs.v
theories/IP_Props.v
theories/Curve_Model.v
theories/Curve_Proofs.v
theories/Curve2_Proofs.v
theories/Curve_Props.v
theories/Nurbs_Model.v
theories/Nurbs_Spec.v
theories/Nurbs_Proofs.v
theories/Nurbs2_Proofs.v
theories/Nurbs3_Proofs.v
theories/Nurbs4_Proofs.v
theories/Nurbs5_Proofs.v
theories/Nurbs_Props.v
theories/Stat_Model.v
theories/Stat_Proofs.v
theories/Stat2_Proofs.v
theories/Stat3_Proofs.v
theories/Stat4_Proofs.v
theories/Stat_Props.v
theories/Ode_Model.v
theories/Ode_Spec.v
theories/Ode_Proofs.v
theories/Ode2_Proofs.v
theories/Ode3_Proofs.v
theories/Ode4_Proofs.v
theories/Ode5_Proofs.v
theories/Ode6_Proofs.v
theories/Ode7_Proofs.v
theories/Ode_Props.v
theories/Root_Model.v
theories/Root_Spec.v
theories/Root_Proofs.v
theories/Root2_Proofs.v
theories/Root_Props.v
theories/Vop.v
theories/Qp_Model.v
theories/Qp_Spec.v
theories/Qp_Proofs.v
theories/Qp2_Proofs.v
theories/Qp_Props.v
theories/Nle_Model.v
theories/Nle_Proofs.v
theories/Nle_Props.v
theories/Eig_Model.v
theories/Eig_Spec.v
theories/Eig_Proofs.v
theories/Eig2_Proofs.v
theories/Eig3_Proofs.v
theories/Eig4_Proofs.v
theories/Eig5_Proofs.v
theories/Eig6_Proofs.v
theories/Eig7_Proofs.v
theories/Eig_Props.v
theories/Lp_Spec.v
theories/Lp_Model.v
theories/Lp_Proofs.v
theories/Lp2_Proofs.v
theories/Lp3_Proofs.v
theories/Lp4_Proofs.v
theories/Lp5_Proofs.v
theories/Lp6_Proofs.v
theories/Lp7_Proofs.v
theories/Lp_Props.v
theories/Cluster_Model.v
theories/Cluster_Spec.v
theories/Cluster_Proofs.v
theories/Cluster2_Proofs.v
theories/Cluster3_Proofs.v
theories/Cluster4_Proofs.v
theories/Cluster5_Proofs.v
theories/Cluster_Props.v
theories/Cluster2_Props.v
theories/Rrt_Model.v
theories/Rrt_Spec.v
theories/Rrt_Proofs.v
theories/Rrt2_Proofs.v
theories/Rrt3_Proofs.v
theories/Rrt_Props.v
theories/Gng_Model.v
theories/Gng_Spec.v
theories/Gng_Proofs.v
theories/Gng2_Proofs.v
theories/Gng3_Proofs.v
theories/Gng4_Proofs.v
theories/Gng_Props.v
theories/Parse_Model.v
theories/Parse_Spec.v
theories/Parse_Proofs.v
theories/Parse2_Proofs.v
theories/Parse_Props.v
theories/Ransac_Model.v
theories/Ransac_Spec.v
theories/Ransac_Proofs.v
theories/Ransac_Props.v
theories/Pso_Model.v
theories/Pso_Spec.v
theories/Pso_Proofs.v
theories/Pso_Props.v
theories/Nm_Model.v
theories/Nm_Spec.v
theories/Nm_Proofs.v
theories/Nm_Props.v
theories/Ga_Model.v
theories/Ga_Spec.v
theories/Ga_Proofs.v
theories/Ga2_Proofs.v
theories/Ga_Props.v
theories/Osc_Model.v
theories/Osc_Proofs.v
theories/Osc_Props.v
theories/Rand_Model.v
theories/Rand_Proofs.v
theories/Rand_Props.v
theories/Gen_Model.v
theories/Gen_Spec.v
theories/Gen_Proofs.v
theories/Gen2_Proofs.v
theories/Gen_Props.v
theories/Gen3_Proofs.v
theories/Gen4_Proofs.v
theories/Gen5_Proofs.v
theories/Gen2_Props.v
theories/Direct_Model.v
theories/Direct_Spec.v
theories/Direct_Proofs.v
theories/Direct2_Proofs.v
theories/Direct3_Proofs.v
theories/Direct_Props.v
theories/PexEq_Model.v
theories/PexEq_Spec.v
theories/PexEq_Proofs.v
theories/PexEq2_Proofs.v
theories/PexEq3_Proofs.v
theories/PexEq_Props.v
theories/Cheb_Model.v
theories/Cheb_Spec.v
theories/Cheb_Proofs.v
theories/Cheb2_Proofs.v
theories/Cheb3_Proofs.v
theories/Cheb_Props.v
theories/Four_Model.v
theories/Four_Props.v
theories/Sf_Model.v
theories/Sf_Proofs.v
theories/Sf2_Proofs.v
theories/Sf_Props.v
theories/Stab_Proofs.v
theories/Small_Props.v
theories/Asm_Model.v
theories/Asm_Spec.v
theories/Asm_Proofs.v
theories/Asm2_Proofs.v
theories/Asm3_Proofs.v
theories/Asm_Props.v
theories/Lcpip_Model.v
theories/Lcpip_Spec.v
theories/Lcpip_Proofs.v
theories/Lcpip2_Proofs.v
theories/Lcpip_Props.v
theories/Dm_Model.v
theories/Dm_Spec.v
theories/Dm_Proofs.v
theories/Dm2_Proofs.v
theories/Dm3_Proofs.v
theories/Dm_Props.v
theories/Pdip_Model.v
theories/Pdip_Spec.v
theories/Pdip_Proofs.v
theories/Pdip_Props.v
theories/Gmm_Model.v
theories/Gmm_Spec.v
theories/Gmm_Proofs.v
theories/Gmm2_Proofs.v
theories/Gmm3_Proofs.v
theories/Gmm4_Proofs.v
theories/Gmm5_Proofs.v
theories/Gmm_Props.v
theories/Mega_Model.v
theories/Mega_Spec.v
theories/Mega_Proofs.v
theories/Mega2_Proofs.v
theories/Mega3_Proofs.v
theories/Mega4_Proofs.v
theories/Mega5_Proofs.v
theories/Mega_Props.v
theories/Bes_Tables.v
theories/Bes_Model.v
theories/Bes_Spec.v
theories/Bes_Proofs.v
theories/Bes2_Proofs.v
theories/Bes3_Proofs.v
theories/Bes4_Proofs.v
theories/Bes5_Proofs.v
theories/Bes6_Proofs.v
theories/Bes7_Proofs.v
theories/Bes_Props.v
theories/Hess_Model.v
theories/Hess_Spec.v
theories/Hess_Proofs.v
theories/Hess2_Proofs.v
theories/Hess3_Proofs.v
theories/Hess_Props.v
theories/Iter_Spec.v
theories/Iter_Model.v
theories/Iter_Proofs.v
theories/Iter2_Proofs.v
theories/Iter_Props.v
theories/Pca_Model.v
theories/Pca_Spec.v
theories/Pca_Proofs.v
theories/Pca_Props.v
theories/Cmat_Model.v
theories/Cmat_Spec.v
theories/Cmat_Proofs.v
theories/Cmat_Props.v
theories/Sturm_Model.v
theories/Sturm_Spec.v
theories/Sturm_Proofs.v
theories/Sturm2_Proofs.v
theories/Sturm_Props.v
theories/Func_Model.v
theories/Func_Props.v
theories/Near_Model.v
theories/Near_Proofs.v
theories/Near_Props.v
theories/VSum_Model.v
theories/VSum_Props.v
theories/CStr_Model.v
theories/CStr_Props.v
theories/BisV_Model.v
theories/BisV_Props.v
theories/Bic_Model.v
theories/Bic_Props.v
theories/Rnd_Model.v
theories/Rnd_Props.v
theories/Scan_Model.v
theories/Scan_Props.v
theories/Img_Model.v
theories/Img_Props.v
theories/Pexs_Model.v
theories/Pexs_Props.v

-Q theories Verif
theories/Outcome.v
theories/Scalar.v
theories/Matrix_model.v
theories/Transpose_model.v
theories/Vector_model.v
theories/Matrix_spec.v
theories/Matrix_proofs.v
theories/Transpose_proofs.v
theories/Vector_proofs.v
theories/Sums.v
theories/Approx_model.v
theories/Basics_proofs.v
theories/MatProps_proofs.v
theories/VecProps_proofs.v
theories/P_Matrix.v
theories/P_Transpose.v
theories/P_Vector.v
theories/LU_model.v
theories/LU_spec.v
theories/LU_proofs.v
theories/Subst_proofs.v
theories/Det_spec.v
theories/Det_proofs.v
theories/LUProps_proofs.v
theories/QcCompute.v
theories/P_LU.v
theories/P_Det.v
theories/RealOps.v
theories/Decomp_model.v
theories/Spectral_model.v
theories/Spectral_spec.v
theories/Eigen_proofs.v
theories/SVD_proofs.v
theories/SVDIter_proofs.v
theories/EigVec_proofs.v
theories/P_Spectral.v
theories/Decomp_spec.v
theories/Chol_proofs.v
theories/Norm_proofs.v
theories/Ortho_proofs.v
theories/Householder_proofs.v
theories/DecompProps_proofs.v
theories/Reflector_proofs.v
theories/P_Decomp.v
theories/Poly_model.v
theories/Poly_spec.v
theories/Poly_proofs.v
theories/PolyDiv_proofs.v
theories/P_Poly.v
theories/Elem_model.v
theories/Complex_model.v
theories/Complex_proofs.v
theories/ComplexFun_proofs.v
theories/ComplexProps_proofs.v
theories/ComplexHyp_proofs.v
theories/P_Complex.v
theories/Elem_proofs.v
theories/P_Elem.v
theories/Int_model.v
theories/Int_spec.v
theories/F64_spec.v
theories/F64Flocq.v
theories/F64Err_proofs.v
theories/F64Lin_proofs.v
theories/F64Sum_proofs.v
theories/F64Chol_proofs.v
theories/F64Mat_proofs.v
theories/P_Rounding.v
theories/Int_proofs.v
theories/ScalarEq_proofs.v
theories/P_Scalar.v
theories/Ode_model.v
theories/Ode_spec.v
theories/Ode_proofs.v
theories/OdeOrder_proofs.v
theories/OrderExact_proofs.v
theories/Ralston4_proofs.v
theories/OdeConseq_proofs.v
theories/OdeSolve_proofs.v
theories/OdeMulti_proofs.v
theories/BigO_proofs.v
theories/OdeConv_spec.v
theories/OdeConv_proofs.v
theories/OdeLocal_proofs.v
theories/OdeGlobal_proofs.v
theories/OdeConvEx_proofs.v
theories/OdeMultiConv_proofs.v
theories/P_OdeConv.v
theories/P_OdeMultiConv.v
theories/Misc_model.v
theories/Misc_spec.v
theories/Misc_proofs.v
theories/P_Misc.v
theories/P_Ode.v
theories/Problem_model.v
theories/Problem_spec.v
theories/Problem_proofs.v
theories/P_Problem.v
theories/Optim_model.v
theories/Optim_spec.v
theories/Newton_proofs.v
theories/Descent_proofs.v
theories/CG_proofs.v
theories/CGRate_proofs.v
theories/LM_proofs.v
theories/OptimEx_proofs.v
theories/OptimEx2_proofs.v
theories/GNLocal_proofs.v
theories/Convex_proofs.v
theories/NewtonMin_proofs.v
theories/LMConv_proofs.v
theories/P_Optim.v
theories/Special_model.v
theories/Stat_model.v
theories/Stat_spec.v
theories/Combin_proofs.v
theories/Discrete_proofs.v
theories/Continuous_proofs.v
theories/Gauss_proofs.v
theories/Normal_proofs.v
theories/Sample_proofs.v
theories/Special_proofs.v
theories/GammaTerm_proofs.v
theories/GammaFun_proofs.v
theories/GammaDist_proofs.v
theories/StatExtra_proofs.v
theories/StatNew_proofs.v
theories/Special_spec.v
theories/SpecialNew_proofs.v
theories/Digamma_proofs.v
theories/TDist_proofs.v
theories/Soper_proofs.v
theories/Stirling_proofs.v
theories/Lanczos_proofs.v
theories/LanczosAcc_proofs.v
theories/LnGammaAcc_proofs.v
theories/Reflection_proofs.v
theories/GammaAll_proofs.v
theories/GammaCF_proofs.v
theories/GammaLr_proofs.v
theories/DistAcc_proofs.v
theories/PolyDom_proofs.v
theories/QuantGen_proofs.v
theories/ErfInv_proofs.v
theories/ErfInvAcc_proofs.v
theories/ErfInvMain_proofs.v
theories/GammaInv_proofs.v
theories/BetaAcc_proofs.v
theories/TMoments_proofs.v
theories/TCdf_proofs.v
theories/GaussSum_proofs.v
theories/P_Discrete.v
theories/P_Continuous.v
theories/P_Tests.v
theories/P_Gamma.v
theories/ErfInv32_proofs.v
theories/P_Special.v
theories/Alg_model.v
theories/Alg_proofs.v
theories/P_Algebra.v
theories/OdeImpl_spec.v
theories/OdeImplConv_proofs.v
theories/P_OdeImpl.v
theories/OdeAdapt_proofs.v
theories/P_OdeAdapt.v
theories/F64Grid_proofs.v
theories/P_F64Grid.v
theories/F64Term_proofs.v
theories/F64Multi_proofs.v
theories/P_F64Term.v
theories/F64Ode_spec.v
theories/F64Euler_proofs.v
theories/F64EulerEx_proofs.v
theories/P_F64Ode.v
theories/F64RK_proofs.v
theories/F64RKTab_proofs.v
theories/F64RKEx_proofs.v
theories/P_F64RK.v
theories/LocalError_proofs.v
theories/F64RKTotal_proofs.v
theories/P_F64Total.v
theories/F64QR_spec.v
theories/F64QR_proofs.v
theories/F64QREx_proofs.v
theories/F64QRCol_proofs.v
theories/P_F64QR.v
theories/F64Cplx_spec.v
theories/F64Cplx_proofs.v
theories/F64Libm_proofs.v
theories/F64CplxEx_proofs.v
theories/P_F64Cplx.v
theories/F64Digamma_proofs.v
theories/P_F64Digamma.v
theories/F64Stat_spec.v
theories/F64Var_proofs.v
theories/F64Dist_proofs.v
theories/F64ExpDist_proofs.v
theories/F64Det_spec.v
theories/F64Det_proofs.v
theories/P_F64Stat.v
theories/P_F64Solve.v
theories/F64AB_spec.v
theories/F64AB_proofs.v
theories/F64ABEx_proofs.v
theories/P_F64AB.v
theories/F64Adapt_spec.v
theories/F64Adapt_proofs.v
theories/F64AdaptEx_proofs.v
theories/P_F64Adapt.v
theories/F64AdaptTotal_proofs.v
theories/F64AdaptTotalEx_proofs.v
theories/P_F64AdaptTotal.v
theories/F32_model.v
theories/F32_spec.v
theories/F32Flocq.v
theories/F32Err_proofs.v
theories/F32Lin_proofs.v
theories/F32Chol_proofs.v
theories/F32Mat_proofs.v
theories/F32Sum_proofs.v
theories/F32Det_spec.v
theories/F32Det_proofs.v
theories/P_F32.v
theories/P_F32Solve.v
theories/F64Newton_spec.v
theories/F64Newton_proofs.v
theories/F64NewtonEx_proofs.v
theories/P_F64Newton.v
theories/F64Descent_proofs.v
theories/P_F64Descent.v
theories/F64Impl_spec.v
theories/F64Impl_proofs.v
theories/F64ImplEx_proofs.v
theories/P_F64Impl.v
theories/F64Norm_spec.v
theories/F64Norm_proofs.v
theories/P_F64Norm.v
theories/F64Gamma_spec.v
theories/F64Gamma_proofs.v
theories/F64GammaFun_proofs.v
theories/F64GammaEx_proofs.v
theories/F64LnGammaSum_proofs.v
theories/F64LnGamma_proofs.v
theories/F64LnGammaEx_proofs.v
theories/P_F64LnGamma.v
theories/F64LnGamma_spec.v
theories/P_F64Gamma.v
theories/F64Density_spec.v
theories/F64Density_proofs.v
theories/F64DensityEx_proofs.v
theories/P_F64Density.v
theories/F64Discrete_proofs.v
theories/P_F64Discrete.v
theories/F64Normal_spec.v
theories/F64Normal_proofs.v
theories/P_F64Normal.v
theories/F64Poly_spec.v
theories/F64Poly_proofs.v
theories/P_F64Poly.v
theories/F64CplxFun_spec.v
theories/F64CplxFun_proofs.v
theories/F64CplxQuot_proofs.v
theories/P_F64CplxFun.v
theories/F64TTest_spec.v
theories/F64TTest_proofs.v
theories/F64TTestEx_proofs.v
theories/P_F64TTest.v

-Q theories Verif
theories/Add_P.v
theories/Add_P2.v
theories/Add_P3.v
theories/Add_P4.v
theories/Add_S.v
theories/Add_T.v
theories/Batch_M.v
theories/Batch_P.v
theories/Batch_P2.v
theories/Batch_P3.v
theories/Batch_T.v
theories/CStep_M.v
theories/CStep_P.v
theories/CStep_P2.v
theories/CStep_P3.v
theories/CStep_P4.v
theories/CStep_S.v
theories/CStep_T.v
theories/Cache_M.v
theories/Cache_P.v
theories/Cache_P2.v
theories/Cache_S.v
theories/Cache_T.v
theories/Cont_P.v
theories/Cont_P2.v
theories/Cont_P3.v
theories/Cont_P4.v
theories/Cont_P5.v
theories/Cont_P6.v
theories/Cont_S.v
theories/Cont_T.v
theories/DirSolve_M.v
theories/DirSolve_P.v
theories/DirSolve_P2.v
theories/DirSolve_P3.v
theories/DirSolve_S.v
theories/DirSolve_T.v
theories/EgoEI_M.v
theories/EgoEI_P.v
theories/EgoEI_S.v
theories/EgoKrg_M.v
theories/EgoKrg_P.v
theories/EgoKrg_P2.v
theories/EgoKrg_P3.v
theories/EgoKrg_T.v
theories/Ego_M.v
theories/Ego_P.v
theories/Ego_T.v
theories/Energy_P.v
theories/Energy_P2.v
theories/Energy_P3.v
theories/Energy_T.v
theories/Far_P.v
theories/Far_P2.v
theories/Far_P3.v
theories/Far_P4.v
theories/Far_S.v
theories/Far_T.v
theories/Fit_M.v
theories/Fit_P.v
theories/Fit_P2.v
theories/Fit_P3.v
theories/Fit_P4.v
theories/Fit_S.v
theories/Fit_T.v
theories/Gauss_P.v
theories/Gek_M.v
theories/Gek_P.v
theories/Gek_P2.v
theories/Gek_S.v
theories/Gek_T.v
theories/GennOpt_M.v
theories/GennOpt_P.v
theories/GennOpt_P2.v
theories/GennOpt_P3.v
theories/GennOpt_S.v
theories/GennOpt_T.v
theories/GennOrd_P.v
theories/GennOrd_P2.v
theories/GennOrd_P3.v
theories/GennOrd_S.v
theories/GennOrd_T.v
theories/GennTrain_M.v
theories/GennTrain_P1.v
theories/GennTrain_P2.v
theories/GennTrain_P3.v
theories/GennTrain_S.v
theories/GennTrain_T.v
theories/GennUnits_S.v
theories/GennUnits_T.v
theories/Genn_M.v
theories/Genn_P1.v
theories/Genn_P2.v
theories/Genn_P3.v
theories/Genn_P4.v
theories/Genn_S.v
theories/Genn_T.v
theories/Het_M.v
theories/Het_P1.v
theories/Het_P2.v
theories/Het_P3.v
theories/Het_P4.v
theories/Het_P5.v
theories/Het_S.v
theories/Het_T.v
theories/HyperOpt_M.v
theories/HyperOpt_M2.v
theories/HyperOpt_P.v
theories/HyperOpt_P2.v
theories/HyperOpt_S.v
theories/HyperOpt_T.v
theories/Idw_M.v
theories/Idw_P.v
theories/Idw_P2.v
theories/Idw_T.v
theories/Index_M.v
theories/Index_P.v
theories/Index_T.v
theories/Inp_P1.v
theories/Inp_P2.v
theories/Inp_P3.v
theories/Inp_P4.v
theories/Inp_P5.v
theories/Inp_P6.v
theories/Inp_S.v
theories/Inp_T.v
theories/Kernels_M.v
theories/Kernels_P.v
theories/Kernels_P2.v
theories/Kernels_P3.v
theories/Kernels_S.v
theories/Kernels_T.v
theories/Kplsk_M.v
theories/Kplsk_P.v
theories/Kplsk_P2.v
theories/Kplsk_S.v
theories/Kplsk_T.v
theories/KrgMulti_M.v
theories/KrgMulti_P.v
theories/KrgMulti_P2.v
theories/KrgMulti_S.v
theories/KrgMulti_T.v
theories/Krg_M.v
theories/Krg_P.v
theories/Krg_P2.v
theories/Krg_P3.v
theories/Krg_P4.v
theories/Krg_P5.v
theories/Krg_P6.v
theories/Krg_P7.v
theories/Krg_P8.v
theories/Krg_Qr.v
theories/Krg_S.v
theories/Krg_T.v
theories/LHS_M.v
theories/LHS_P.v
theories/LHS_S.v
theories/LHS_T.v
theories/LikGrad_M.v
theories/LikGrad_P1.v
theories/LikGrad_P2.v
theories/LikGrad_P3.v
theories/LikGrad_P4.v
theories/LikGrad_S.v
theories/LikGrad_T.v
theories/LinSolve_M.v
theories/LinSolve_P.v
theories/LinSolve_P2.v
theories/LinSolve_P3.v
theories/LinSolve_P4.v
theories/LinSolve_S.v
theories/LinSolve_T.v
theories/Lin_P.v
theories/Lin_T.v
theories/LineSearch_M.v
theories/LineSearch_P.v
theories/LineSearch_P2.v
theories/LineSearch_P3.v
theories/LineSearch_P4.v
theories/LineSearch_T.v
theories/Mat.v
theories/Matern.v
theories/MfkHist_M.v
theories/MfkHist_P.v
theories/MfkHist_P2.v
theories/MfkHist_T.v
theories/MfkUnits_P.v
theories/MfkUnits_P2.v
theories/MfkUnits_P3.v
theories/MfkUnits_P4.v
theories/MfkUnits_P5.v
theories/MfkUnits_P6.v
theories/MfkUnits_P7.v
theories/MfkUnits_P8.v
theories/MfkUnits_S.v
theories/MfkUnits_T.v
theories/MfkVar_M.v
theories/MfkVar_P1.v
theories/MfkVar_P2.v
theories/MfkVar_P3.v
theories/MfkVar_P4.v
theories/MfkVar_P5.v
theories/MfkVar_S.v
theories/MfkVar_T.v
theories/Mfk_M.v
theories/Mfk_P.v
theories/Mfk_P2.v
theories/Mfk_P3.v
theories/Mfk_P4.v
theories/Mfk_P5.v
theories/Mfk_P6.v
theories/Mfk_P7.v
theories/Mfk_S.v
theories/Mfk_T.v
theories/Mgp_M.v
theories/Mgp_P1.v
theories/Mgp_P2.v
theories/Mgp_P3.v
theories/Mgp_P4.v
theories/Mgp_P5.v
theories/Mgp_P6.v
theories/Mgp_P7.v
theories/Mgp_P8.v
theories/Mgp_P9.v
theories/Mgp_S.v
theories/Mgp_T.v
theories/MixInt_M.v
theories/MixInt_P.v
theories/MixInt_S.v
theories/MixInt_T.v
theories/Moe_M.v
theories/Moe_P.v
theories/Moe_P2.v
theories/Moe_P3.v
theories/Moe_S.v
theories/Moe_T.v
theories/Nested_M.v
theories/Nested_P.v
theories/Nested_T.v
theories/Noise_P.v
theories/Noise_T.v
theories/One_P.v
theories/One_P2.v
theories/One_S.v
theories/One_T.v
theories/Options_M.v
theories/Options_P.v
theories/Options_S.v
theories/Options_T.v
theories/Order_P1.v
theories/Order_P2.v
theories/Order_P3.v
theories/Order_P4.v
theories/Order_P5.v
theories/Order_P6.v
theories/Order_S.v
theories/Order_T.v
theories/Poly_M.v
theories/Poly_P.v
theories/Poly_P2.v
theories/Poly_T.v
theories/Printer_M.v
theories/Printer_P.v
theories/Printer_S.v
theories/Printer_T.v
theories/Problems_M.v
theories/Problems_P.v
theories/Problems_P2.v
theories/Problems_P3.v
theories/Problems_P4.v
theories/Problems_S.v
theories/Problems_T.v
theories/Psd.v
theories/Psd2.v
theories/RSum.v
theories/Rbf_M.v
theories/Rbf_P.v
theories/Rbf_S.v
theories/Rbf_T.v
theories/Repro_P.v
theories/Repro_P2.v
theories/Repro_P3.v
theories/Repro_P4.v
theories/Repro_P5.v
theories/Repro_S.v
theories/Repro_T.v
theories/Rms_M.v
theories/Rms_T.v
theories/Rmtb_M.v
theories/Rmtb_P.v
theories/Rmtb_P2.v
theories/Rmtb_P3.v
theories/Rmtb_P4.v
theories/Rmtb_P5.v
theories/Rmtb_S.v
theories/Rmtb_T.v
theories/Rmtc_M.v
theories/Rmtc_P.v
theories/Rmtc_P2.v
theories/Rmtc_P3.v
theories/Rmtc_P4.v
theories/Rmtc_P5.v
theories/Rmtc_S.v
theories/Rmtc_T.v
theories/RmtsMulti_M.v
theories/RmtsMulti_P.v
theories/RmtsMulti_P2.v
theories/RmtsMulti_T.v
theories/RmtsOrder_P.v
theories/RmtsTrain_M.v
theories/RmtsTrain_P.v
theories/RmtsTrain_P2.v
theories/RmtsTrain_P3.v
theories/RmtsTrain_P4.v
theories/RmtsTrain_P5.v
theories/RmtsTrain_T.v
theories/Rot_M.v
theories/Rot_P.v
theories/Rot_P2.v
theories/Rot_T.v
theories/Sampling_M.v
theories/Sampling_P.v
theories/Sampling_S.v
theories/Sampling_T.v
theories/Silence_M.v
theories/Silence_P.v
theories/Silence_T.v
theories/Training_M.v
theories/Training_P.v
theories/Training_P2.v
theories/Training_P3.v
theories/Training_S.v
theories/Training_T.v
theories/Trend_T.v
theories/Tri_M.v
theories/Tri_P.v
theories/Units_P.v
theories/Units_P2.v
theories/Units_P3.v
theories/Units_P4.v
theories/Units_P5.v
theories/Units_P6.v
theories/Units_T.v
theories/Vfm_M.v
theories/Vfm_P.v
theories/Vfm_S.v
theories/Vfm_T.v
theories/Weights_M.v
theories/Weights_P.v
theories/Weights_T.v

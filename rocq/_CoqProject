-Q theories Verif
theories/Al_Model.v
theories/Al_Props.v
theories/Al_Spec.v
theories/Ar_Model.v
theories/Ar_Props.v
theories/Bg_Model.v
theories/Bg_Proofs.v
theories/Bg_Props.v
theories/Bg_Spec.v
theories/Bnd_Model.v
theories/Bnd_Proofs.v
theories/Bnd_Props.v
theories/Bnd_Spec.v
theories/Cf_Model.v
theories/Cf_Props.v
theories/Cg_Model.v
theories/Cg_Proofs.v
theories/Cg_Props.v
theories/Cg_Spec.v
theories/Ch_Model.v
theories/Ch_Props.v
theories/Ch_Spec.v
theories/Cl_Proofs.v
theories/Cl_Props.v
theories/Cl_Spec.v
theories/Cv_Proofs.v
theories/Cv_Props.v
theories/Cv_Spec.v
theories/Cw_Proofs.v
theories/Cw_Props.v
theories/Cw_Spec.v
theories/Cx_Props.v
theories/Cy_Props.v
theories/Cz_Props.v
theories/Db_Model.v
theories/Db_Proofs.v
theories/Db_Props.v
theories/De_Model.v
theories/De_Proofs.v
theories/De_Props.v
theories/De_Spec.v
theories/Dec_Model.v
theories/Dec_Proofs.v
theories/Dec_Props.v
theories/Dec_Spec.v
theories/Df_Model.v
theories/Df_Proofs.v
theories/Df_Props.v
theories/Df_Spec.v
theories/Dist_Model.v
theories/Dist_Proofs.v
theories/Dist_Props.v
theories/Dist_Spec.v
theories/Dl_Model.v
theories/Dl_Proofs.v
theories/Dl_Props.v
theories/Dl_Spec.v
theories/Ds_Model.v
theories/Ds_Proofs.v
theories/Ds_Props.v
theories/Dt_Model.v
theories/Dt_Proofs.v
theories/Dt_Props.v
theories/Dt_Spec.v
theories/Edit_Model.v
theories/Edit_Proofs.v
theories/Edit_Props.v
theories/Edit_Spec.v
theories/Em_Model.v
theories/Em_Proofs.v
theories/Em_Props.v
theories/Em_Spec.v
theories/Ep_Model.v
theories/Ep_Proofs.v
theories/Ep_Props.v
theories/Ep_Spec.v
theories/Ev_Model.v
theories/Ev_Proofs.v
theories/Ev_Props.v
theories/Ev_Spec.v
theories/FB_Model.v
theories/FB_Proofs.v
theories/FB_Props.v
theories/FB_Spec.v
theories/FB_Viterbi.v
theories/Fe_Model.v
theories/Fe_Proofs.v
theories/Fe_Props.v
theories/Fe_Spec.v
theories/Fk_Props.v
theories/Fp_Model.v
theories/Fp_Props.v
theories/Ft_Props.v
theories/Gb_Lang.v
theories/Gb_Loop.v
theories/Gb_Model.v
theories/Gb_Proofs.v
theories/Gb_Props.v
theories/Gb_Spec.v
theories/Gibbs.v
theories/Gl_Model.v
theories/Gl_Proofs.v
theories/Gl_Props.v
theories/Gl_Spec.v
theories/Gn_Proofs.v
theories/Gn_Props.v
theories/Gn_Spec.v
theories/Gp_Proofs.v
theories/Gp_Props.v
theories/Gp_Spec.v
theories/Gr_Props.v
theories/Graph_Eps.v
theories/Graph_Hist.v
theories/Graph_Lang.v
theories/Graph_Model.v
theories/Graph_Proofs.v
theories/Graph_Props.v
theories/Graph_Spec.v
theories/Gs_Model.v
theories/Gs_Obj.v
theories/Gs_Proofs.v
theories/Gs_Props.v
theories/Gs_Spec.v
theories/Gx_Proofs.v
theories/Gx_Props.v
theories/Gx_Spec.v
theories/HMM_Model.v
theories/HMM_Proofs.v
theories/HMM_Props.v
theories/HMM_Spec.v
theories/Hg_Model.v
theories/Hg_Props.v
theories/Hs_Model.v
theories/Hs_Proofs.v
theories/Hs_Props.v
theories/In_Model.v
theories/In_Props.v
theories/Info_Proofs.v
theories/Jb_Model.v
theories/Jb_Props.v
theories/KL_Proofs.v
theories/LMat.v
theories/La_Model.v
theories/La_Props.v
theories/Lb_Model.v
theories/Lb_Props.v
theories/Lg_Model.v
theories/Lg_Proofs.v
theories/Lg_Props.v
theories/Lg_Spec.v
theories/Lgamma.v
theories/Llh_Proofs.v
theories/Lr_Model.v
theories/Lr_Props.v
theories/Lr_Spec.v
theories/MF_Model.v
theories/MF_Proofs.v
theories/MF_Props.v
theories/MF_Spec.v
theories/Map_Model.v
theories/Map_Proofs.v
theories/Map_Props.v
theories/Map_Spec.v
theories/Mat.v
theories/MatDet.v
theories/Mi_Props.v
theories/Mo_Model.v
theories/Mo_Props.v
theories/Mo_Spec.v
theories/Mx_Model.v
theories/Mx_Proofs.v
theories/Mx_Props.v
theories/Mx_Spec.v
theories/NG_Proofs.v
theories/NW_KL.v
theories/NW_Llh.v
theories/NW_Model.v
theories/NW_Proofs.v
theories/NW_Props.v
theories/NW_Spec.v
theories/Na_Model.v
theories/Na_Proofs.v
theories/Na_Props.v
theories/Na_Spec.v
theories/Nc_Model.v
theories/Nc_Props.v
theories/Nn_Model.v
theories/Nn_Proofs.v
theories/Nn_Props.v
theories/Nn_Spec.v
theories/Opt_Model.v
theories/Opt_Pipe.v
theories/Opt_Proofs.v
theories/Opt_Props.v
theories/Opt_Spec.v
theories/Pa_Model.v
theories/Pa_Proofs.v
theories/Pa_Props.v
theories/Pa_Rank.v
theories/Pa_Spec.v
theories/Pl_Model.v
theories/Pl_Props.v
theories/Po_Model.v
theories/Po_Props.v
theories/Pp_Model.v
theories/Pp_Proofs.v
theories/Pp_Props.v
theories/Pp_Spec.v
theories/Prelude.v
theories/Pw_Model.v
theories/Pw_Proofs.v
theories/Pw_Props.v
theories/Pw_Spec.v
theories/Rc_Model.v
theories/Rc_Proofs.v
theories/Rc_Props.v
theories/Rp_Graph.v
theories/Rp_Model.v
theories/Rp_Proofs.v
theories/Rp_Props.v
theories/Rp_Spec.v
theories/Rp_Start.v
theories/Rs_Model.v
theories/Rs_Proofs.v
theories/Rs_Props.v
theories/SB_Model.v
theories/SB_Proofs.v
theories/SB_Props.v
theories/SB_Spec.v
theories/Seg_Model.v
theories/Seg_Proofs.v
theories/Seg_Props.v
theories/Seg_Spec.v
theories/Set_Index.v
theories/Set_Model.v
theories/Set_Proofs.v
theories/Set_Props.v
theories/Set_Spec.v
theories/Sk_Model.v
theories/Sk_Proofs.v
theories/Sk_Props.v
theories/Sk_Spec.v
theories/Smp_Props.v
theories/Sp_Model.v
theories/Sp_Proofs.v
theories/Sp_Props.v
theories/Ss_Model.v
theories/Ss_Proofs.v
theories/Ss_Props.v
theories/Ss_Spec.v
theories/Tr_Model.v
theories/Tr_Props.v
theories/Tv_Model.v
theories/Tv_Proofs.v
theories/Tv_Props.v
theories/Tv_Spec.v
theories/Ut_Model.v
theories/Ut_Proofs.v
theories/Ut_Props.v
theories/Ut_Spec.v
theories/Va_Model.v
theories/Va_Proofs.v
theories/Va_Props.v
theories/Va_Spec.v
theories/Vec.v
theories/Vh_Model.v
theories/Vh_Proofs.v
theories/Vh_Props.v
theories/Vh_Spec.v
theories/Vl_Model.v
theories/Vl_Proofs.v
theories/Vl_Props.v
theories/Vl_Spec.v
theories/Vt_Model.v
theories/Vt_Proofs.v
theories/Vt_Props.v
theories/Vt_Spec.v
theories/Xf_Model.v
theories/Xf_Proofs.v
theories/Xf_Props.v
theories/Xl_Proofs.v
theories/Xl_Props.v
theories/Zp_Model.v
theories/Zp_Proofs.v
theories/Zp_Props.v

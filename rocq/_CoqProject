-Q theories Verif
theories/Base.v
theories/Bounds_Model.v
theories/Bounds_Spec.v
theories/Bounds_Proofs.v
theories/Bounds_Props.v
theories/MSum.v
theories/Array_Model.v
theories/Wrap_Model.v
theories/Wrap_Spec.v
theories/Wrap_Proofs.v
theories/Wrap_Props.v
theories/Image_Model.v
theories/Image_Spec.v
theories/Image_Proofs.v
theories/Image_Example.v
theories/Image_Props.v
theories/FFT_Model.v
theories/FFT_Spec.v
theories/FFT_Proofs.v
theories/FFT_Props.v
theories/Draw_Model.v
theories/Draw_Spec.v
theories/Draw_Proofs.v
theories/Draw_Props.v
theories/Photon_Model.v
theories/Photon_Spec.v
theories/Photon_Lists.v
theories/Photon_Proofs.v
theories/Photon_Conv.v
theories/Photon_AddTo.v
theories/Photon_More.v
theories/Photon_Props.v
theories/RNG_Model.v
theories/RNG_Spec.v
theories/RNG_Proofs.v
theories/RNG_Link.v
theories/RNG_Misc.v
theories/RNG_Props.v
theories/Noise_Model.v
theories/Noise_Spec.v
theories/Noise_Proofs.v
theories/Noise_More.v
theories/Noise_Props.v
theories/GSP_Model.v
theories/GSP_Spec.v
theories/GSP_Proofs.v
theories/GSP_Props.v
theories/Geo_Model.v
theories/Geo_Proofs.v
theories/Calc_Proofs.v
theories/Shear_Model.v
theories/Shear_Spec.v
theories/Shear_Proofs.v
theories/Shear_Conv.v
theories/Shear_Props.v
theories/Prof_Model.v
theories/Prof_Spec.v
theories/Prof_Proofs.v
theories/Prof_Draw.v
theories/Prof_Combine.v
theories/Prof_Conv.v
theories/Prof_Props.v
theories/WCS_Model.v
theories/WCS_Spec.v
theories/WCS_Proofs.v
theories/WCS_More.v
theories/WCS_Prof.v
theories/WCS_Props.v
theories/Angle_Model.v
theories/Angle_Spec.v
theories/Angle_Proofs.v
theories/Angle_More.v
theories/Angle_Props.v
theories/Sky_Model.v
theories/Sky_Spec.v
theories/Sky_Proofs.v
theories/Sky_Proj.v
theories/Sky_Rot.v
theories/Sky_Tri.v
theories/Sky_Jac.v
theories/Sky_More.v
theories/Sky_Props.v
theories/Util_Model.v
theories/Util_Spec.v
theories/Util_Eq.v
theories/Util_Proofs.v
theories/Util_Props.v
theories/Pos_Model.v
theories/Pos_Spec.v
theories/Pos_Proofs.v
theories/Pos_Props.v
theories/Akima_Model.v
theories/Akima_Spec.v
theories/Akima_Proofs.v
theories/Akima_Spline.v
theories/Akima_Sym.v
theories/Akima_Props.v
theories/Interp_Model.v
theories/Interp_Spec.v
theories/Interp_Kernels.v
theories/Interp_Smooth.v
theories/Interp_Lanczos.v
theories/Interp_Proofs.v
theories/Interp_Names.v
theories/Interp_Props.v
theories/II_Model.v
theories/II_Spec.v
theories/II_Proofs.v
theories/II_Pad.v
theories/II_Half.v
theories/II_Size.v
theories/II_Prof.v
theories/II_DFT.v
theories/II_Inv.v
theories/II_Eq.v
theories/II_K.v
theories/II_Maxk.v
theories/II_Cex.v
theories/II_Props.v
theories/FITS_Spec.v
theories/FITS_Model.v
theories/FITS_Path.v
theories/FITS_Poly.v
theories/FITS_Newton.v
theories/FITS_Proofs.v
theories/FITS_Head.v
theories/FITS_Read.v
theories/FITS_Std.v
theories/FITS_Same.v
theories/FITS_More.v
theories/FITS_Coef.v
theories/FITS_Kind.v
theories/FITS_Props.v
theories/Num_Consts.v
theories/Size_Spec.v
theories/Size_Model.v
theories/Size_Proofs.v
theories/Size_Moffat.v
theories/Size_Band.v
theories/Size_Spergel.v
theories/Size_Neg.v
theories/Size_NegTable.v
theories/Size_Shoot.v
theories/Size_Pade.v
theories/Size_Ex.v
theories/Size_FT.v
theories/Size_Same.v
theories/Size_Props.v
theories/Quad_Model.v
theories/Quad_Spec.v
theories/Quad_Proofs.v
theories/Quad_Exact.v
theories/Quad_More.v
theories/Quad_Props.v
theories/Poly_Check.v
theories/Poly_Trim.v
theories/Poly_Q.v
theories/Bes_Model.v
theories/Bes_Spec.v
theories/Bes_Si.v
theories/Bes_Si2.v
theories/Bes_K.v
theories/Bes_K2.v
theories/Bes_J.v
theories/Bes_Jode.v
theories/Bes_Jfar.v
theories/Bes_Jgap.v
theories/Bes_Jend.v
theories/Bes_T.v
theories/Bes_T2.v
theories/Bes_T3.v
theories/Bes_Miller.v
theories/Bes_Steed.v
theories/Bes_Props.v
theories/Call_Model.v
theories/Call_Spec.v
theories/Call_Proofs.v
theories/Call_K.v
theories/Call_Props.v
theories/Cel_Model.v
theories/Cel_Spec.v
theories/Cel_Proofs.v
theories/Cel_More.v
theories/Cel_Props.v
theories/Shoot_Model.v
theories/Shoot_Spec.v
theories/Shoot_Table.v
theories/Shoot_Kernels.v
theories/Shoot_Proofs.v
theories/Shoot_Photons.v
theories/Shoot_Image.v
theories/Shoot_Props.v
theories/Tree_Model.v
theories/Tree_Spec.v
theories/Tree_Proofs.v
theories/Tree_Props.v
theories/AD_Model.v
theories/AD_Spec.v
theories/AD_Proofs.v
theories/AD_Code.v
theories/AD_Props.v
theories/Akima_Acc.v
theories/MoffK_Model.v
theories/MoffK_Spec.v
theories/MoffK_Theta.v
theories/MoffK_Proofs.v
theories/MoffK_Int.v
theories/MoffK_Fit.v
theories/MoffK_Maxk.v
theories/MoffK_Pt.v
theories/MoffK_Ends.v
theories/MoffK_Final.v
theories/MoffK_Props.v
theories/DrawF_Model.v
theories/DrawF_Spec.v
theories/DrawF_Sum.v
theories/DrawF_Poisson.v
theories/DrawF_Gauss.v
theories/DrawF_Main.v
theories/DrawF_Num.v
theories/DrawF_Flux.v
theories/DrawF_Props.v
theories/DrawF2_Props.v
theories/DrawE_Spec.v
theories/DrawE_Model.v
theories/DrawE_Sum.v
theories/DrawE_Mix.v
theories/DrawE_Main.v
theories/DrawE_Draw.v
theories/DrawE_Own.v
theories/DrawE_Props.v
theories/VecV_Model.v
theories/VecV_Spec.v
theories/VecV_Proofs.v
theories/VecV_Ex.v
theories/VecV_Props.v
theories/SpeH_Spec.v
theories/SpeH_Bessel.v
theories/SpeH_Main.v
theories/SpeH_Ex.v
theories/SpeH_Props.v
theories/Conv_Model.v
theories/Conv_Spec.v
theories/Conv_Proofs.v
theories/Conv_Props.v
theories/Ops_Model.v
theories/Ops_Spec.v
theories/Ops_Proofs.v
theories/Ops_Props.v
theories/Str_Model.v
theories/Str_Spec.v
theories/Str_Proofs.v
theories/Str_Props.v
theories/WHash_Model.v
theories/WHash_Spec.v
theories/WHash_Proofs.v
theories/WHash_Props.v
theories/Repr_Model.v
theories/Repr_Spec.v
theories/Repr_Proofs.v
theories/Repr_Props.v
theories/PEq_Model.v
theories/PEq_Spec.v
theories/PEq_Proofs.v
theories/PEq_Props.v
theories/AOrd_Model.v
theories/AOrd_Spec.v
theories/AOrd_Proofs.v
theories/AOrd_Props.v
theories/ShArg_Model.v
theories/ShArg_Proofs.v
theories/ShArg_Props.v
theories/SpC_Spec.v
theories/SpC_Proofs.v
theories/SpC_Props.v

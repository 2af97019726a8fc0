-Q theories Verif
theories/AliasOps_Proofs.v
theories/AliasPath_Proofs.v
theories/AliasRev_Proofs.v
theories/AliasText_Proofs.v
theories/AliasWorld_Proofs.v
theories/Alias_Model.v
theories/Alias_Proofs.v
theories/Alias_Spec.v
theories/Alias_Thms.v
theories/Angle_Model.v
theories/Angle_Proofs.v
theories/Angle_Spec.v
theories/Angle_Thms.v
theories/ArcAngle_Thms.v
theories/ArcBox_Proofs.v
theories/ArcClose_Proofs.v
theories/ArcClose_Spec.v
theories/ArcClose_Thms.v
theories/ArcCurves_Proofs.v
theories/ArcEllipse_Model.v
theories/ArcEllipse_Thms.v
theories/ArcInt_Model.v
theories/ArcInt_Proofs.v
theories/ArcInt_Thms.v
theories/ArcLen_Proofs.v
theories/ArcSolve_Proofs.v
theories/Arc_Model.v
theories/Arc_Proofs.v
theories/Arc_Spec.v
theories/Arc_Thms.v
theories/Base.v
theories/ColorDist_Model.v
theories/ColorDist_Thms.v
theories/ColorInit_Model.v
theories/ColorInit_Thms.v
theories/Color_Model.v
theories/Color_Proofs.v
theories/Color_Proofs2.v
theories/Color_Proofs3.v
theories/Color_Proofs4.v
theories/Color_Spec.v
theories/Color_Thms.v
theories/CurveLen_Proofs.v
theories/Curve_Model.v
theories/Curve_Proofs.v
theories/Curve_Spec.v
theories/Curve_Thms.v
theories/DocWrite_Model.v
theories/DocWrite_Proofs.v
theories/DocWrite_Thms.v
theories/DomApi_Model.v
theories/DomApi_Spec.v
theories/DomApi_Thms.v
theories/Dom_Inv_Proofs.v
theories/Dom_Model.v
theories/Dom_Proofs.v
theories/Dom_Spec.v
theories/Dom_Thms.v
theories/Dom_Tree_Proofs.v
theories/ElemRepr_Model.v
theories/ElemRepr_Proofs.v
theories/ElemRepr_Thms.v
theories/FloatAngle_Model.v
theories/FloatAngle_Proofs.v
theories/FloatAngle_Spec.v
theories/FloatAngle_Thms.v
theories/FloatBox_Proofs.v
theories/FloatClosest_Model.v
theories/FloatClosest_Proofs.v
theories/FloatClosest_Thms.v
theories/FloatColor_Model.v
theories/FloatColor_Proofs.v
theories/FloatColor_Spec.v
theories/FloatColor_Thms.v
theories/FloatDist_Model.v
theories/FloatDist_Proofs.v
theories/FloatDist_Spec.v
theories/FloatDist_Thms.v
theories/FloatHue_Proofs.v
theories/FloatHull_Model.v
theories/FloatHull_Proofs.v
theories/FloatHull_Spec.v
theories/FloatHull_Thms.v
theories/FloatInv_Thms.v
theories/FloatLength_Model.v
theories/FloatLength_Proofs.v
theories/FloatLength_Spec.v
theories/FloatLength_Thms.v
theories/FloatMat_Proofs.v
theories/FloatPath_Model.v
theories/FloatPath_Proofs.v
theories/FloatPath_Spec.v
theories/FloatPath_Thms.v
theories/FloatText_Model.v
theories/FloatText_Proofs.v
theories/FloatText_Spec.v
theories/FloatText_Thms.v
theories/FloatTransform_Model.v
theories/FloatTransform_Proofs.v
theories/FloatTransform_Spec.v
theories/FloatTransform_Thms.v
theories/FloatView_Model.v
theories/FloatView_Proofs.v
theories/FloatView_Spec.v
theories/FloatView_Thms.v
theories/FloatWalk_Model.v
theories/FloatWalk_Proofs.v
theories/FloatWalk_Spec.v
theories/FloatWalk_Thms.v
theories/Float_Model.v
theories/Float_Proofs.v
theories/Float_Spec.v
theories/Float_Thms.v
theories/FmtG_Model.v
theories/FmtG_Proofs.v
theories/Fmt_Model.v
theories/Fmt_Proofs.v
theories/Font_Model.v
theories/Font_Proofs.v
theories/Font_Spec.v
theories/Font_Thms.v
theories/HullEnds_Proofs.v
theories/Hull_Model.v
theories/Hull_Proofs.v
theories/Hull_Spec.v
theories/Hull_Thms.v
theories/Image_Model.v
theories/Image_Proofs.v
theories/Image_Thms.v
theories/Length_Model.v
theories/Length_Proofs.v
theories/Length_Proofs2.v
theories/Length_Spec.v
theories/Length_Thms.v
theories/MatLen_Model.v
theories/MatLen_Proofs.v
theories/MatLen_Spec.v
theories/MatLen_Thms.v
theories/MatOp_Model.v
theories/MatOp_Spec.v
theories/MatOp_Thms.v
theories/Matrix_Model.v
theories/Matrix_Proofs.v
theories/Matrix_Spec.v
theories/Matrix_Thms.v
theories/Paint_Model.v
theories/Paint_Thms.v
theories/PathBox_Model.v
theories/PathBox_Spec.v
theories/PathBox_Thms.v
theories/PathCache_Model.v
theories/PathCache_Proofs.v
theories/PathCache_Spec.v
theories/PathCache_Thms.v
theories/PathCall_Model.v
theories/PathCall_Proofs.v
theories/PathCall_Spec.v
theories/PathCall_Thms.v
theories/PathClose_Proofs.v
theories/PathClose_Spec.v
theories/PathClose_Thms.v
theories/PathD_Model.v
theories/PathD_Proofs.v
theories/PathD_Spec.v
theories/PathD_Thms.v
theories/PathDraw_Proofs.v
theories/PathDraw_Spec.v
theories/PathEdit_Model.v
theories/PathEdit_Proofs.v
theories/PathEdit_Spec.v
theories/PathEdit_Thms.v
theories/PathElem_Model.v
theories/PathElem_Proofs.v
theories/PathElem_Spec.v
theories/PathElem_Thms.v
theories/PathLetters_Proofs.v
theories/PathLetters_Spec.v
theories/PathLetters_Thms.v
theories/PathRound_Proofs.v
theories/PathRound_Spec.v
theories/PathRound_Thms.v
theories/PathSeq_Model.v
theories/PathSeq_Proofs.v
theories/PathSeq_Spec.v
theories/PathSeq_Thms.v
theories/PathShort_Proofs.v
theories/PathShort_Spec.v
theories/PathShort_Thms.v
theories/PathSub_Proofs.v
theories/PathText_Model.v
theories/PathText_Proofs.v
theories/PathText_Spec.v
theories/PathText_Thms.v
theories/Path_Model.v
theories/PointDyn_Model.v
theories/PointDyn_Spec.v
theories/PointDyn_Thms.v
theories/PointText_Spec.v
theories/PointText_Thms.v
theories/Point_Model.v
theories/Point_Proofs.v
theories/Point_Spec.v
theories/Point_Thms.v
theories/RealClose_Proofs.v
theories/RealDraw_Proofs.v
theories/RealDraw_Spec.v
theories/RealPath_Model.v
theories/RealPath_Proofs.v
theories/RealPath_Spec.v
theories/RealPath_Thms.v
theories/RegexLit_Proofs.v
theories/RegexRead_Proofs.v
theories/RegexUse2_Proofs.v
theories/RegexUse_Model.v
theories/RegexUse_Proofs.v
theories/RegexUse_Thms.v
theories/Regex_Model.v
theories/Regex_Proofs.v
theories/ReprArc_Thms.v
theories/Repr_Model.v
theories/Repr_Proofs.v
theories/Repr_Spec.v
theories/Repr_Thms.v
theories/Round_Model.v
theories/Round_Proofs.v
theories/Round_Thms.v
theories/Shape_Model.v
theories/Shape_Proofs.v
theories/Shape_Spec.v
theories/Shape_Thms.v
theories/SubOp_Model.v
theories/SubOp_Thms.v
theories/Text_Proofs.v
theories/Text_Spec.v
theories/Transform_Model.v
theories/Transform_Proofs.v
theories/Transform_Spec.v
theories/Transform_Thms.v
theories/ViewboxText_Model.v
theories/ViewboxText_Spec.v
theories/ViewboxText_Thms.v
theories/Viewbox_Model.v
theories/Viewbox_Proofs.v
theories/Viewbox_Spec.v
theories/Viewbox_Thms.v

-Q theories Verif
theories/Bytes.v
theories/Float64.v
theories/HashId_Model.v
theories/HashId_Proofs.v
theories/HashId_Props.v
theories/Id_Model.v
theories/Id_Props.v
theories/Strings_Model.v
theories/Strings_Spec.v
theories/Strings_Proofs.v
theories/Strings_Props.v
theories/NumCmp_Model.v
theories/NumCmp_Proofs.v
theories/NumCmp_Props.v
theories/Round_Model.v
theories/Round_Proofs.v
theories/Round_Props.v
theories/CheckSame_Model.v
theories/CheckSame_Props.v
theories/Nsec_Model.v
theories/Nsec_Proofs.v
theories/Nsec_Props.v
theories/Corrector_Model.v
theories/Corrector_Spec.v
theories/Corrector_Proofs.v
theories/Corrector_Hist.v
theories/Corrector_I64.v
theories/Corrector_Props.v
theories/Timer_Model.v
theories/Timer_Spec.v
theories/Timer_Proofs.v
theories/Timer_Props.v
theories/TimeString_Props.v
theories/JobQueue_Model.v
theories/JobQueue_Proofs.v
theories/JobQueue_Props.v
theories/Archive_Model.v
theories/Archive_Spec.v
theories/Archive_Proofs.v
theories/Archive_Props.v
theories/PTree_Model.v
theories/PTree_Spec.v
theories/PTree_Proofs.v
theories/PTree_Update.v
theories/PTree_Inline.v
theories/PTree_Loader_Model.v
theories/PTree_Loader_Proofs.v
theories/PTree_Props.v
theories/PTree_Loader_Spec.v
theories/PTree_Loader_Props.v
theories/ValueStore_Model.v
theories/PTree_Typed_Props.v
theories/ValueStore_Spec.v
theories/ValueStore_Proofs.v
theories/ValueStore_Props.v
theories/Logging_Model.v
theories/Logging_Proofs.v
theories/Logging_Print_Proofs.v
theories/Logging_Spec.v
theories/Logging_Filter_Props.v
theories/Logging_Print_Props.v
theories/Logging_Text_Props.v
theories/LinAlg.v
theories/Kin_Quat_Model.v
theories/Kin_Quat_Props.v
theories/Kin_Rot_Model.v
theories/Kin_Rot_Props.v
theories/Kin_Rot_Deriv.v
theories/Kin_RV_Deriv.v
theories/Kin_Trans_Model.v
theories/Kin_Trans_Props.v
theories/Kin_Interp_Props.v
theories/Kin_Hom_Props.v
theories/Kin_Jac_Props.v
theories/DenseN.v
theories/Kin_Unc_Model.v
theories/Kin_Unc_Props.v
theories/Kin_Unc_Jac.v
theories/Kin_UVec_Jac.v
theories/EigenSer_Model.v
theories/EigenSer_Props.v
theories/Random_Model.v
theories/Random_Props.v
theories/MatSqrt_Model.v
theories/MatSqrt_Props.v
theories/NumDiff_Model.v
theories/NumDiff_Props.v
theories/ThreePoint_Model.v
theories/ThreePoint_Props.v
theories/Kin_ExpLog_Model.v
theories/Kin_ExpLog_Props.v
theories/CvMat_Model.v
theories/CvMat_Props.v
theories/KinSer_Model.v
theories/KinSer_Props.v
theories/SerFile_Model.v
theories/SerFile_Props.v
theories/KinTree_Model.v
theories/KinTree_Props.v
theories/Engine_Model.v
theories/Engine_Props.v
theories/PyBind_Model.v
theories/PyBind_Props.v
theories/DoubleText_Model.v
theories/DoubleText_Proofs.v
theories/DoubleText_Props.v
theories/GTest_Model.v
theories/GTest_Props.v
theories/PyStore_Model.v
theories/PyStore_Props.v
theories/PyLog_Model.v
theories/PyLog_Props.v
theories/PyId_Model.v
theories/PyId_Props.v
theories/Progress_Model.v
theories/Progress_Props.v
theories/ShowProgress_Model.v
theories/ShowProgress_Props.v
theories/Quadratic_Props.v
theories/PyArchive_Model.v
theories/PyArchive_Props.v
theories/InfoFile_Model.v
theories/InfoFile_Props.v
theories/IniFile_Model.v
theories/IniFile_Props.v
theories/JsonFile_Model.v
theories/JsonFile_Props.v
theories/PTreeFile_Model.v
theories/PTreeFile_Props.v
theories/InfoFile_Agree.v
theories/Corrector_Double.v
theories/XmlFile_Model.v
theories/XmlFile_Props.v
theories/JsonFile_Exact.v
theories/InfoFile_Cont.v
theories/VsFile_Model.v
theories/VsFile_Props.v
theories/XmlFile_Read.v
theories/LogTime_Model.v
theories/LogTime_Props.v
theories/PyTree_Model.v
theories/PyTree_Props.v
theories/LogMacro_Model.v
theories/LogMacro_Props.v
theories/LogAssert_Model.v
theories/LogAssert_Props.v
theories/TypeTraits_Model.v
theories/TypeTraits_Props.v
theories/TimerTable_Model.v
theories/TimerTable_Num.v
theories/TimerTable_Props.v
theories/Kin_Float_Model.v
theories/Kin_Float_Geom.v
theories/Kin_Float_Num.v
theories/Kin_Float_Props.v
theories/Kin_Float_Matrix.v
theories/Kin_FloatR_Model.v
theories/Kin_FloatR_Props.v
theories/PiBound.v
theories/Kin_Angle_Model.v
theories/Kin_Angle_Props.v
theories/Kin_FloatExp_Model.v
theories/Kin_FloatExp_Props.v
theories/Kin_FloatMat_Model.v
theories/Kin_FloatMat_Props.v
theories/Kin_FloatParam_Model.v
theories/Kin_FloatParam_Props.v
theories/Kin_FloatParam_RV.v
theories/AssertText_Model.v
theories/AssertText_Props.v
theories/WinTime_Model.v
theories/WinTime_Props.v
theories/PyPlot_Model.v
theories/PyPlot_Props.v
theories/Kin_FloatParam_ER.v
theories/Kin_FloatHom_Model.v
theories/Kin_FloatHom_Props.v
theories/MacroText_Header.v
theories/MacroText_Model.v
theories/MacroText_Props.v
theories/Kin_FloatT_Model.v
theories/Kin_FloatT_Props.v
theories/Kin_FloatLog_Model.v
theories/Kin_FloatLog_Geom.v
theories/Kin_FloatLog_Props.v
theories/Kin_FloatSlerp_Props.v
theories/NumDiff_FloatModel.v
theories/NumDiff_FloatProps.v
theories/Unc_FloatModel.v
theories/Unc_FloatProps.v
theories/Unc_FloatT_Props.v
theories/Kin_FloatS_Model.v
theories/Kin_FloatS_Props.v
theories/Kin_FloatSJ_Props.v
theories/Kin_FloatER_Model.v
theories/Kin_FloatER_Props.v
theories/PySqrt_Model.v
theories/PySqrt_Props.v
theories/Kin_Random_Model.v
theories/Kin_Random_Props.v
theories/Kin_FloatHomJ_Model.v
theories/Kin_FloatHomJ_Props.v
theories/Kin_FloatNormJ_Model.v
theories/Kin_FloatNormJ_Props.v

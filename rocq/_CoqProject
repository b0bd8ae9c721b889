-Q theories Verif
theories/Prelude.v
theories/Skeleton_model.v
theories/Skeleton_spec.v
theories/Skeleton_proofs.v
theories/Skeleton_props.v
theories/R3.v
theories/Transform_model.v
theories/Transform_proofs.v
theories/Transform_props.v
theories/FK_model.v
theories/FK_spec.v
theories/FK_proofs.v
theories/FK_deriv_proofs.v
theories/FK_props.v
theories/FK_axis_proofs.v
theories/LinAlg.v
theories/ParamTransform_model.v
theories/ParamTransform_spec.v
theories/ParamTransform_proofs.v
theories/ParamTransform_map_proofs.v
theories/ParamTransform_props.v
theories/PoseConstraint_model.v
theories/PoseConstraint_spec.v
theories/PoseConstraint_proofs.v
theories/PoseConstraint_props.v
theories/Rbool.v
theories/Limits_model.v
theories/Limits_spec.v
theories/Limits_proofs.v
theories/Limits_props.v
theories/Str_model.v
theories/Str_spec.v
theories/Str_proofs.v
theories/Str_props.v
theories/ParamIO_model.v
theories/ParamIO_spec.v
theories/ParamIO_proofs.v
theories/ParamIO_props.v
theories/Loss_model.v
theories/Loss_spec.v
theories/Loss_proofs.v
theories/Loss_props.v
theories/Constraint_model.v
theories/Constraint_spec.v
theories/Constraint_eval_proofs.v
theories/Constraint_proofs.v
theories/Constraint_deriv_proofs.v
theories/Constraint_props.v
theories/ErrFn_model.v
theories/ErrFn_spec.v
theories/ErrFn_mp_proofs.v
theories/ErrFn_st_proofs.v
theories/ErrFn_proofs.v
theories/ErrFn_props.v
theories/QR_spec.v
theories/QR_model.v
theories/QR_gen_proofs.v
theories/QR_proofs.v
theories/QRBanded_spec.v
theories/QRBanded_model.v
theories/QRBanded_proofs.v
theories/QR_props.v
theories/ListUtil.v
theories/Solver_spec.v
theories/Solver_model.v
theories/Solver_proofs.v
theories/Solver_lin_proofs.v
theories/Solver_step_proofs.v
theories/Solver_run_proofs.v
theories/Solver_bump.v
theories/Solver_props.v
theories/TrustRegion_spec.v
theories/TrustRegion_model.v
theories/TrustRegion_proofs.v
theories/TrustRegion_props.v
theories/SeqPar_model.v
theories/SeqPar_mem.v
theories/SeqPar_inv.v
theories/SeqPar_proofs.v
theories/SeqPar_live.v
theories/SeqPar_props.v
theories/Loops.v
theories/Seq_spec.v
theories/Seq_model.v
theories/Seq_proofs.v
theories/Seq_multi_proofs.v
theories/Seq_props.v
theories/SeqFn_model.v
theories/SeqFn_spec.v
theories/SeqFn_proofs.v
theories/SeqFn_grad_proofs.v
theories/SeqFn_jac_proofs.v
theories/SeqFn_result_proofs.v
theories/SeqFn_props.v
theories/SeqFn_ops_props.v
theories/Bytes.v
theories/Mmo_model.v
theories/Mmo_spec.v
theories/Mmo_proofs.v
theories/Mmo_props.v
theories/Gltf_model.v
theories/Gltf_spec.v
theories/Gltf_proofs.v
theories/Gltf_props.v
theories/FbxStream_model.v
theories/FbxStream_spec.v
theories/FbxStream_props.v
theories/Polygon_model.v
theories/Polygon_spec.v
theories/Polygon_props.v
theories/Lines_model.v
theories/Lines_spec.v
theories/Lines_proofs.v
theories/Lines_props.v
theories/Marker_model.v
theories/Marker_spec.v
theories/Marker_props.v
theories/Box_model.v
theories/Box_spec.v
theories/Box_proofs.v
theories/Box_props.v
theories/Bvh_model.v
theories/Bvh_spec.v
theories/Bvh_build_proofs.v
theories/Bvh_walk_proofs.v
theories/Bvh_refit_proofs.v
theories/Bvh_props.v
theories/Bvh_pair_model.v
theories/Bvh_pair_spec.v
theories/Bvh_pair_props.v
theories/Tri_model.v
theories/Tri_spec.v
theories/Tri_proofs.v
theories/Tri_props.v
theories/Mesh_spec.v
theories/Mesh_props.v
theories/Kd_model.v
theories/Kd_spec.v
theories/Kd_proofs.v
theories/Kd_walk_proofs.v
theories/Kd_props.v
theories/Align_model.v
theories/Align_spec.v
theories/Align_props.v
theories/Ident_model.v
theories/Ident_spec.v
theories/Ident_props.v
theories/Locator_model.v
theories/Locator_spec.v
theories/Locator_proofs.v
theories/Locator_props.v
theories/Skin_model.v
theories/Skin_spec.v
theories/Skin_props.v
theories/Simplify_model.v
theories/Simplify_spec.v
theories/Simplify_proofs.v
theories/Simplify_props.v
theories/ShapeIO_model.v
theories/ShapeIO_spec.v
theories/ShapeIO_props.v
theories/Det.v
theories/Cov_spec.v
theories/Cov_model.v
theories/Cov_proofs.v
theories/Cov_props.v
theories/Mppca_spec.v
theories/Mppca_model.v
theories/Mppca_props.v
theories/Prior_spec.v
theories/Prior_model.v
theories/Prior_proofs.v
theories/Prior_props.v
theories/Blend_spec.v
theories/Blend_model.v
theories/Blend_proofs.v
theories/Blend_props.v
theories/PoseShape_model.v
theories/PoseShape_props.v
theories/CharUtil_model.v
theories/CharUtil_spec.v
theories/CharScale_props.v
theories/CharMove_props.v
theories/CharRemove_spec.v
theories/CharRemove_proofs.v
theories/CharRemove_props.v
theories/CharMotion_spec.v
theories/CharMotion_props.v
theories/CharSplice_spec.v
theories/CharSplice_proofs.v
theories/CharSplice_props.v
theories/SimdStore_model.v
theories/SimdStore_spec.v
theories/SimdStore_proofs.v
theories/SimdStore_props.v
theories/Cells_model.v
theories/Cells_proofs.v
theories/SimdFn_model.v
theories/SimdFn_spec.v
theories/SimdFn_proofs.v
theories/SimdFn_task_proofs.v
theories/SimdFn_deriv_proofs.v
theories/SimdFn_jac_proofs.v
theories/SimdFn_props.v
theories/Ellipsoid_model.v
theories/Ellipsoid_spec.v
theories/Ellipsoid_proofs.v
theories/Ellipsoid_props.v
theories/Seg_model.v
theories/Seg_spec.v
theories/Seg_proofs.v
theories/Seg_props.v
theories/Seg_deriv_proofs.v
theories/Coll_model.v
theories/Coll_spec.v
theories/Coll_proofs.v
theories/Coll_deriv_proofs.v
theories/Coll_props.v
theories/Cbvh_model.v
theories/Cbvh_spec.v
theories/Cbvh_proofs.v
theories/Cbvh_deriv_proofs.v
theories/Cbvh_props.v
theories/Euler_model.v
theories/Euler_spec.v
theories/Euler_proofs.v
theories/Euler_props.v
theories/GNQR_model.v
theories/GNQR_spec.v
theories/GNQR_proofs.v
theories/GNQR_props.v
theories/InvPT_model.v
theories/InvPT_spec.v
theories/InvPT_proofs.v
theories/InvPT_props.v
theories/MpFn_model.v
theories/MpFn_spec.v
theories/MpFn_proofs.v
theories/MpFn_jac_proofs.v
theories/MpFn_props.v
theories/Cub_model.v
theories/Cub_spec.v
theories/Cub_proofs.v
theories/Cub_props.v
theories/EdgeD_model.v
theories/EdgeD_spec.v
theories/EdgeD_proofs.v
theories/EdgeD_props.v
theories/Ccd_model.v
theories/Ccd_spec.v
theories/Ccd_proofs.v
theories/Ccd_props.v
theories/StSeq_model.v
theories/StSeq_spec.v
theories/StSeq_proofs.v
theories/StSeq_props.v
theories/TPose_model.v
theories/TPose_spec.v
theories/TPose_proofs.v
theories/TPose_geo_proofs.v
theories/TPose_props.v
theories/BlockQR_spec.v
theories/BlockQR_model.v
theories/BlockQR_runs_spec.v
theories/BlockQR_proofs.v
theories/BlockQR_inv_proofs.v
theories/BlockQR_props.v
theories/MpSolve_model.v
theories/MpSolve_spec.v
theories/MpSolve_proofs.v
theories/MpSolve_props.v
theories/Normals_model.v
theories/Normals_spec.v
theories/Normals_proofs.v
theories/Normals_props.v
theories/Extrap_model.v
theories/Extrap_spec.v
theories/Extrap_props.v
theories/SkinW_model.v
theories/SkinW_spec.v
theories/SkinW_props.v
theories/CharState_model.v
theories/CharState_spec.v
theories/CharState_props.v
theories/VErr_model.v
theories/VErr_spec.v
theories/VErr_iter_proofs.v
theories/VErr_proofs.v
theories/VErr_deriv_proofs.v
theories/VErr_props.v
theories/PoseIO_model.v
theories/PoseIO_spec.v
theories/PoseIO_props.v
theories/LocIO_model.v
theories/LocIO_spec.v
theories/LocIO_props.v
theories/LimIO_model.v
theories/LimIO_spec.v
theories/LimIO_proofs.v
theories/LimIO_props.v
theories/LimLines_props.v
theories/ModelDef_model.v
theories/ModelDef_spec.v
theories/ModelDef_props.v
theories/Subject_model.v
theories/Subject_spec.v
theories/Subject_props.v
theories/FullChar_model.v
theories/FullChar_props.v
theories/Json_model.v
theories/Json_spec.v
theories/Json_props.v
theories/JsonMat_props.v
theories/JsonPose_props.v
theories/JsonPT_model.v
theories/JsonPT_props.v
theories/JsonRead_props.v
theories/GltfTree_model.v
theories/GltfTree_spec.v
theories/GltfTree_props.v
theories/GltfOnce_props.v
theories/GltfRoots_model.v
theories/GltfRoots_spec.v
theories/GltfRoots_props.v
theories/GltfParents_model.v
theories/GltfParents_props.v
theories/GltfMesh_model.v
theories/GltfMesh_props.v
theories/GltfSkin_model.v
theories/GltfSkin_props.v
theories/GltfMap_props.v
theories/GltfChar_model.v
theories/GltfChar_props.v
theories/GltfMotion_model.v
theories/GltfMotion_props.v

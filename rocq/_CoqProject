-Q theories Verif
theories/Util.v
theories/Algo.v
theories/Base64_Model.v
theories/Base64_Proofs.v
theories/Base64_Props.v
theories/Handle_Model.v
theories/Handle_Proofs.v
theories/Handle_Props.v
theories/Marker_Model.v
theories/Marker_Proofs.v
theories/Marker_Props.v
theories/Array_Model.v
theories/Array_Proofs.v
theories/Array_Props.v
theories/Chunk_Model.v
theories/Chunk_Proofs.v
theories/Chunk_Props.v
theories/Interval_Model.v
theories/Interval_Proofs.v
theories/Interval_Props.v
theories/Heap_Model.v
theories/Heap_Proofs.v
theories/Heap_Props.v
theories/Storage_Model.v
theories/Storage_Proofs.v
theories/Storage_Props.v
theories/Tag_Model.v
theories/Tag_Proofs.v
theories/Tag_Props.v
theories/Row_Model.v
theories/Row_Proofs.v
theories/Row_Props.v
theories/Merger_Model.v
theories/Merger_Proofs.v
theories/Merger_Props.v
theories/Order_Model.v
theories/Order_Proofs.v
theories/Order_Props.v
theories/Autodiff_Model.v
theories/Autodiff_Spec.v
theories/Autodiff_Proofs.v
theories/Autodiff_Props.v
theories/IoConv_Model.v
theories/IoConv_Spec.v
theories/IoConv_Proofs.v
theories/IoConvF_Proofs.v
theories/IoConv_Props.v
theories/Split_Model.v
theories/Split_Proofs.v
theories/Split_Props.v
theories/Sort_Model.v
theories/Sort_Proofs.v
theories/Compare_Proofs.v
theories/Sort_Props.v
theories/Iter_Model.v
theories/Iter_Proofs.v
theories/Iter_Props.v
theories/ESet_Model.v
theories/ESet_Proofs.v
theories/ESetHist_Proofs.v
theories/SSet_Proofs.v
theories/ESet_Props.v
theories/SetTree_Model.v
theories/SetTree_Proofs.v
theories/SetTree_Props.v
theories/SetName_Model.v
theories/SetName_Proofs.v
theories/SetName_Props.v
theories/Copy_Model.v
theories/Copy_Proofs.v
theories/Copy_Props.v
theories/Enum_Model.v
theories/Enum_Proofs.v
theories/Enum_Props.v
theories/TagVec_Model.v
theories/TagVec_Proofs.v
theories/TagVec_Props.v
theories/Adj_Model.v
theories/Adj_Proofs.v
theories/Adj_Props.v
theories/OField.v
theories/Gauss_Spec.v
theories/Gauss_Model.v
theories/Gauss_Proofs.v
theories/Chol_Proofs.v
theories/Det_Proofs.v
theories/Gauss_Props.v
theories/Dense_Spec.v
theories/DenseView_Proofs.v
theories/DenseLaw_Proofs.v
theories/DenseBad_Proofs.v
theories/Dense_Model.v
theories/Dense_Proofs.v
theories/Dense_Props.v
theories/Rot_Model.v
theories/Rot_Proofs.v
theories/Rot_Props.v
theories/Req_Model.v
theories/Req_Proofs.v
theories/Req_Props.v
theories/Pack_Model.v
theories/Pack_Spec.v
theories/Pack_Proofs.v
theories/Pack_Props.v
theories/Par_Model.v
theories/Par_Spec.v
theories/Par_Proofs.v
theories/Par2_Proofs.v
theories/Par_Props.v
theories/KD_Model.v
theories/KD_Spec.v
theories/KD_Proofs.v
theories/KD_Props.v
theories/Tri_Model.v
theories/Tri_Spec.v
theories/Tri_Proofs.v
theories/Tri_Props.v
theories/Radix_Model.v
theories/Radix_Spec.v
theories/Radix_Proofs.v
theories/Radix_Props.v
theories/Loop_Model.v
theories/Loop_Spec.v
theories/Loop_Proofs.v
theories/Loop2_Proofs.v
theories/Loop3_Proofs.v
theories/Loop_Props.v
theories/Query_Model.v
theories/Query_Spec.v
theories/Query_Proofs.v
theories/Query_Props.v
theories/Geom_Model.v
theories/Geom_Spec.v
theories/Geom_Proofs.v
theories/Geom2_Proofs.v
theories/Geom_Props.v
theories/Orient_Model.v
theories/Orient_Spec.v
theories/Orient_Proofs.v
theories/Orient2_Proofs.v
theories/Orient_Props.v
theories/Ilu_Model.v
theories/Ilu_Spec.v
theories/Ilu_Proofs.v
theories/Ilu2_Proofs.v
theories/Ilu_Props.v
theories/Bcgs_Model.v
theories/Bcgs_Spec.v
theories/Bcgs_Proofs.v
theories/Bcgs_Props.v
theories/Mtx_Model.v
theories/Mtx_Proofs.v
theories/Mtx_Props.v
theories/Mtx_Spec.v
theories/Mtx2_Proofs.v
theories/Mtx3_Proofs.v
theories/Mpt_Model.v
theories/Mpt_Spec.v
theories/Mpt_Proofs.v
theories/Mpt2_Proofs.v
theories/Mpt3_Proofs.v
theories/Mpt_Props.v
theories/Lin_Spec.v
theories/Lin_Model.v
theories/Lin_Proofs.v
theories/Lin_Props.v
theories/Expr_Spec.v
theories/Expr_Model.v
theories/Expr_Proofs.v
theories/Expr_Props.v
theories/Word_Spec.v
theories/Word_Model.v
theories/Word_Proofs.v
theories/Word_Props.v
theories/Xml_Spec.v
theories/Xml_Model.v
theories/Xml_Proofs.v
theories/Xml_Props.v
theories/Cluster_Spec.v
theories/Cluster_Model.v
theories/Cluster_Proofs.v
theories/Cluster2_Proofs.v
theories/Cluster3_Proofs.v
theories/Cluster_Props.v
theories/Table_Spec.v
theories/Table_Model.v
theories/Table_Proofs.v
theories/Table_Props.v
theories/Opt_Spec.v
theories/Opt2_Proofs.v
theories/Opt3_Proofs.v
theories/Opt4_Proofs.v
theories/Opt_Model.v
theories/Opt_Proofs.v
theories/Opt_Props.v
theories/Link_Model.v
theories/Link_Proofs.v
theories/Link_Props.v
theories/Sim_Spec.v
theories/Sim_Model.v
theories/Sim_Proofs.v
theories/Sim_Props.v
theories/Purge_Model.v
theories/Purge_Proofs.v
theories/Purge_Props.v
theories/Incid_Spec.v
theories/Incid_Model.v
theories/Incid_Proofs.v
theories/Incid_Props.v
theories/Rcm_Spec.v
theories/Rcm_Model.v
theories/Rcm_Proofs.v
theories/Rcm_Props.v
theories/Front_Spec.v
theories/Front_Model.v
theories/Front_Proofs.v
theories/Front_Props.v
theories/Equil_Spec.v
theories/Equil_Model.v
theories/Equil_Proofs.v
theories/Equil_Props.v
theories/Fopt_Spec.v
theories/Fopt_Model.v
theories/Fopt_Proofs.v
theories/Fopt_Props.v
theories/Resid_Spec.v
theories/Resid_Model.v
theories/Resid_Proofs.v
theories/Resid_Props.v
theories/Vtk_Spec.v
theories/Vtk_Model.v
theories/Vtk_Proofs.v
theories/Vtk_Props.v
theories/Gtype_Spec.v
theories/Gtype_Model.v
theories/Gtype_Proofs.v
theories/Gtype_Props.v
theories/Dims_Spec.v
theories/Dims_Model.v
theories/Dims_Proofs.v
theories/Dims_Props.v
theories/Hess_Spec.v
theories/Hess_Model.v
theories/Hess_Proofs.v
theories/Hess_Props.v

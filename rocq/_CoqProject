-Q theories Verif
theories/Assign_Chains.v
theories/Assign_Model.v
theories/Assign_Proofs.v
theories/Assign_Props.v
theories/Assign_Spec.v
theories/Assign_Steps.v
theories/Assign_Tables.v
theories/Assign_Unpack.v
theories/AttachRoots_Model.v
theories/AttachRoots_Proofs.v
theories/AttachRoots_Props.v
theories/Balance_Model.v
theories/Balance_Proofs.v
theories/Balance_Props.v
theories/Bits_Model.v
theories/Bits_Proofs.v
theories/Bits_Props.v
theories/Bits_Spec.v
theories/CggiQuart_Model.v
theories/CggiQuart_Proofs.v
theories/CggiQuart_Props.v
theories/CggiQuart_Spec.v
theories/Codegen_Model.v
theories/Codegen_Nodes.v
theories/Codegen_Proofs.v
theories/Codegen_Props.v
theories/Codegen_Spec.v
theories/Collapse_Model.v
theories/Collapse_Proofs.v
theories/Collapse_Props.v
theories/ConvPool_Model.v
theories/ConvPool_Proofs.v
theories/ConvPool_Props.v
theories/ConvPool_Spec.v
theories/Conv_Model.v
theories/Conv_Proofs.v
theories/Conv_Props.v
theories/Conv_Spec.v
theories/Distribute2_Proofs.v
theories/Distribute3_Proofs.v
theories/Distribute4_Proofs.v
theories/Distribute_Model.v
theories/Distribute_Proofs.v
theories/Distribute_Props.v
theories/Distribute_Spec.v
theories/Forward_Model.v
theories/Forward_Proofs.v
theories/Forward_Props.v
theories/Generic2_Proofs.v
theories/Generic3_Proofs.v
theories/Generic4_Proofs.v
theories/Generic5_Proofs.v
theories/Generic6_Proofs.v
theories/Generic7_Proofs.v
theories/Generic8_Proofs.v
theories/Generic_Model.v
theories/Generic_Proofs.v
theories/Generic_Props.v
theories/Generic_Spec.v
theories/Graph2_Proofs.v
theories/Graph3_Proofs.v
theories/Graph4_Proofs.v
theories/Graph5_Proofs.v
theories/Graph6_Proofs.v
theories/Graph7_Proofs.v
theories/Graph_Model.v
theories/Graph_Proofs.v
theories/Graph_Props.v
theories/InPlaceLattigo2_Proofs.v
theories/InPlaceLattigo_Proofs.v
theories/InPlaceOpenfhe_Proofs.v
theories/InPlace_Model.v
theories/InPlace_Proofs.v
theories/InPlace_Props.v
theories/InPlace_Spec.v
theories/KernelBsgs_Proofs.v
theories/KernelMat_Proofs.v
theories/Kernel_Model.v
theories/Kernel_Proofs.v
theories/Kernel_Props.v
theories/Kernel_Spec.v
theories/Layout_Proofs.v
theories/Layout_Props.v
theories/Layout_Spec.v
theories/Linalg_Model.v
theories/Linalg_Proofs.v
theories/Linalg_Props.v
theories/Linalg_Spec.v
theories/Loops_Model.v
theories/Loops_Proofs.v
theories/Loops_Props.v
theories/Lut_Model.v
theories/Lut_Proofs.v
theories/Lut_Props.v
theories/Lut_Spec.v
theories/MgmtAnnot_Props.v
theories/Mgmt_Annot.v
theories/Mgmt_Clean.v
theories/Mgmt_Compose.v
theories/Mgmt_Dims.v
theories/Mgmt_Levels.v
theories/Mgmt_Model.v
theories/Mgmt_Passes.v
theories/Mgmt_Pipeline.v
theories/Mgmt_Proofs.v
theories/Mgmt_Props.v
theories/Mgmt_Ps.v
theories/Mgmt_Sim.v
theories/Mgmt_Sim2.v
theories/Mgmt_Spec.v
theories/Mgmt_Strict.v
theories/ModArith_Model.v
theories/ModArith_Proofs.v
theories/ModArith_Props.v
theories/ModEq.v
theories/NTT2_Proofs.v
theories/NTT3_Proofs.v
theories/NTT_Model.v
theories/NTT_Proofs.v
theories/NTT_Props.v
theories/Noise_Model.v
theories/Noise_Proofs.v
theories/Noise_Props.v
theories/Noise_Spec.v
theories/NttPlace2_Proofs.v
theories/NttPlace_Model.v
theories/NttPlace_Proofs.v
theories/NttPlace_Props.v
theories/NttPlace_Spec.v
theories/NumTheory_Model.v
theories/NumTheory_Proofs.v
theories/NumTheory_Props.v
theories/PackedAccess_Model.v
theories/PackedAccess_Proofs.v
theories/PackedAccess_Props.v
theories/PackedAccess_Spec.v
theories/Params_Model.v
theories/Params_Primes.v
theories/Params_Proofs.v
theories/Params_Props.v
theories/Params_Spec.v
theories/PlainArith_Model.v
theories/PlainArith_Proofs.v
theories/PlainArith_Props.v
theories/PlainArith_Spec.v
theories/Points_Boxes.v
theories/Points_Model.v
theories/Points_Proofs.v
theories/Points_Props.v
theories/Points_Spec.v
theories/PolyArith_Model.v
theories/PolyArith_Proofs.v
theories/PolyArith_Props.v
theories/PolyArith_Spec.v
theories/PolyCheb_Proofs.v
theories/PolyEvalCheb_Proofs.v
theories/PolyEvalReal_Proofs.v
theories/PolyEval_Model.v
theories/PolyEval_Proofs.v
theories/PolyEval_Props.v
theories/PolyEval_Spec.v
theories/PolyMul_Model.v
theories/PolyMul_Proofs.v
theories/PolyMul_Props.v
theories/PrimeField.v
theories/RNS_Model.v
theories/RNS_Proofs.v
theories/RNS_Props.v
theories/Range_Model.v
theories/Range_Proofs.v
theories/Range_Props.v
theories/Range_Spec.v
theories/Reduce_Model.v
theories/Reduce_Proofs.v
theories/Reduce_Props.v
theories/Rel_Model.v
theories/Rel_Proofs.v
theories/Relin2_Proofs.v
theories/Relin3_Proofs.v
theories/Relin4_Proofs.v
theories/Relin5_Proofs.v
theories/RelinDim_Proofs.v
theories/RelinStrip_Proofs.v
theories/Relin_Model.v
theories/Relin_Proofs.v
theories/Relin_Props.v
theories/Relin_Spec.v
theories/Rlwe2_Proofs.v
theories/Rlwe2_Props.v
theories/Rlwe3_Proofs.v
theories/Rlwe_Model.v
theories/Rlwe_Proofs.v
theories/Rlwe_Props.v
theories/Rlwe_Ring.v
theories/Rlwe_Spec.v
theories/RotCount_Model.v
theories/RotCount_Proofs.v
theories/RotCount_Props.v
theories/RotCount_Spec.v
theories/RotIdx_Model.v
theories/RotIdx_Proofs.v
theories/RotIdx_Props.v
theories/RotKeys_Model.v
theories/RotKeys_Proofs.v
theories/RotKeys_Props.v
theories/RotKeys_Spec.v
theories/Rotate_Model.v
theories/Rotate_Proofs.v
theories/Rotate_Props.v
theories/Rotate_Spec.v
theories/Rtlil_Model.v
theories/Rtlil_Proofs.v
theories/Rtlil_Props.v
theories/Rtlil_Spec.v
theories/ScaleCkks_Main.v
theories/ScaleCkks_Model.v
theories/ScaleCkks_Payload.v
theories/ScaleCkks_Proofs.v
theories/ScaleCkks_Props.v
theories/ScaleCkks_Spec.v
theories/Scale_Model.v
theories/Scale_Proofs.v
theories/Scale_Props.v
theories/Scale_Spec.v
theories/Secretness2_Proofs.v
theories/Secretness_Model.v
theories/Secretness_Proofs.v
theories/Secretness_Props.v
theories/Secretness_Spec.v
theories/Select_Model.v
theories/Select_Proofs.v
theories/Select_Props.v
theories/ShiftNetGroup_Proofs.v
theories/ShiftNetKernel_Proofs.v
theories/ShiftNet_Model.v
theories/ShiftNet_Proofs.v
theories/ShiftNet_Props.v
theories/Slice_Model.v
theories/Slice_Proofs.v
theories/Slice_Props.v
theories/Slice_Spec.v
theories/Sums.v
theories/TensorIndex_Model.v
theories/TensorIndex_Proofs.v
theories/TensorIndex_Props.v
theories/TensorScalars_Model.v
theories/TensorScalars_Proofs.v
theories/TensorScalars_Props.v
theories/TensorScalars_Spec.v
theories/Vectorize_Model.v
theories/Vectorize_Proofs.v
theories/Vectorize_Props.v
theories/Vectorize_Spec.v
theories/Words.v

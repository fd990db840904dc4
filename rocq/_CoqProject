-Q theories Verif
theories/Base.v
theories/Indexed_Model.v
theories/Indexed_Spec.v
theories/Indexed_Pair_Proofs.v
theories/Indexed_Conv_Proofs.v
theories/Indexed_Red_Proofs.v
theories/Indexed_Props.v
theories/Common_Model.v
theories/Common_Spec.v
theories/Common_Proofs.v
theories/Common_Enum_Proofs.v
theories/Common_Props.v
theories/LUT_Model.v
theories/LUT_Spec.v
theories/LUT_Proofs.v
theories/LUT_CG_Proofs.v
theories/LUT_Mono_Proofs.v
theories/LUT_SH_Proofs.v
theories/LUT_WD_Proofs.v
theories/LUT_TC_Proofs.v
theories/LUT_Hist_Proofs.v
theories/LUT_Entry_Proofs.v
theories/LUT_Props.v
theories/RSum.v
theories/Features_Model.v
theories/Features_Spec.v
theories/Features_Proofs.v
theories/Features_Laws_Proofs.v
theories/Features_Props.v
theories/Smooth.v
theories/Radial_Model.v
theories/Radial_Spec.v
theories/Radial_Proofs.v
theories/Radial_Basis_Proofs.v
theories/Radial_Props.v
theories/Activations_Model.v
theories/Activations_Spec.v
theories/Activations_Proofs.v
theories/Activations_Props.v
theories/Rotations_Model.v
theories/Rotations_Spec.v
theories/Rotations_Proofs.v
theories/Rotations_More_Proofs.v
theories/Rotations_Euler_Proofs.v
theories/Rotations_Random_Proofs.v
theories/Rotations_Props.v
theories/Modules_Model.v
theories/Modules_Spec.v
theories/Modules_Proofs.v
theories/Modules_Tensor_Proofs.v
theories/Modules_Fused_Proofs.v
theories/Modules_Equiv_Proofs.v
theories/Modules_Graph_Spec.v
theories/Modules_Graph_Proofs.v
theories/Modules_Conv_Proofs.v
theories/Modules_Attention_Proofs.v
theories/Modules_Message_Proofs.v
theories/Modules_Relabel_Proofs.v
theories/Modules_Softmax_Proofs.v
theories/Modules_Props.v
theories/Modules_Graph_Props.v
theories/Initializers_Model.v
theories/Initializers_Spec.v
theories/Initializers_Proofs.v
theories/Initializers_Props.v
theories/Matmat_Model.v
theories/Matmat_Spec.v
theories/Matmat_Proofs.v
theories/Matmat_More_Proofs.v
theories/Matmat_Props.v
theories/Quadrature_Model.v
theories/Quadrature_Spec.v
theories/Quadrature_Proofs.v
theories/Quadrature_Props.v
theories/Derivatives_Model.v
theories/Derivatives_Props.v
theories/Symbolic_Model.v
theories/Poly_Proofs.v
theories/PolyDiff_Proofs.v
theories/Harmonics_Proofs.v
theories/Harmonics_Basis_Proofs.v
theories/PolyCalc_Proofs.v
theories/Symbolic_Proofs.v
theories/Irreps_Model.v
theories/Irreps_Spec.v
theories/Irreps_Proofs.v
theories/Irreps_Wigner_Proofs.v
theories/Irreps_Laws_Proofs.v
theories/Irreps_CG_Proofs.v
theories/Irreps_Props.v
theories/Tensor_Model.v
theories/Tensor_Spec.v
theories/Tensor_Index_Proofs.v
theories/Tensor_Detrace_Proofs.v
theories/Tensor_Harmonic_Proofs.v
theories/Tensor_Solve_Proofs.v
theories/Tensor_Conversion_Proofs.v
theories/Tensor_Values_Proofs.v
theories/Tensor_Check_Proofs.v
theories/Tensor_Props.v
theories/Wrappers_Model.v
theories/Wrappers_Spec.v
theories/Wrappers_Proofs.v
theories/Wrappers_Props.v
theories/Clebsch_Model.v
theories/Racah_Proofs.v
theories/Generators_Proofs.v
theories/Invariance_Proofs.v
theories/RealCG_Proofs.v
theories/CGTable_Proofs.v
theories/Clebsch_Props.v
theories/Equivariance_Spec.v
theories/Equivariance_Props.v
theories/Structure_Props.v
theories/Network_Spec.v
theories/Network_Props.v
theories/Locality_Spec.v
theories/Locality_Proofs.v
theories/Shapes_Proofs.v
theories/Locality_Props.v
theories/Embed_Model.v
theories/Embed_Spec.v
theories/Embed_Props.v
theories/Molecule_Spec.v
theories/Molecule_Props.v
theories/Accept_Proofs.v
theories/Accept_Props.v
theories/Cutoff_Spec.v
theories/Cutoff_Proofs.v
theories/Cutoff_Props.v
theories/Regular_Spec.v
theories/Regular_Proofs.v
theories/Regular_Molecule_Proofs.v
theories/Regular_Class_Proofs.v
theories/Regular_Props.v
theories/Parts_Props.v
theories/Kink_Props.v
theories/Dynamics_Spec.v
theories/Dynamics_Props.v
theories/AutoDiff_Model.v
theories/AutoDiff_Spec.v
theories/AutoDiff_Proofs.v
theories/AutoDiff_Props.v
theories/AutoDiff_Radial_Proofs.v
theories/AutoDiff_Radial_Props.v
theories/AutoDiff_Basis_Model.v
theories/AutoDiff_Basis_Props.v
theories/Float_Model.v
theories/Float_Spec.v
theories/Float_Proofs.v
theories/Float_Norm_Proofs.v
theories/Float_Normalize_Proofs.v
theories/Float_Formats.v
theories/Float_Props.v
theories/Float_Indexed_Model.v
theories/Float_Indexed_Spec.v
theories/Float_Sum_Proofs.v
theories/Float_Softmax_Proofs.v
theories/Float_Indexed_Props.v
theories/Float_Radial_Model.v
theories/Float_Radial_Spec.v
theories/Float_Radial_Proofs.v
theories/Float_Damping_Proofs.v
theories/Float_Radial_Props.v
theories/Float_Switch_Model.v
theories/Float_Switch_Spec.v
theories/Float_Switch_Analysis.v
theories/Float_Switch_Proofs.v
theories/Float_Switch_Props.v
theories/Float_Bernstein_Model.v
theories/Float_Bernstein_Spec.v
theories/Float_Bernstein_Proofs.v
theories/Float_Bernstein_Props.v
theories/Float_Einsum_Model.v
theories/Float_Einsum_Spec.v
theories/Float_Einsum_Proofs.v
theories/Float_Einsum_Props.v
theories/Float_Harmonics_Model.v
theories/Float_Harmonics_Spec.v
theories/Float_Harmonics_Proofs.v
theories/Float_Harmonics_Props.v
theories/Float_Network_Model.v
theories/Float_Network_Spec.v
theories/Float_Network_Proofs.v
theories/Float_Network_Props.v
theories/Dtype_Model.v
theories/Dtype_Spec.v
theories/Dtype_Proofs.v
theories/Dtype_Props.v
theories/Float_Program_Model.v
theories/Float_Program_Spec.v
theories/Float_Program_Proofs.v
theories/Float_Program_Props.v
theories/Float_Deep_Model.v
theories/Float_Deep_Spec.v
theories/Float_Deep_Proofs.v
theories/Float_Deep_Props.v
theories/Batch_Model.v
theories/Batch_Spec.v
theories/Batch_Props.v
theories/Tightened_Props.v
theories/Float_Molecule_Model.v
theories/Float_Molecule_Spec.v
theories/Float_Molecule_Proofs.v
theories/Float_Molecule_Props.v
theories/Float_Molecule_Errors_Props.v
theories/Float_Molecule_Radial_Props.v
theories/Examples_Model.v
theories/Examples_Spec.v
theories/Examples_Props.v
theories/Cartesian_Model.v
theories/Cartesian_Spec.v
theories/Cartesian_Props.v
theories/Defaults_Model.v
theories/Defaults_Spec.v
theories/Defaults_Props.v
theories/Schur_Spec.v
theories/Schur_Props.v
theories/Schur_Tensor_Props.v

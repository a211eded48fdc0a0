-Q theories Verif
theories/ArgyrisFunctions_props.v
theories/ArgyrisInterpolation_props.v
theories/Argyris_edges.v
theories/Argyris_lines.v
theories/Argyris_model.v
theories/Argyris_proofs.v
theories/Argyris_props.v
theories/Argyris_spec.v
theories/AssemblyBoundary_props.v
theories/AssemblyDG_model.v
theories/AssemblyDG_props.v
theories/AssemblyDG_spec.v
theories/Assembly_model.v
theories/Assembly_proofs.v
theories/Assembly_props.v
theories/Assembly_spec.v
theories/BSplineBounds_model.v
theories/BSplineBounds_props.v
theories/BSplineCopies_model.v
theories/BSplineCopies_props.v
theories/BSplineKeys_model.v
theories/BSplineKeys_props.v
theories/BSplineKeys_spec.v
theories/BSpline_model.v
theories/BSpline_numbering.v
theories/BSpline_oned.v
theories/BSpline_props.v
theories/BSpline_spec.v
theories/BSpline_tensor.v
theories/BasisLifetime_model.v
theories/BasisLifetime_proofs.v
theories/BasisLifetime_props.v
theories/BasisLifetime_spec.v
theories/Basis_model.v
theories/Basis_ok.v
theories/Basis_proofs.v
theories/Basis_props.v
theories/Basis_spec.v
theories/Basis_view.v
theories/BoundaryMarks_examples.v
theories/BoundaryMarks_model.v
theories/BoundaryMarks_props.v
theories/BoundaryMarks_spec.v
theories/BoundaryTrace_examples.v
theories/BoundaryTrace_examples2.v
theories/BoundaryTrace_proofs.v
theories/BoundaryTrace_props.v
theories/BoundaryTrace_spec.v
theories/Callables_model.v
theories/Callables_props.v
theories/Callables_spec.v
theories/Components_props.v
theories/Conforming_proofs.v
theories/Conforming_props.v
theories/Conforming_refs.v
theories/Conforming_shapes.v
theories/Conforming_spec.v
theories/Container_desc.v
theories/Container_model.v
theories/Container_proofs.v
theories/Container_props.v
theories/Container_spec.v
theories/DGConsistency_model.v
theories/DGConsistency_props.v
theories/DGConsistency_spec.v
theories/DGLocal_model.v
theories/DGLocal_props.v
theories/DGLocal_spec.v
theories/Derivative_props.v
theories/Derivative_spec.v
theories/Descriptor_model.v
theories/Descriptor_props.v
theories/Descriptor_spec.v
theories/DiscreteFunction_model.v
theories/DiscreteFunction_proofs.v
theories/DiscreteFunction_props.v
theories/DiscreteFunction_spec.v
theories/DofPreservation_props.v
theories/DofPreservation_spec.v
theories/FaceCheck.v
theories/FaceNormal_model.v
theories/FaceNormal_props.v
theories/Families_model.v
theories/Families_props.v
theories/Families_spec.v
theories/FlatVector_model.v
theories/FlatVector_props.v
theories/GenericTransform_model.v
theories/GenericTransform_props.v
theories/GenericTransform_spec.v
theories/GeometryInAncestor_model.v
theories/GeometryInAncestor_props.v
theories/GeometryType_model.v
theories/GeometryType_props.v
theories/GeometryType_spec.v
theories/GlobalEval_model.v
theories/GlobalEval_props.v
theories/GlobalEval_spec.v
theories/GridCheck.v
theories/GridInterp_examples.v
theories/GridInterp_model.v
theories/GridInterp_proofs.v
theories/GridInterp_props.v
theories/GridInterp_spec.v
theories/HCurlInterpolation_examples.v
theories/HCurlInterpolation_props.v
theories/HCurl_elements.v
theories/HCurl_examples.v
theories/HCurl_props.v
theories/HCurl_spec.v
theories/HDivInterpolation_examples.v
theories/HDivInterpolation_props.v
theories/HDiv_elements.v
theories/HDiv_props.v
theories/HDiv_spec.v
theories/HermiteBasis_model.v
theories/HermiteBasis_spec.v
theories/HermiteFunctions_props.v
theories/HermiteInterpolation_props.v
theories/Hermite_model.v
theories/Hermite_proofs.v
theories/Hermite_props.v
theories/Hermite_spec.v
theories/Hermite_trace.v
theories/Independence_examples.v
theories/Independence_props.v
theories/Independence_spec.v
theories/IndexKeys_model.v
theories/IndexKeys_props.v
theories/IndexKeys_spec.v
theories/InterpLinear_proofs.v
theories/InterpLinear_props.v
theories/Interpolate_model.v
theories/Interpolate_props.v
theories/Interrupt_model.v
theories/Interrupt_props.v
theories/Keys_check.v
theories/LagrangeNodes_examples.v
theories/LagrangeNodes_functions.v
theories/LagrangeNodes_props.v
theories/LagrangeNodes_spec.v
theories/Lagrange_model.v
theories/Lagrange_proofs.v
theories/Lagrange_props.v
theories/Lagrange_spec.v
theories/Lagrange_tables.v
theories/Lib.v
theories/Lifetime_model.v
theories/Lifetime_proofs.v
theories/Lifetime_props.v
theories/Lifetime_spec.v
theories/LocalAssembler_model.v
theories/LocalAssembler_props.v
theories/LocalAssembler_spec.v
theories/LocalFunction_model.v
theories/LocalFunction_props.v
theories/LocalFunction_spec.v
theories/Mapper_blocks.v
theories/Mapper_model.v
theories/Mapper_props.v
theories/Mapper_spec.v
theories/MeshSize_model.v
theories/MeshSize_props.v
theories/MeshSize_spec.v
theories/MixedLocal_model.v
theories/MixedLocal_props.v
theories/MixedLocal_spec.v
theories/MonomialSet_model.v
theories/MonomialSet_props.v
theories/MonomialSet_spec.v
theories/MorleyFunctions_props.v
theories/MorleyInterpolation_props.v
theories/Morley_model.v
theories/Morley_proofs.v
theories/Morley_props.v
theories/Morley_spec.v
theories/NodalCopies_model.v
theories/NodalCopies_props.v
theories/NodalCopies_spec.v
theories/NodalFunctions_example.v
theories/NodalFunctions_proofs.v
theories/NodalFunctions_spec.v
theories/Nodal_inverse.v
theories/Nodal_poly.v
theories/Nodal_rat.v
theories/Nodal_spec.v
theories/Orientation_model.v
theories/Orientation_props.v
theories/Orientation_spec.v
theories/OverflowArray_model.v
theories/OverflowArray_proofs.v
theories/OverflowArray_props.v
theories/OverflowArray_spec.v
theories/Periodic_model.v
theories/Periodic_proofs.v
theories/Periodic_props.v
theories/Periodic_spec.v
theories/Piola_model.v
theories/Piola_props.v
theories/Piola_spec.v
theories/Polynomial_model.v
theories/Polynomial_props.v
theories/Polynomial_spec.v
theories/Projection_examples.v
theories/Projection_model.v
theories/Projection_props.v
theories/Projection_spec.v
theories/PyArrays_model.v
theories/PyArrays_props.v
theories/PyArrays_spec.v
theories/PyLifetime_model.v
theories/PyLifetime_props.v
theories/PyLifetime_spec.v
theories/PyTreeOps_props.v
theories/PyTree_model.v
theories/PyTree_proofs.v
theories/PyTree_props.v
theories/PyTree_spec.v
theories/PyView_model.v
theories/PyView_props.v
theories/PyView_spec.v
theories/RefDistance_model.v
theories/RefDistance_props.v
theories/RefDistance_spec.v
theories/Reproduction_example.v
theories/Reproduction_nodal.v
theories/Reproduction_p1.v
theories/Reproduction_props.v
theories/Reproduction_spec.v
theories/ReservedDeque_model.v
theories/ReservedDeque_proofs.v
theories/ReservedDeque_props.v
theories/ReservedDeque_spec.v
theories/SimplexFunctions_examples.v
theories/SimplexFunctions_proofs.v
theories/SimplexFunctions_props.v
theories/SimplexFunctions_spec.v
theories/SingleLeaf_example.v
theories/SmallObject_model.v
theories/SmallObject_props.v
theories/SmallObject_spec.v
theories/SplineIndep_oned.v
theories/SplineIndep_props.v
theories/SplineIndep_spec.v
theories/SplinePoly_oned.v
theories/SplinePoly_props.v
theories/SplinePoly_spec.v
theories/SplineSmooth_examples.v
theories/SplineSmooth_props.v
theories/SplineSmooth_spec.v
theories/StokesLocal_model.v
theories/StokesLocal_props.v
theories/StokesLocal_spec.v
theories/Stokes_model.v
theories/Stokes_proofs.v
theories/Stokes_props.v
theories/Stokes_spec.v
theories/SubDomain_model.v
theories/SubDomain_proofs.v
theories/SubDomain_props.v
theories/SubDomain_spec.v
theories/SubEntityDOFs_model.v
theories/SubEntityDOFs_props.v
theories/SubEntityDOFs_spec.v
theories/Table2_model.v
theories/Table2_proofs.v
theories/Threads_model.v
theories/Threads_proofs.v
theories/Threads_props.v
theories/Threads_spec.v
theories/Transfer_examples.v
theories/Transfer_proofs.v
theories/Transfer_props.v
theories/Transfer_spec.v
theories/TransformFun_props.v
theories/TransformFun_spec.v
theories/TransformInterp_proofs.v
theories/TransformInterp_props.v
theories/TransformInterp_spec.v
theories/Triangle_example.v
theories/Triangle_grid.v
theories/Triangle_proofs.v
theories/Triangle_spec.v
theories/Update_model.v
theories/Update_proofs.v
theories/Update_props.v
theories/Update_spec.v
theories/ViewAlias_model.v
theories/ViewAlias_props.v

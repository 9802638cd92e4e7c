-Q theories Verif
theories/AuxN.v
theories/C01_BitCount.v
theories/C02_SectorEnumeration.v
theories/C03_BosonSector.v
theories/C04_SpinfulSector.v
theories/C05_BosonDimension.v
theories/C06_SymmetryMaps.v
theories/C07_BenesNetwork.v
theories/C08_Representative.v
theories/C09_Norm.v
theories/C10_BasisConstruction.v
theories/C11_ParallelConstruction.v
theories/C12_IndexLookup.v
theories/C13_SpinStrings.v
theories/C14_BosonStrings.v
theories/C15_Fermions.v
theories/C16_HermitianConjugate.v
theories/C17_ReducedMatrix.v
theories/C18_Projector.v
theories/C19_VectorTransforms.v
theories/C20_FermionMaps.v
theories/C21_SortStrings.v
theories/C22_HermitianCheck.v
theories/C23_ListChecks.v
theories/C24_InplaceOp.v
theories/C25_MergeCSR.v
theories/C26_Kernels.v
theories/C27_ExpmMultiply.v
theories/C28_trace.v
theories/C29_tensor.v
theories/C30_Arithmetic.v
theories/C31_Functions.v
theories/C32_pars.v
theories/C33_hamiltonian.v
theories/C33_views.v
theories/C34_liouville.v
theories/C35_evolve.v
theories/C35_rhs.v
theories/C36_lanczos.v
theories/C36_thermal.v
theories/C37_Pipeline.v
theories/C38_chain.v
theories/C39_checks.v
theories/C39_reference.v
theories/C39_translations.v
theories/C40_photon.v
theories/C41_zip.v
theories/C42_StateConversions.v
theories/C43_ExpandXY.v
theories/C44_Merging.v
theories/C45_expect.v
theories/C46_shift.v
theories/C47_ensemble.v
theories/C47_entropy.v
theories/C48_Square.v
theories/C49_MapPeriods.v
theories/C50_CommutationCheck.v
theories/C51_BitOperations.v
theories/C52_complete.v
theories/C52_matrix.v
theories/C52_sectors.v
theories/C52_spinful.v
theories/C53_proj.v
theories/C54_arrays.v
theories/C55_init.v
theories/C55_others.v
theories/C56_coords.v
theories/C56_tvec.v
theories/C57_floquet.v
theories/C57_spectrum.v
theories/C58_block.v
theories/C58_blocks.v
theories/C58_cases.v
theories/C58_expm.v
theories/C58_grid.v
theories/C59_bdiag.v
theories/C59_cases.v
theories/C60_cases.v
theories/C60_expop.v
theories/C60_history.v
theories/C61_agree.v
theories/C61_edtime.v
theories/C62_mixed.v
theories/C62_obstime.v
theories/C62_same.v
theories/C63_project.v
theories/C63_rotate.v
theories/M_alloc1d.v
theories/M_bdiag.v
theories/M_benes.v
theories/M_bitcount.v
theories/M_bits1d.v
theories/M_bitwise.v
theories/M_block.v
theories/M_check1d.v
theories/M_conv.v
theories/M_diag.v
theories/M_edtime.v
theories/M_entropy.v
theories/M_evolve.v
theories/M_expect.v
theories/M_expm.v
theories/M_expop.v
theories/M_floquet.v
theories/M_fmap.v
theories/M_func.v
theories/M_ham.v
theories/M_hamviews.v
theories/M_hdim.v
theories/M_index.v
theories/M_init1d.v
theories/M_inplace.v
theories/M_lanczos.v
theories/M_make.v
theories/M_maps.v
theories/M_next.v
theories/M_obstime.v
theories/M_ode.v
theories/M_op1d.v
theories/M_ops.v
theories/M_ops1d.v
theories/M_opstr.v
theories/M_photon.v
theories/M_pipe.v
theories/M_proj.v
theories/M_proj1d.v
theories/M_project.v
theories/M_qop.v
theories/M_shift.v
theories/M_sparse.v
theories/M_square.v
theories/M_symm.v
theories/M_symop.v
theories/M_tensor.v
theories/M_thermal.v
theories/M_trace.v
theories/M_tvec.v
theories/M_views.v
theories/M_zip.v
theories/P_alloc1d.v
theories/P_alloc1d2.v
theories/P_alloc1d3.v
theories/P_alloc1d4.v
theories/P_alloc1d5.v
theories/P_bdiag.v
theories/P_benes.v
theories/P_bitcount.v
theories/P_bits1d.v
theories/P_bits1d2.v
theories/P_bits1d3.v
theories/P_bits1d4.v
theories/P_bits1d5.v
theories/P_bits1d6.v
theories/P_bitwise.v
theories/P_block.v
theories/P_block1d.v
theories/P_block1d2.v
theories/P_block1d3.v
theories/P_block1d4.v
theories/P_boson.v
theories/P_braket.v
theories/P_check1d.v
theories/P_check1d2.v
theories/P_check1d3.v
theories/P_check1d4.v
theories/P_check1d5.v
theories/P_check1d6.v
theories/P_check1d7.v
theories/P_check1d8.v
theories/P_check1d9.v
theories/P_check1da.v
theories/P_conv.v
theories/P_conv2.v
theories/P_diag.v
theories/P_diag2.v
theories/P_edtime.v
theories/P_entropy.v
theories/P_evolve.v
theories/P_expect.v
theories/P_expm.v
theories/P_expm2.v
theories/P_expm3.v
theories/P_expm4.v
theories/P_expop.v
theories/P_fermion.v
theories/P_floquet.v
theories/P_floquet2.v
theories/P_fmap.v
theories/P_fmap2.v
theories/P_fmap3.v
theories/P_fmap4.v
theories/P_fmap5.v
theories/P_func.v
theories/P_ham.v
theories/P_ham2.v
theories/P_ham3.v
theories/P_ham4.v
theories/P_ham5.v
theories/P_ham6.v
theories/P_ham7.v
theories/P_hc.v
theories/P_hdim.v
theories/P_index.v
theories/P_inplace.v
theories/P_lanczos.v
theories/P_listcex.v
theories/P_listinst.v
theories/P_lists.v
theories/P_lists2.v
theories/P_make.v
theories/P_make2.v
theories/P_maps.v
theories/P_mat.v
theories/P_merge.v
theories/P_next.v
theories/P_norm.v
theories/P_ode.v
theories/P_op1d.v
theories/P_op1d2.v
theories/P_op1d3.v
theories/P_op1d4.v
theories/P_op1d5.v
theories/P_op1d6.v
theories/P_op1d7.v
theories/P_op1d8.v
theories/P_opinst.v
theories/P_ops.v
theories/P_ops1d.v
theories/P_opstr.v
theories/P_pcon.v
theories/P_period.v
theories/P_photon.v
theories/P_photon2.v
theories/P_pipe.v
theories/P_pipe2.v
theories/P_proj.v
theories/P_proj1d.v
theories/P_proj1d2.v
theories/P_proj1d3.v
theories/P_proj1d4.v
theories/P_proj1d5.v
theories/P_projex.v
theories/P_projinst.v
theories/P_projop.v
theories/P_qop.v
theories/P_semi1d.v
theories/P_semi1d2.v
theories/P_semi1d3.v
theories/P_semi1d4.v
theories/P_shift.v
theories/P_shiftex.v
theories/P_span1d.v
theories/P_span1d2.v
theories/P_span1d3.v
theories/P_span1d4.v
theories/P_span1d5.v
theories/P_sparse.v
theories/P_sparse2.v
theories/P_sparse3.v
theories/P_sparse4.v
theories/P_spinful.v
theories/P_square.v
theories/P_square2.v
theories/P_square3.v
theories/P_symm.v
theories/P_symminst.v
theories/P_symmlist.v
theories/P_symop.v
theories/P_symopinst.v
theories/P_tensor.v
theories/P_tensor2.v
theories/P_thermal.v
theories/P_trace.v
theories/P_trace2.v
theories/P_tvec.v
theories/P_unique.v
theories/P_views.v
theories/P_zip.v
theories/SpecAlloc1d.v
theories/SpecBasis.v
theories/SpecBits.v
theories/SpecBlock.v
theories/SpecBlock1d.v
theories/SpecC.v
theories/SpecChain.v
theories/SpecChain1d.v
theories/SpecCheck1d.v
theories/SpecDiag.v
theories/SpecDigits.v
theories/SpecDriven.v
theories/SpecEd.v
theories/SpecEntropy.v
theories/SpecEvolve.v
theories/SpecExpect.v
theories/SpecExpm.v
theories/SpecExpop.v
theories/SpecFermi.v
theories/SpecFloquet.v
theories/SpecFunc.v
theories/SpecHam.v
theories/SpecIndex.v
theories/SpecInit1d.v
theories/SpecInv.v
theories/SpecLanczos.v
theories/SpecLattice.v
theories/SpecMaps.v
theories/SpecOps.v
theories/SpecOps1d.v
theories/SpecPars.v
theories/SpecPhoton.v
theories/SpecPipe.v
theories/SpecProj.v
theories/SpecSector.v
theories/SpecShift.v
theories/SpecSpan1d.v
theories/SpecSparse.v
theories/SpecSymm.v
theories/SpecTensor.v
theories/SpecTrace.v
theories/SpecTvec.v
theories/SpecViews.v
theories/SpecZip.v

-Q theories Verif
theories/Base.v
theories/Model_Arrays.v
theories/Model_Backend.v
theories/Model_Batch.v
theories/Model_Catalogue.v
theories/Model_Convergence.v
theories/Model_Cov.v
theories/Model_Draws.v
theories/Model_Effective.v
theories/Model_Ext.v
theories/Model_FieldKinds.v
theories/Model_Fields.v
theories/Model_Galaxies.v
theories/Model_Generator.v
theories/Model_GridFloat.v
theories/Model_Healpix.v
theories/Model_Iternorm.v
theories/Model_Jax.v
theories/Model_Lensing.v
theories/Model_Maps.v
theories/Model_Nnls.v
theories/Model_Numeric.v
theories/Model_Observations.v
theories/Model_Partition.v
theories/Model_Points.v
theories/Model_Regular.v
theories/Model_Rng.v
theories/Model_Shapes.v
theories/Model_ShearLoop.v
theories/Model_ShearMap.v
theories/Model_Spectra.v
theories/Model_SpectraFloat.v
theories/Model_Tomography.v
theories/Model_Transform.v
theories/Model_User.v
theories/Model_Visibility.v
theories/Model_Weights.v
theories/Model_Windows.v
theories/Proof_Arrays.v
theories/Proof_Batch.v
theories/Proof_Convergence.v
theories/Proof_Cov.v
theories/Proof_Descent.v
theories/Proof_Disc.v
theories/Proof_Draws.v
theories/Proof_Effective.v
theories/Proof_Erf.v
theories/Proof_Fallback.v
theories/Proof_Fields.v
theories/Proof_Fit.v
theories/Proof_Galaxies.v
theories/Proof_Gauss.v
theories/Proof_Grf.v
theories/Proof_GridFloat.v
theories/Proof_Intnorm.v
theories/Proof_Iternorm.v
theories/Proof_Jax.v
theories/Proof_Lensing.v
theories/Proof_Maps.v
theories/Proof_Nnls.v
theories/Proof_Normals.v
theories/Proof_Numeric.v
theories/Proof_Observations.v
theories/Proof_Partition.v
theories/Proof_Points.v
theories/Proof_Poisson.v
theories/Proof_Reject.v
theories/Proof_Rng.v
theories/Proof_Shapes.v
theories/Proof_Shear.v
theories/Proof_ShearMap.v
theories/Proof_Solver.v
theories/Proof_Spectra.v
theories/Proof_SpectraFloat.v
theories/Proof_Spectral.v
theories/Proof_Tomography.v
theories/Proof_Truncated.v
theories/Proof_Unbiased.v
theories/Proof_Uniform.v
theories/Proof_User.v
theories/Proof_Weights.v
theories/Proof_Windows.v
theories/Prop_Arrays.v
theories/Prop_Backend.v
theories/Prop_Batch.v
theories/Prop_Campbell.v
theories/Prop_Catalogue.v
theories/Prop_Convergence.v
theories/Prop_Cov.v
theories/Prop_Descent.v
theories/Prop_Disc.v
theories/Prop_Draws.v
theories/Prop_Effective.v
theories/Prop_Erf.v
theories/Prop_Ext.v
theories/Prop_FieldKinds.v
theories/Prop_Fields.v
theories/Prop_Galaxies.v
theories/Prop_Gauss.v
theories/Prop_Generator.v
theories/Prop_Grf.v
theories/Prop_GridFloat.v
theories/Prop_Healpix.v
theories/Prop_Iternorm.v
theories/Prop_Jax.v
theories/Prop_Lensing.v
theories/Prop_Maps.v
theories/Prop_Newton.v
theories/Prop_Nnls.v
theories/Prop_Normals.v
theories/Prop_Numeric.v
theories/Prop_Observations.v
theories/Prop_Partition.v
theories/Prop_Photoz.v
theories/Prop_Points.v
theories/Prop_Poisson.v
theories/Prop_Regular.v
theories/Prop_Rng.v
theories/Prop_Ryden.v
theories/Prop_Shapes.v
theories/Prop_ShearDrawn.v
theories/Prop_ShearLoop.v
theories/Prop_ShearMap.v
theories/Prop_ShearShells.v
theories/Prop_Solver.v
theories/Prop_Spectra.v
theories/Prop_SpectraFloat.v
theories/Prop_Spectral.v
theories/Prop_Tomography.v
theories/Prop_Transform.v
theories/Prop_Truncated.v
theories/Prop_Unbiased.v
theories/Prop_Uniform.v
theories/Prop_User.v
theories/Prop_Visibility.v
theories/Prop_Weights.v
theories/Prop_Windows.v
theories/RSum.v
theories/Spec_Arrays.v
theories/Spec_Backend.v
theories/Spec_Batch.v
theories/Spec_Campbell.v
theories/Spec_Catalogue.v
theories/Spec_Convergence.v
theories/Spec_Cov.v
theories/Spec_Disc.v
theories/Spec_Draws.v
theories/Spec_Erf.v
theories/Spec_Ext.v
theories/Spec_Fallback.v
theories/Spec_Fields.v
theories/Spec_Galaxies.v
theories/Spec_Gauss.v
theories/Spec_Generator.v
theories/Spec_Grf.v
theories/Spec_Healpix.v
theories/Spec_Iternorm.v
theories/Spec_Jax.v
theories/Spec_Lensing.v
theories/Spec_Maps.v
theories/Spec_Newton.v
theories/Spec_Nnls.v
theories/Spec_Numeric.v
theories/Spec_Observations.v
theories/Spec_Partition.v
theories/Spec_Photoz.v
theories/Spec_Points.v
theories/Spec_Poisson.v
theories/Spec_Rng.v
theories/Spec_Shapes.v
theories/Spec_ShearLoop.v
theories/Spec_ShearMap.v
theories/Spec_ShearShells.v
theories/Spec_Spectra.v
theories/Spec_SpectraFloat.v
theories/Spec_Tomography.v
theories/Spec_Transform.v
theories/Spec_Truncated.v
theories/Spec_Unbiased.v
theories/Spec_Uniform.v
theories/Spec_User.v
theories/Spec_Visibility.v
theories/Spec_Weights.v
theories/Spec_Windows.v

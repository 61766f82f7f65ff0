-Q theories Verif
theories/OrdField.v
theories/Base.v
theories/Congruence.v
theories/Congruence_props.v
theories/StructUtils.v
theories/StructUtils_props.v
theories/Partitions.v
theories/DegreeComb.v
theories/Partitions_props.v
theories/Perm.v
theories/Poly.v
theories/PermCheck.v
theories/PolyId.v
theories/Monomials.v
theories/Coeff.v
theories/MonomialsLemmas.v
theories/Monomials_props.v
theories/Coeff_props.v
theories/Halfspace.v
theories/Halfspace_props.v
theories/Univariate.v
theories/UnivariateLemmas.v
theories/Univariate_props.v
theories/Expr.v
theories/CertLimit.v
theories/TernaryQuad.v
theories/TernaryTables.v
theories/TernaryCubic.v
theories/Ternary_props.v
theories/TernaryQuartic.v
theories/TernaryQuartic_props.v
theories/Int64.v
theories/Int64_props.v
theories/LinSolve.v
theories/LinSolve_props.v
theories/LinSep.v
theories/LinSep_props.v
theories/Mat2Vec.v
theories/Mat2Vec_props.v
theories/SdpTransform.v
theories/SdpPrimal.v
theories/SdpTransform_props.v
theories/Cyclic.v
theories/CyclicRw.v
theories/CyclicFacts.v
theories/Cyclic_props.v
theories/Sparse.v
theories/Sparse_props.v
theories/FreeSyms.v
theories/FreeSyms_props.v
theories/Driver.v
theories/Driver_props.v
theories/Extract.v
theories/Extract_props.v
theories/Text.v
theories/TextFacts.v
theories/Text_props.v
theories/Triangle.v
theories/Triangle_props.v
theories/Shared.v
theories/Wrapper.v
theories/ClearSym.v
theories/Shared_props.v
theories/SparseSym.v
theories/Quarternary.v
theories/QuarternaryFacts.v
theories/QuarternaryQuartic.v
theories/QuarternarySolve.v
theories/Quarternary_props.v
theories/PolyOps.v
theories/LinSOS.v
theories/LinSolution.v
theories/LinBasis.v
theories/LinSOS_props.v
theories/Nvars.v
theories/Nvars_props.v
theories/Bivariate.v
theories/Bivariate_props.v
theories/TriPoly.v
theories/Acute.v
theories/AcuteFacts.v
theories/Acute_props.v
theories/PivotProve.v
theories/PivotProve_props.v
theories/CertExact.v
theories/SymRep.v
theories/SymRepFacts.v
theories/SymRepCert.v
theories/SymRep_props.v
theories/SdpRationalize.v
theories/SdpRationalize_props.v
theories/SdpSos.v
theories/SdpSosFacts.v
theories/SdpSosCert.v
theories/SdpSosGroups.v
theories/SdpSosExact.v
theories/SdpQmodule.v
theories/SdpDriver.v
theories/SdpSos_props.v
theories/SdpQmodule_props.v
theories/SymDiv.v
theories/DenseSym.v
theories/DenseSymFacts.v
theories/DenseSymAxis.v
theories/DenseSymMain.v
theories/DenseSymTop.v
theories/DenseSymSub.v
theories/DenseSym_props.v
theories/Manifold.v
theories/ManifoldSets.v
theories/ManifoldTaylor.v
theories/ManifoldMain.v
theories/ManifoldFacts.v
theories/Manifold_props.v
theories/Amgm.v
theories/AmgmQuot.v
theories/AmgmFacts.v
theories/AmgmSolve.v
theories/AmgmMain.v
theories/AmgmTotal.v
theories/Amgm_props.v
theories/Schur.v
theories/SchurFacts.v
theories/SchurExpr.v
theories/Schur_props.v
theories/Heur.v
theories/HeurSep.v
theories/HeurFacts.v
theories/HeurMain.v
theories/Heur_props.v
theories/Septic.v
theories/SepticFacts.v
theories/SepticForm.v
theories/SepticMain.v
theories/SepticTop.v
theories/Septic_props.v
theories/SexticQF.v
theories/SexticQFFacts.v
theories/SexticQFMain.v
theories/SexticForm.v
theories/SexticQFTop.v
theories/SexticQF_props.v
theories/FactorForm.v
theories/FactorFormEx.v
theories/FactorForm_props.v
theories/StdForm.v
theories/StdFormMain.v
theories/StdForm_props.v
theories/Nonic.v
theories/NonicFacts.v
theories/NonicTree.v
theories/NonicMain.v
theories/NonicGram.v
theories/NonicGear.v
theories/NonicTop.v
theories/Nonic_props.v
theories/Pqr.v
theories/PqrSym.v
theories/PqrUniq.v
theories/PqrDiv.v
theories/PqrMain.v
theories/Pqr_props.v
theories/RatApprox.v
theories/RatApprox_props.v
theories/RatCurve.v
theories/RatCurve_props.v
theories/MonoOpt.v
theories/MonoOptFacts.v
theories/MonoOptMain.v
theories/MonoOpt_props.v
theories/MonoPoly.v
theories/MonoPolyFacts.v
theories/MonoPolyMain.v
theories/MonoPoly_props.v
theories/Grid.v
theories/GridFacts.v
theories/GridMain.v
theories/Grid_props.v
theories/RootUv.v
theories/RootUvFacts.v
theories/RootStd.v
theories/RootUv_props.v
theories/RootNear.v
theories/RootNearFacts.v
theories/RootNear_props.v
theories/RootCache.v
theories/RootCache_props.v
theories/RootsInfo.v
theories/RootsInfo_props.v

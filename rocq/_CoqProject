-Q theories Verif

theories/Base.v
theories/Model_Interval.v
theories/Spec_Interval.v
theories/Proof_Interval.v
theories/Prop_Interval.v
theories/Model_Affine.v
theories/Spec_Affine.v
theories/Proof_Affine.v
theories/Proof_AffineMerge.v
theories/Prop_Affine.v
theories/Model_BoundBeta.v
theories/Proof_BoundBeta.v
theories/Prop_BoundBeta.v
theories/Model_Polynomial.v
theories/Spec_Polynomial.v
theories/Proof_Polynomial.v
theories/Prop_Polynomial.v
theories/Model_RationalFunction.v
theories/Spec_RationalFunction.v
theories/Proof_RationalFunction.v
theories/Proof_RFOptimal.v
theories/Prop_RationalFunction.v
theories/LinAlg.v
theories/Model_Polytope.v
theories/Spec_Polytope.v
theories/FM.v
theories/Hull.v
theories/FM_Ext.v
theories/Proof_Polytope.v
theories/Proof_PolytopeMaps.v
theories/Proof_PolytopeLP.v
theories/Proof_PolytopeSets.v
theories/Proof_PolytopeUnion.v
theories/Prop_Polytope.v
theories/Model_Region.v
theories/Spec_Region.v
theories/Proof_Region.v
theories/Proof_RegionSimplify.v
theories/Proof_RegionDisjoint.v
theories/Proof_RegionSolid.v
theories/Prop_Region.v
theories/Model_Text.v
theories/Model_Reference.v
theories/Spec_Reference.v
theories/Proof_Reference.v
theories/Prop_Reference.v
theories/Model_Hypotheses.v
theories/Spec_Hypotheses.v
theories/Proof_Hypotheses.v
theories/Prop_Hypotheses.v
theories/Model_Hull.v
theories/Spec_Hull.v
theories/Proof_Hull.v
theories/Model_ExponentPair.v
theories/Spec_ExponentPair.v
theories/Proof_ExponentPair.v
theories/Proof_ExpSearch.v
theories/Proof_ExpLit.v
theories/Prop_ExponentPair.v
theories/Proof_ExpDual.v
theories/Proof_ExpRound.v
theories/Prop_ExpDual.v
theories/Model_BoundMu.v
theories/Spec_BoundMu.v
theories/Proof_BoundMu.v
theories/Prop_BoundMu.v
theories/Spec_ExpProof.v
theories/Proof_ExpProof.v
theories/Prop_ExpProof.v
theories/Spec_Support.v
theories/Prop_Support.v
theories/Model_Format.v
theories/Model_LargeValues.v
theories/Model_ZetaLargeValues.v
theories/Spec_LargeValues.v
theories/Proof_LargeValues.v
theories/Prop_LargeValues.v
theories/Proof_ZetaLargeValues.v
theories/Prop_ZetaLargeValues.v
theories/Model_Piecewise.v
theories/Spec_Piecewise.v
theories/Proof_Piecewise.v
theories/Proof_PiecewiseSimplify.v
theories/Prop_Piecewise.v
theories/Spec_Format.v
theories/Proof_Format.v
theories/Prop_Format.v
theories/Model_AdditiveEnergy.v
theories/Spec_AdditiveEnergy.v
theories/Proof_AdditiveEnergy.v
theories/Prop_AdditiveEnergy.v
theories/Spec_Edges.v
theories/Proof_Edges.v
theories/Prop_Roots.v
theories/Model_ZeroDensity.v
theories/Spec_ZeroDensity.v
theories/Proof_ZeroDensity.v
theories/Prop_ZeroDensity.v
theories/Model_DensityEstimate.v
theories/Spec_DensityEstimate.v
theories/Prop_DensityEstimate.v
theories/Model_LargeValueRegion.v
theories/Spec_LargeValueRegion.v
theories/Prop_LargeValueRegion.v
theories/Model_DensityDerivation.v
theories/Spec_DensityDerivation.v
theories/Prop_DensityDerivation.v
theories/Model_Formula.v
theories/Spec_Formula.v
theories/Proof_Formula.v
theories/Prop_Formula.v
theories/Model_DensityEnergy.v
theories/Spec_DensityEnergy.v
theories/Prop_DensityEnergy.v
theories/Model_EnergyDerivation.v
theories/Spec_EnergyDerivation.v
theories/Proof_EnergyDerivation.v
theories/Prop_EnergyDerivation.v
theories/Model_PrimeGap.v
theories/Spec_PrimeGap.v
theories/Prop_PrimeGap.v
theories/Model_DensityRoutes.v
theories/Spec_DensityRoutes.v
theories/Prop_DensityRoutes.v
theories/Model_PairDensity.v
theories/Spec_PairDensity.v
theories/Prop_PairDensity.v
theories/Model_LiteratureLV.v
theories/Spec_LiteratureLV.v
theories/Prop_LiteratureLV.v
theories/Model_LiteratureEnergy.v
theories/Spec_LiteratureEnergy.v
theories/Prop_LiteratureEnergy.v
theories/Model_LiteratureZD.v
theories/Spec_LiteratureZD.v
theories/Prop_LiteratureZD.v
theories/Model_IntervalText.v
theories/Spec_IntervalText.v
theories/Prop_IntervalText.v
theories/Model_LiteratureBeta.v
theories/Spec_LiteratureBeta.v
theories/Prop_LiteratureBeta.v
theories/Model_LiteraturePairs.v
theories/Spec_LiteraturePairs.v
theories/Proof_LiteraturePairs.v
theories/Prop_LiteraturePairs.v
theories/Prop_LiteratureMu.v
theories/Proof_BestShared.v
theories/Prop_BestShared.v
theories/Model_Derived.v
theories/Spec_Derived.v
theories/Proof_Derived.v
theories/Proof_Derived2.v
theories/Proof_Derived3.v
theories/Prop_Derived.v
theories/Proof_RegionSplit.v
theories/Spec_Anchored.v
theories/Proof_HalfSplit.v
theories/Proof_SupExact.v
theories/Model_DerivedDensity.v
theories/Spec_DerivedDensity.v
theories/Proof_DerivedDensity.v
theories/Prop_DerivedDensity.v
theories/Model_ZetaDensity.v
theories/Spec_ZetaDensity.v
theories/Proof_ZetaDensity.v
theories/Prop_ZetaDensity.v
theories/Model_BourgainOptimum.v
theories/Spec_BourgainOptimum.v
theories/Prop_BourgainOptimum.v
theories/Model_GuthMaynard.v
theories/Spec_GuthMaynard.v
theories/Proof_GuthMaynard.v
theories/Prop_GuthMaynard.v
theories/Proof_EnergyFlat.v
theories/Proof_EnergyTwo.v
theories/Model_EnergyProofs.v
theories/Spec_EnergyProofs.v
theories/Proof_EnergyProofs.v
theories/Proof_EnergyTwoValue.v
theories/Proof_EnergyJutila.v
theories/Proof_EnergyGM.v
theories/Prop_EnergyProofs.v
theories/Model_PrimeGapProof.v
theories/Spec_PrimeGapProof.v
theories/Prop_PrimeGapProof.v
theories/Model_PrimeGapDensity.v
theories/Spec_PrimeGapDensity.v
theories/Prop_PrimeGapDensity.v

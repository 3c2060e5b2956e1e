-Q theories Verif
theories/Base.v
theories/PolyLib.v
theories/PolySetsModel.v
theories/PolySetsProofs.v
theories/PolyVec.v
theories/RTNedelecProofs.v
theories/NedelecSpan.v
theories/PyramidProofs.v
theories/SerendipityFields.v
theories/PropertiesPolySets.v
theories/CacheModel.v
theories/CacheProofs.v
theories/PropertiesCache.v
theories/RegistryModel.v
theories/RegistryProofs.v
theories/PropertiesRegistry.v
theories/LinAlg.v
theories/CiarletModel.v
theories/CiarletProofs.v
theories/PropertiesCiarlet.v
theories/ElementModel.v
theories/ElementProofs.v
theories/PropertiesElement.v
theories/QuadratureModel.v
theories/QuadratureProofs.v
theories/PropertiesQuadrature.v
theories/MappingsModel.v
theories/MappingsProofs.v
theories/PropertiesMappings.v
theories/ReferencesModel.v
theories/ReferencesSpec.v
theories/ReferencesProofs.v
theories/ReferencesGeometry.v
theories/ReferencesTopology.v
theories/ReferencesLattice.v
theories/PropertiesReferences.v
theories/FunctionsModel.v
theories/FunctionsSpec.v
theories/FunctionsProofs.v
theories/FunctionsArith.v
theories/FunctionsSubs.v
theories/PropertiesFunctions.v
theories/GeometryModel.v
theories/GeometryProofs.v
theories/IntersectionProofs.v
theories/PropertiesGeometry.v
theories/UtilsModel.v
theories/PropertiesUtils.v
theories/FunctionalsModel.v
theories/FunctionalsSpec.v
theories/FunctionalsProofs.v
theories/FunctionalsValues.v
theories/PropertiesFunctionals.v
theories/MomentsModel.v
theories/PropertiesMoments.v
theories/PiecewiseModel.v
theories/PiecewiseProofs.v
theories/PropertiesPiecewise.v
theories/UnisolvenceProofs.v
theories/LagrangeModel.v
theories/LagrangeProofs.v
theories/LagrangeKey.v
theories/LagrangeUnisolvence.v
theories/PropertiesLagrange.v
theories/QProofs.v
theories/QDofs.v
theories/PropertiesQ.v
theories/LegendreModel.v
theories/LegendreSpec.v
theories/LegendreTables.v
theories/LegendreProofs.v
theories/LegendreTet.v
theories/LegendreRows.v
theories/LegendrePyramid.v
theories/LegendreDeriv.v
theories/PropertiesLegendre.v
theories/LegendreJacobi.v
theories/LegendreOrtho.v
theories/LegendreIntSpec.v
theories/LegendreIntegrals.v
theories/LegendreBases.v
theories/PropertiesOrthogonal.v
theories/BernsteinModel.v
theories/BernsteinProofs.v
theories/BernsteinSums.v
theories/PropertiesBernstein.v
theories/SpanLib.v
theories/BubbleModel.v
theories/BubbleProofs.v
theories/BubbleTensor.v
theories/PropertiesBubble.v
theories/CRModel.v
theories/CRProofs.v
theories/PropertiesCR.v
theories/DualModel.v
theories/DualProofs.v
theories/BCProofs.v
theories/PropertiesDual.v
theories/MacroModel.v
theories/MacroSpec.v
theories/MacroProofs.v
theories/MacroUnisolvence.v
theories/MacroIso.v
theories/PropertiesMacro.v
theories/NodalModel.v
theories/NodalSpec.v
theories/NodalProofs.v
theories/NodalElements.v
theories/HermiteProofs.v
theories/HermiteElements.v
theories/KmvProofs.v
theories/KmvElements.v
theories/ConformProofs.v
theories/KmvConform.v
theories/HermiteConform.v
theories/BellProofs.v
theories/PropertiesNodal.v
theories/FamiliesModel.v
theories/FamiliesSpec.v
theories/FamiliesMoments.v
theories/FamiliesBuilt.v
theories/FamiliesSimplex.v
theories/FamiliesSimplex2.v
theories/FamiliesAW.v
theories/FamiliesTensor.v
theories/FamiliesTensor2.v
theories/FamiliesTensor3.v
theories/FamiliesPrism.v
theories/PropertiesFamilies.v
theories/DegreesModel.v
theories/DegreesSpec.v
theories/DegreesLib.v
theories/DegreesUnits.v
theories/DegreesTrimmed.v
theories/DegreesFamilies.v
theories/DegreesEnriched.v
theories/DegreesMore.v
theories/DegreesTrimmedSerendipity.v
theories/PropertiesDegrees.v
theories/PointsModel.v
theories/PointsSpec.v
theories/PointsProofs.v
theories/PointsElements.v
theories/PointsPrism.v
theories/PointsCR.v
theories/PointsTraces.v
theories/PropertiesPoints.v
theories/MomentsInt.v
theories/MomentsParts.v
theories/MomentsRT.v
theories/MomentsBox.v
theories/MomentElementsModel.v
theories/MomentElementsSpec.v
theories/MomentElementsProofs.v
theories/MomentsFacets.v
theories/MomentsRaviart.v
theories/MomentsRTDual.v
theories/MomentsNedelec.v
theories/MomentsBubble.v
theories/MomentsTet.v
theories/MomentsCurl3.v
theories/MomentsBDM.v
theories/PropertiesMomentElements.v
theories/QFieldSpec.v
theories/QFieldGeometry.v
theories/QFieldProofs.v
theories/QFieldDual.v
theories/PropertiesQField.v
theories/DirectModel.v
theories/DirectSpec.v
theories/DirectProofs.v
theories/DirectSpan.v
theories/PropertiesDirect.v
theories/SerendipityModel.v
theories/SerendipitySpec.v
theories/SerendipityKernel.v
theories/SerendipityGeometry.v
theories/SerendipityProofs.v
theories/PropertiesSerendipity.v
theories/SerendipityFieldModel.v
theories/SerendipityFieldSpec.v
theories/SerendipityFieldKernel.v
theories/SerendipityFieldSpaces.v
theories/SerendipityFieldProofs.v
theories/PropertiesSerendipityField.v
theories/SerendipityCurlSpec.v
theories/SerendipityCurlKernel.v
theories/SerendipityCurlTraces.v
theories/SerendipityCurlSpaces.v
theories/SerendipityCurlProofs.v
theories/PropertiesSerendipityCurl.v
theories/StressSpec.v
theories/StressProofs.v
theories/StressSmall.v
theories/PropertiesStress.v
theories/TransitionModel.v
theories/TransitionSpec.v
theories/TransitionProofs.v
theories/TransitionElement.v
theories/TransitionDual.v
theories/TransitionGeneral.v
theories/PropertiesTransition.v
theories/TaylorModel.v
theories/TaylorSpec.v
theories/TaylorProofs.v
theories/TaylorElement.v
theories/TaylorFunctions.v
theories/PropertiesTaylor.v
theories/BernardiModel.v
theories/BernardiSpec.v
theories/BernardiProofs.v
theories/PropertiesBernardi.v
theories/Bernardi2Model.v
theories/Bernardi2Spec.v
theories/Bernardi2Proofs.v
theories/Bernardi2Element.v
theories/PropertiesBernardi2.v

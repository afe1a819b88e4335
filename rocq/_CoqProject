-Q theories Verif
theories/Base.v
theories/BaseLemmas.v
theories/Spec.v
theories/ModelInternal.v
theories/ModelLine.v
theories/SpecLemmas.v
theories/PLine.v
theories/PLineEx.v
theories/ModelCircle.v
theories/PCircle.v
theories/PInvBase.v
theories/PCircle2.v
theories/PCircleEx.v
theories/ModelAffine.v
theories/ModelEllipse.v
theories/ModelTransfo.v
theories/ModelBatch.v
theories/PAffine.v
theories/PReflect.v
theories/PTransfo.v
theories/PBatch.v
theories/PTransfoEx.v
theories/PEllipse.v
theories/PEllipse2.v
theories/PEllipse3.v
theories/PEllipse4.v
theories/PEllipse5.v
theories/PEllipse6.v
theories/PEllipseEx.v
theories/SpecTriangle.v
theories/ModelTriangle.v
theories/PTriangle.v
theories/PTriangle2.v
theories/PTriangle3.v
theories/PTriangle4.v
theories/PTriangle5.v
theories/PTriangle6.v
theories/PTriangleEx.v
theories/ModelInversion.v
theories/ModelMobius.v
theories/PInversion.v
theories/PInversion2.v
theories/PSteiner.v
theories/PSteiner2.v
theories/POrtho.v
theories/PInversionEx.v
theories/SpecMobius.v
theories/PMobius.v
theories/PMobius2.v
theories/PMobius3.v
theories/PMobius4.v
theories/PMobius5.v
theories/PMobiusEx.v
theories/PropertiesLine.v
theories/PropertiesCircle.v
theories/PMat3.v
theories/PropertiesTransfo.v
theories/PropertiesEllipse.v
theories/PropertiesTriangle.v
theories/PropertiesInversion.v
theories/PropertiesMobius.v
theories/ModelFarey.v
theories/PFarey.v
theories/PropertiesFarey.v
theories/ModelPy.v
theories/SpecPy.v
theories/PPy.v
theories/PropertiesPy.v
theories/ModelHeap.v
theories/PHeap.v
theories/PropertiesHeap.v
theories/ModelShow.v
theories/SpecShow.v
theories/PShow.v
theories/PropertiesShow.v
theories/SpecF64.v
theories/ModelFloat.v
theories/PFloat.v
theories/PFloat2.v
theories/PFloat3.v
theories/PFloat4.v
theories/PFloatCircle.v
theories/PFloatCircle2.v
theories/PFloatLine.v
theories/PFloatAngle.v
theories/PFloatGrid.v
theories/PFloatMisc.v
theories/PFloatMisc2.v
theories/PFloatTol.v
theories/PFloatEx.v
theories/PropertiesFloat.v
theories/SpecSym.v
theories/PSym.v
theories/PSym2.v
theories/PSym3.v
theories/PSym4.v
theories/PSym5.v
theories/PSymEx.v
theories/PropertiesSym.v
theories/ModelBilliard.v
theories/PBilliard.v
theories/PBilliardEx.v
theories/PropertiesBilliard.v
theories/ModelTangentCircles.v
theories/PTangentCircles.v
theories/PTangentCirclesEx.v
theories/PropertiesTangentCircles.v
theories/ModelAlias.v
theories/PAlias.v
theories/PropertiesAlias.v
theories/ModelFloatTransfo.v
theories/PFloatPi.v
theories/PFloatTransfo.v
theories/PropertiesFloatTransfo.v
theories/ModelGasket.v
theories/SpecGasket.v
theories/PGasket1.v
theories/PGasket2.v
theories/PGasket3.v
theories/PGasket4.v
theories/PGasket5.v
theories/PGasket6.v
theories/PGasket7.v
theories/PGasket8.v
theories/PGasket9.v
theories/PGasket10.v
theories/PGasket11.v
theories/PGasket12.v
theories/PGasket13.v
theories/PGasket14.v
theories/PGasketEx.v
theories/PropertiesGasket.v
theories/PInterWhich.v
theories/PropertiesMore.v
theories/ModelApollonian.v
theories/SpecApollonian.v
theories/PApo1.v
theories/PApo2.v
theories/PApo3.v
theories/PApo4.v
theories/PApo5.v
theories/PApo6.v
theories/PApoEx.v
theories/PMalApo1.v
theories/PMalApo2.v
theories/PMalApo3.v
theories/PMalApo4.v
theories/PMalApo5.v
theories/PMalApoEx.v
theories/PropertiesMalApo.v
theories/ModelModular.v
theories/SpecModular.v
theories/PDisc.v
theories/PModular1.v
theories/PModular2.v
theories/PModular3.v
theories/PModular4.v
theories/PropertiesModular.v
theories/ModelMobiusGasket.v
theories/SpecMobiusGasket.v
theories/PMobGasket1.v
theories/PMobGasket2.v
theories/PMobGasketEx.v
theories/PropertiesMobGasket.v
theories/ModelHyperbolic.v
theories/SpecHyperbolic.v
theories/PHyp1.v
theories/PHyp2.v
theories/PHyp3.v
theories/PHyp4.v
theories/PHyp5.v
theories/PHypEx.v
theories/PropertiesHyperbolic.v
theories/SpecCompose.v
theories/PCompose.v
theories/PropertiesCompose.v
theories/ModelCircular.v
theories/PCirc1.v
theories/PCirc2.v
theories/PCirc3.v
theories/PCirc4.v
theories/PCirc5.v
theories/PCirc6.v
theories/PCirc7.v
theories/PCirc8.v
theories/PCircEx.v
theories/PropertiesCircular.v
theories/ModelSchottky.v
theories/SpecSchottky.v
theories/PSchottky1.v
theories/PSchottky2.v
theories/PSchottky3.v
theories/PSchottky4.v
theories/PSchottky5.v
theories/PropertiesSchottky.v
theories/ModelInversions.v
theories/SpecInversions.v
theories/PInversions1.v
theories/PInversions2.v
theories/PInversions3.v
theories/PInversions4.v
theories/PInversions5.v
theories/PropertiesInversions.v
theories/ModelSteinerEx.v
theories/SpecSteinerEx.v
theories/PSteinerEx1.v
theories/PSteinerEx2.v
theories/PApoAnim.v
theories/PropertiesApollonian.v
theories/PSteinerEx3.v
theories/PSteinerEx4.v
theories/PSteinerEx5.v
theories/PropertiesSteinerEx.v
theories/ModelIcosa.v
theories/SpecIcosa.v
theories/PIcosa1.v
theories/PIcosa2.v
theories/PIcosa3.v
theories/PIcosa4.v
theories/PropertiesIcosa.v
theories/ModelBoundary4.v
theories/SpecBoundary4.v
theories/PBoundary4a.v
theories/PBoundary4b.v
theories/PBoundary4c.v
theories/PBoundary4d.v
theories/PBoundary4e.v
theories/PropertiesBoundary4.v
theories/ModelLowner.v
theories/SpecLowner.v
theories/PLowner1.v
theories/PLowner2.v
theories/PLowner3.v
theories/PLowner4.v
theories/PLowner5.v
theories/PLowner6.v
theories/PLowner7.v
theories/PropertiesLowner.v
theories/SpecRandom.v
theories/PRandom.v
theories/PRandomEx.v
theories/PropertiesRandom.v
theories/PAffEq.v
theories/PAffEq2.v
theories/PAffEqEx.v
theories/PropertiesAffEq.v
theories/PFeuerbach.v
theories/PFeuerbach2.v
theories/PFeuerbach3.v
theories/PropertiesFeuerbach.v
theories/ModelMobWord.v
theories/PMobCirc.v
theories/PMobCircEx.v
theories/PropertiesMobCirc.v
theories/PKinds.v
theories/PropertiesKinds.v
theories/SpecEllForm.v
theories/PEllUnique.v
theories/PEllUnique2.v
theories/PropertiesEllUnique.v
theories/SpecBilliard.v
theories/ModelBilliardAnim.v
theories/PBilliard2.v
theories/PBilliard3.v
theories/PBilliard3Ex.v
theories/PropertiesBilliard2.v
theories/ModelExample1.v
theories/PExample1.v
theories/PropertiesExample1.v
theories/SpecArea.v
theories/PArea.v
theories/PAreaEx.v
theories/PropertiesArea.v
theories/ModelFloatTri.v
theories/PFloatTri.v
theories/PropertiesFloatTri.v
theories/ModelTests.v
theories/PTests.v
theories/PTests2.v
theories/PTests3.v
theories/PTestsEx.v
theories/PropertiesTests.v
theories/ModelFloatInter.v
theories/PFloatInter.v
theories/PFloatInter2.v
theories/PropertiesFloatInter.v
theories/PInvGeo.v
theories/PropertiesInvGeo.v
theories/SpecIter.v
theories/PMobIter.v
theories/PMobIter2.v
theories/PropertiesMobIter.v
theories/PSteinerEll.v
theories/PSteinerEll2.v
theories/PSteinerEll3.v
theories/PropertiesSteinerEll.v
theories/SpecExtremal.v
theories/PExtremal.v
theories/PExtremal2.v
theories/PropertiesExtremal.v
theories/SpecLibm.v
theories/ModelFloatCC.v
theories/PFloatCC.v
theories/PFloatCC2.v
theories/PFloatCC3.v
theories/PFloatCC4.v
theories/PFloatCCEx.v
theories/PropertiesFloatCC.v
theories/ModelFloatInv.v
theories/SpecFloatInv.v
theories/PFloatInv.v
theories/PropertiesFloatInv.v
theories/ModelFloatIncircle.v
theories/SpecFloatIncircle.v
theories/PFloatIncircle.v
theories/PropertiesFloatIncircle.v
theories/ModelFloatAxis.v
theories/SpecFloatAxis.v
theories/PFloatAxis.v
theories/PropertiesFloatAxis.v
theories/ModelFloatRefl.v
theories/PFloatRefl.v
theories/PropertiesFloatRefl.v
theories/ModelFloatScaling.v
theories/SpecFloatScaling.v
theories/PFloatScaling.v
theories/PropertiesFloatScaling.v
theories/ModelFloatHomCircle.v
theories/PFloatHomCircle.v
theories/PropertiesFloatHomCircle.v
theories/ModelFloatAsAffine.v
theories/SpecFloatSame.v
theories/PFloatAsAffine.v
theories/PropertiesFloatAsAffine.v
theories/ModelFloatCompose.v
theories/PFloatCompose.v
theories/PropertiesFloatCompose.v

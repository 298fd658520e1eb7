-Q theories Verif
theories/Base.v
theories/Num.v
theories/Expr.v
theories/Ghost.v
theories/Simplify.v
theories/Calculus.v
theories/FindZeros.v
theories/MatrixM.v
theories/Linear.v
theories/InFixSer.v
theories/FromInFix.v
theories/Spec.v
theories/SpecText.v
theories/TreeProofs.v
theories/PowProofs.v
theories/SemProofs.v
theories/MonadProofs.v
theories/SimplifySound.v
theories/DiffSound.v
theories/IntSound.v
theories/QNum.v
theories/ZerosProofs.v
theories/SpecEquals.v
theories/EqualsProofs.v
theories/PropertiesTree.v
theories/PropertiesSimplify.v
theories/FuelProofs.v
theories/PolyProofs.v
theories/Closure.v
theories/PropertiesCalculus.v
theories/PropertiesSafety.v
theories/PropertiesSubst.v
theories/PropertiesIntegral.v
theories/PropertiesZeros.v
theories/PropertiesMatrix.v
theories/PropertiesLinear.v
theories/InFixProofs.v
theories/PropertiesInFix.v
theories/FromPALM.v
theories/PalmProofs.v
theories/PropertiesPalm.v
theories/SpecMarkup.v
theories/SpecPoly.v
theories/TeXSer.v
theories/TeXProofs.v
theories/PropertiesTeX.v
theories/MathMLSer.v
theories/MathMLProofs.v
theories/SpecXml.v
theories/XmlText.v
theories/XmlProofs.v
theories/PropertiesMathML.v
theories/PolySem.v
theories/DoubleNum.v
theories/PropertiesPoly.v
theories/SpecEvaluate.v
theories/PropertiesEvaluate.v
theories/PolyDiff.v
theories/PolyDiffSem.v
theories/PropertiesPolyDiff.v
theories/PropertiesLinearPoly.v
theories/Frontends.v
theories/SpecLine.v
theories/LineProofs.v
theories/PropertiesFrontends.v
theories/SpecProd.v
theories/ProdProofs.v
theories/ProdSem.v
theories/PropertiesProd.v
theories/PropertiesOperators.v
theories/SpecQuot.v
theories/QuotProofs.v
theories/PropertiesQuot.v
theories/SpecTyped.v
theories/TypedProofs.v
theories/PropertiesTyped.v
theories/PropertiesTypedCalculus.v
theories/SpecValue.v
theories/PolyComb.v
theories/PropertiesTypedValue.v
theories/SpecInput.v
theories/InputProofs.v
theories/PropertiesInput.v
theories/SpecNumeral.v
theories/SpecDecimal.v
theories/Numerals.v
theories/NumeralProofs.v
theories/PropertiesNumeral.v
theories/PropertiesDecimal.v
theories/PropertiesXml.v
theories/SpecAnswer.v
theories/PropertiesAnswer.v
theories/ZerosBound.v
theories/PropertiesZerosInt.v
theories/PropertiesUnevaluated.v
theories/SumProofs.v
theories/SpecPolyInt.v
theories/PolyInt.v
theories/PolyIntSem.v
theories/PropertiesPolyInt.v
theories/PropertiesDefinite.v
theories/PropertiesReread.v
theories/PropertiesScale.v
theories/LikeProofs.v
theories/PropertiesLike.v
theories/PropertiesIdentities.v
theories/PropertiesFundamental.v
theories/PropertiesMoreIdentities.v
theories/PropertiesSwap.v
theories/PropertiesParts.v
theories/PropertiesNodes.v
theories/PropertiesMatrixRest.v
theories/PropertiesPage.v
theories/PropertiesExact.v
theories/PropertiesAgree.v
theories/PropertiesLinearExact.v

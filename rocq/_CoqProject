-Q theories Verif
theories/AchProofs.v
theories/AchProofs2.v
theories/AchProofs3.v
theories/AchProofs4.v
theories/AchProofs5.v
theories/AchProofs6.v
theories/AchProofs7.v
theories/AchProofs8.v
theories/AchProofs9.v
theories/AchSpec.v
theories/AchTab.v
theories/Addition.v
theories/AnnInt.v
theories/AnnProofs.v
theories/Arr.v
theories/BigQlm.v
theories/BigSpec.v
theories/BodyInt.v
theories/BodyLim.v
theories/BodyPair.v
theories/BodyShapes.v
theories/BodySpec.v
theories/Budget.v
theories/BuiltSpec.v
theories/CDeriv.v
theories/CGOrth.v
theories/CGSpec.v
theories/ClebschGordan.v
theories/ClebschGordanProofs.v
theories/Cplx.v
theories/Crossed.v
theories/CrossedM.v
theories/EllSpec.v
theories/Elliptic.v
theories/Fine.v
theories/Fine2.v
theories/Fine3.v
theories/Fine4.v
theories/Fine5.v
theories/FineSpec.v
theories/FlGlib.v
theories/FlMom.v
theories/FlMomSpec.v
theories/FlMoms.v
theories/FlMoves.v
theories/FlOut.v
theories/FlYuk.v
theories/FlYukSpec.v
theories/FloatSpec.v
theories/Fps.v
theories/GLCount.v
theories/GLEven.v
theories/GLLimit.v
theories/GLPieces.v
theories/GLPoints.v
theories/GLPrism.v
theories/GLProofs.v
theories/GLRefineSpec.v
theories/GLShapes.v
theories/GLSolid.v
theories/GLSound.v
theories/GLSpec.v
theories/GLTends.v
theories/GShapeGL.v
theories/Gauss.v
theories/GenCad.v
theories/Glib.v
theories/GlibProofs.v
theories/GlibProofs2.v
theories/GlibShapes.v
theories/GlibShapesProofs.v
theories/GlibSpec.v
theories/Hyper.v
theories/Irreg.v
theories/Irreg2.v
theories/Irreg3.v
theories/Irreg4.v
theories/Legendre.v
theories/LipInt.v
theories/MathSpec.v
theories/Matlab.v
theories/MemProofs.v
theories/MemRun.v
theories/MemSpec.v
theories/Memory.v
theories/MomentSpec.v
theories/MultipoleLib.v
theories/MultipoleProofs.v
theories/MultipoleProofs2.v
theories/Newton.v
theories/NewtonSpec.v
theories/NumExist.v
theories/NumExist2.v
theories/NumProofs.v
theories/NumSpec.v
theories/Pg2Multi.v
theories/Pg2MultiProofs.v
theories/PointSpec.v
theories/Polar.v
theories/Props_ACH.v
theories/Props_ACH2.v
theories/Props_BigQlm.v
theories/Props_BigQlm2.v
theories/Props_Body.v
theories/Props_Budget.v
theories/Props_CG.v
theories/Props_CG2.v
theories/Props_Cross.v
theories/Props_Cube.v
theories/Props_Cyl.v
theories/Props_Fine.v
theories/Props_Float.v
theories/Props_Float2.v
theories/Props_Float3.v
theories/Props_Float4.v
theories/Props_Float5.v
theories/Props_Float6.v
theories/Props_Float7.v
theories/Props_GL.v
theories/Props_GL2.v
theories/Props_GL3.v
theories/Props_GLRefine.v
theories/Props_Glib.v
theories/Props_Glib2.v
theories/Props_GlibShapes.v
theories/Props_GlibShapes2.v
theories/Props_Heap.v
theories/Props_Matlab.v
theories/Props_Matlab2.v
theories/Props_Matlab3.v
theories/Props_Matlab4.v
theories/Props_Matlab5.v
theories/Props_Memory.v
theories/Props_Mesh.v
theories/Props_Moments.v
theories/Props_Multipole.v
theories/Props_New.v
theories/Props_Newton.v
theories/Props_Num.v
theories/Props_Num2.v
theories/Props_Qlm.v
theories/Props_Qlm2.v
theories/Props_Quad.v
theories/Props_Rate.v
theories/Props_Rate2.v
theories/Props_Rate3.v
theories/Props_Read.v
theories/Props_Read2.v
theories/Props_Read3.v
theories/Props_Read4.v
theories/Props_Recipe.v
theories/Props_Refine.v
theories/Props_Rep.v
theories/Props_Rotations.v
theories/Props_Rotor.v
theories/Props_RotorLoop.v
theories/Props_Save.v
theories/Props_Series.v
theories/Props_Series2.v
theories/Props_Shapes.v
theories/Props_Shapes2.v
theories/Props_Torque.v
theories/Props_TransRec.v
theories/Props_Translations.v
theories/Props_Yuk.v
theories/Props_Yuk1.v
theories/PyStr.v
theories/Qlm.v
theories/QlmACH.v
theories/QlmCyl.v
theories/QlmNum.v
theories/QlmProofs.v
theories/QlmProofs2.v
theories/QlmProofs3.v
theories/QlmProofs4.v
theories/QlmProofs5.v
theories/QlmProofs6.v
theories/QlmProofs7.v
theories/Quad.v
theories/QuadSpec.v
theories/ReadMulti.v
theories/ReadProofs.v
theories/ReadProofs2.v
theories/ReadProofs3.v
theories/ReadProofs4.v
theories/ReadProofs5.v
theories/ReadSpec.v
theories/RecipeSpec.v
theories/Refine.v
theories/Refine10.v
theories/Refine2.v
theories/Refine3.v
theories/Refine4.v
theories/Refine5.v
theories/Refine6.v
theories/Refine7.v
theories/Refine8.v
theories/Refine9.v
theories/RefineSpec.v
theories/Res.v
theories/RotSpec.v
theories/Rotations.v
theories/RotationsProofs.v
theories/RotationsProofs2.v
theories/Rotor.v
theories/RotorLoop.v
theories/Save.v
theories/SeriesSpec.v
theories/ShapeSpec.v
theories/Shapes.v
theories/ShapesHeap.v
theories/ShapesProofs.v
theories/Solid.v
theories/SolidSpec.v
theories/Sums.v
theories/TransRecProofs.v
theories/TransSpec.v
theories/TranslationRecurs.v
theories/Translations.v
theories/TranslationsProofs.v
theories/Tri.v
theories/VInt.v
theories/Wigner.v
theories/YukSpec.v
theories/Yukawa.v

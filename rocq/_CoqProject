-Q theories Verif
theories/Num.v
theories/Vectors.v
theories/Spec.v
theories/Transform.v
theories/Pos3D.v
theories/Pos3DThm.v
theories/FromThm.v
theories/PosLow.v
theories/Prolate.v
theories/Dispatch.v
theories/Range.v
theories/RoundTrip.v
theories/Embed.v
theories/ProlateThm.v
theories/PosGlue.v
theories/PosFindings.v
theories/PropPos.v
theories/Arith.v
theories/ArithThm.v
theories/ArithThm2.v
theories/PropArith.v
theories/Vel.v
theories/SpecVel.v
theories/VelAt.v
theories/DualPos.v
theories/DualThm.v
theories/VelHom.v
theories/VelPush.v
theories/VelThm.v
theories/VelLow.v
theories/VelProlate.v
theories/VelProlate2.v
theories/VelRound.v
theories/AccThm.v
theories/VelMisc.v
theories/PropVel.v
theories/FourVec.v
theories/Operators.v
theories/SpecOp.v
theories/OpThm.v
theories/OpInv.v
theories/OpVel.v
theories/OpVel2.v
theories/OpGlue.v
theories/OpMisc.v
theories/OpSimp.v
theories/PropOp.v
theories/PropOp2.v
theories/PropOp3.v
theories/Frames.v
theories/SpecFrame.v
theories/FrameThm.v
theories/PropFrame.v
theories/Distances.v
theories/PropDist.v
theories/Units.v
theories/UnitsThm.v
theories/PropUnits.v
theories/Shapes.v
theories/ShapesThm.v
theories/PropShape.v
theories/Space.v
theories/SpaceThm.v
theories/PropSpace.v
theories/PropSpace2.v
theories/Poincare.v
theories/PropPoincare.v
theories/Arrays.v
theories/PropArray.v
theories/PropND.v
theories/PropTrace.v
theories/Astropy.v
theories/PropAstropy.v
theories/Batch.v
theories/BatchThm.v
theories/PropBatch.v
theories/Rotations.v
theories/PropRot.v
theories/Funcs.v
theories/PropFuncs.v
theories/Scale.v
theories/PropScale.v
theories/Construct.v
theories/PropConstruct.v
theories/VelArith.v
theories/VelLin.v
theories/PropVelArith.v
theories/Normalize.v
theories/PropNormalize.v
theories/BatchOps.v
theories/PropBatchOps.v
theories/Fields.v
theories/PropFields.v
theories/PropAlgebra.v
theories/Rel.v
theories/UQ.v
theories/UQThm.v
theories/PropUQ.v
theories/UVel.v
theories/UVelThm.v
theories/PropUVel.v
theories/Float.v
theories/FloatThm.v
theories/FloatConv.v
theories/PropFloat.v
theories/PropFloat2.v
theories/PropFloat3.v
theories/Prims.v
theories/PropPrims.v
theories/RelArith.v
theories/PropUnitArith.v
theories/FloatArith.v
theories/PropFloat4.v
theories/GOp.v
theories/GOpThm.v
theories/UOpThm.v
theories/PropUnitOp.v
theories/FloatOp.v
theories/PropFloat5.v
theories/GFrame.v
theories/UFrameThm.v
theories/PropUnitFrame.v
theories/GOpVel.v
theories/UOpVel.v
theories/PropUnitOpVel.v
theories/GFour.v
theories/PropUnitFour.v
theories/TreeArith.v
theories/GVelArith.v
theories/PropUnitVel.v
theories/BatchArith.v
theories/PropBatchArith.v
theories/BFour.v
theories/PropBFour.v
theories/FVel.v
theories/PropFloat6.v
theories/PropFloat7.v
theories/UDist.v
theories/PropUDist.v
theories/PropFloat8.v
theories/FFrame.v
theories/SpecFFrame.v
theories/FFrameThm.v
theories/PropFloat9.v
theories/FFour.v
theories/PropFloat10.v
theories/FVelArith.v
theories/PropFloat11.v
theories/FDist.v
theories/FDistThm.v
theories/PropFloat12.v
theories/PropMore.v
theories/FOpVel.v
theories/PropFloat13.v
theories/PropFloat14.v
theories/PropFloat15.v
theories/PropFloat16.v
theories/PropFloat17.v
theories/FNorm.v
theories/PropFloat18.v
theories/FUQ.v
theories/PropFloat19.v
theories/PropFloat20.v
theories/PropFloat21.v

-Q theories Verif
theories/Base.v
theories/Num.v
theories/Shape.v
theories/Utils.v
theories/Points.v
theories/Triangles.v
theories/Front.v
theories/Sweeper.v
theories/Cdt.v
theories/F64.v
theories/Loader.v
theories/Lists.v
theories/BuilderSpec.v
theories/Exact.v
theories/F64Exact.v
theories/Spec.v
theories/Monad.v
theories/History.v
theories/FloatLaws.v
theories/SortSpec.v
theories/ShapeSpec.v
theories/PropsRefuted.v
theories/PropsBuilder.v
theories/PropsShape.v
theories/Traverse.v
theories/TraceSpec.v
theories/Grow.v
theories/PropsTrace.v
theories/PropsLoader.v
theories/Safe.v
theories/SafeSweep.v
theories/Flood.v
theories/BuilderRange.v
theories/PropsSafe.v
theories/FrontSpec.v
theories/Geom.v
theories/Mesh.v
theories/Rotate.v
theories/Setup.v
theories/Legal.v
theories/Legalize.v
theories/Boundary.v
theories/Chain.v
theories/Remap.v
theories/Attach.v
theories/FrontInv.v
theories/Winding.v
theories/Cover.v
theories/CoverRun.v
theories/Lawson.v
theories/Cone.v
theories/Planar.v
theories/Disc.v
theories/Stokes.v
theories/Region.v
theories/Inside.v
theories/FanAll.v
theories/Screen.v
theories/Good.v
theories/Marks.v
theories/Flips.v
theories/Corridor.v
theories/Frames.v
theories/Insert.v
theories/LegalTotal.v
theories/Fills.v
theories/Init.v
theories/PropsFront.v
theories/MeshRun.v
theories/MeshStart.v
theories/PropsMesh.v
theories/PropsFlip.v
theories/PropsCover.v
theories/PropsMarks.v
theories/PropsRegion.v
theories/PropsFinal.v
theories/Total.v
theories/FrontSub.v
theories/FillTotal.v
theories/EdgeFill.v
theories/NoCross.v
theories/CorTotal.v
theories/InsertTotal.v
theories/EdgeTotal.v
theories/RunTotal.v
theories/Fuel.v
theories/Local.v
theories/PropsTotal.v
theories/PropsCup.v
theories/PropsTri.v
theories/F64Real.v
theories/IntSpec.v
theories/IntF64.v
theories/IntRun.v
theories/IntHyp.v
theories/PropsInt.v
theories/PropsIntEx.v
theories/PropsFrame.v
theories/Convex.v
theories/ConvexRun.v
theories/PropsConvex.v
theories/Delaunay.v
theories/PropsCdt.v
theories/PropsCdtInt.v
theories/PropsCdtEx.v
theories/PropsLoop.v
theories/PropsOutcome.v
theories/PropsLow.v
theories/Hopf.v
theories/Fan.v
theories/Count.v
theories/HoleWind.v
theories/CountAll.v
theories/PropsCount.v
theories/Unique.v
theories/PropsUnique.v
theories/Moved.v
theories/PropsMoved.v
theories/PropsTiny.v
theories/Outside.v
theories/PropsOutside.v
theories/PropsSteps.v
theories/PropsMachine.v
theories/SweeperBuf.v
theories/PropsBuf.v
theories/Turned.v
theories/PropsTurned.v
theories/PropsAdded.v
theories/PropsCarved.v
theories/PropsNear.v
theories/PropsLowest.v
theories/PropsProfile.v
theories/PropsCalls.v

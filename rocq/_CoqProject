-Q theories Verif

theories/Base.v
theories/PlcConstraints.v
theories/PlcConstraintsProofs.v
theories/PlcConstraintsHist.v
theories/Thm_Constraints.v
theories/PermData.v
theories/Perm.v
theories/PermProofs.v
theories/Thm_Perm.v
theories/Iterators.v
theories/IteratorsProofs.v
theories/Thm_Iterators.v
theories/PlcVect.v
theories/PlcVectProofs.v
theories/Thm_Vect.v
theories/PlcStrands.v
theories/PlcStrandsProofs.v
theories/Thm_Strands.v
theories/Containers.v
theories/ContainersSpec.v
theories/ContainersProofs.v
theories/Thm_Containers.v
theories/PdStore.v
theories/PdStoreSpec.v
theories/PdStoreProofs.v
theories/Thm_Store.v
theories/Sorting.v
theories/Pd.v
theories/PdSpec.v
theories/PdProofs.v
theories/PdExamples.v
theories/Thm_Pd.v
theories/ListAux.v
theories/Orbits.v
theories/PdFaces.v
theories/PdFacesProofs.v
theories/Thm_Faces.v
theories/Relabel.v
theories/RelabelProofs.v
theories/SlotCount.v
theories/PdCross.v
theories/PdCrossProofs.v
theories/Thm_Cross.v
theories/PdEdges.v
theories/Places.v
theories/PdEdgesProofs.v
theories/Thm_Edges.v
theories/Cycles.v
theories/Strands.v
theories/PdComps.v
theories/PdCompsProofs.v
theories/Thm_Comps.v
theories/HashSpec.v
theories/HashProofs.v
theories/Base64.v
theories/Base64Proofs.v
theories/CycleMatch.v
theories/HashIso.v
theories/PdHash.v
theories/Thm_Hash.v
theories/RelabelSym.v
theories/PdRegen.v
theories/RegenSpec.v
theories/RegenProofs.v
theories/Thm_Regen.v
theories/PdPack.v
theories/PackProofs.v
theories/RestProofs.v
theories/Thm_Pack.v
theories/OverUnder.v
theories/OverUnderSpec.v
theories/OverUnderProofs.v
theories/AltProofs.v
theories/LinkProofs.v
theories/Thm_OverUnder.v
theories/PdIso.v
theories/IsoSpec.v
theories/IsoOpsProofs.v
theories/Thm_IsoOps.v
theories/PdOps.v
theories/Carry.v
theories/CarryProofs.v
theories/ApplyProofs.v
theories/ReorientProofs.v
theories/Thm_Ops.v
theories/Homology.v
theories/Planar.v
theories/PlanarProofs.v
theories/Thm_Planar.v
theories/DiagIso.v
theories/IsoSound.v
theories/Thm_Iso.v
theories/KAscent.v
theories/KAscentSpec.v
theories/KAscentProofs.v
theories/Thm_KAscent.v
theories/Hypersimplex.v
theories/Thm_Hypersimplex.v
theories/Xoshiro.v
theories/XoshiroProofs.v
theories/Thm_Xoshiro.v
theories/XoshiroData.v
theories/XoshiroJump.v
theories/Thm_Jump.v
theories/Triang.v
theories/TriangSpec.v
theories/TriangProofs.v
theories/Thm_Triang.v
theories/Poly.v
theories/PolySpec.v
theories/Thm_Poly.v
theories/Compact.v
theories/Thm_Compact.v
theories/CycleSurgery.v
theories/Moves.v
theories/MoveSpec.v
theories/MoveProofs.v
theories/Thm_LoopAdd.v
theories/Deloop.v
theories/DeloopSpec.v
theories/DeloopProofs.v
theories/DeloopComps.v
theories/Thm_LoopDel.v
theories/FewComps.v
theories/Simplify.v
theories/Thm_Simplify.v
theories/Interlace.v
theories/InterlaceSpec.v
theories/InterlaceProofs.v
theories/Thm_Interlace.v
theories/Split.v
theories/SplitSpec.v
theories/SplitProofs.v
theories/SplitChild.v
theories/Thm_Split.v
theories/Exchange.v
theories/ConnectSum.v
theories/ConnectSpec.v
theories/ConnectProofs.v
theories/Thm_ConnectSum.v
theories/Unsigned.v
theories/TextIO.v
theories/TextSpec.v
theories/TextProofs.v
theories/Thm_Text.v
theories/DartMap.v
theories/AlikeProofs.v
theories/IsoImages.v
theories/IsoEnum.v
theories/IsoEdges.v
theories/IsoComplete.v
theories/Thm_IsoComplete.v
theories/Thm_IsoWrap.v
theories/Thm_StoreIso.v
theories/IsotopySpec.v
theories/IsotopyProofs.v
theories/IsotopyMoves.v
theories/Thm_Isotopy.v
theories/BigonCycles.v
theories/Bigon.v
theories/RemoveSpec.v
theories/CutProofs.v
theories/RemoveProofs.v
theories/FacePlaces.v
theories/BigonSite.v
theories/BigonFrame.v
theories/BigonJoin.v
theories/BigonCorners.v
theories/BigonStrands.v
theories/BigonSpec.v
theories/BigonCase.v
theories/Thm_Bigon.v
theories/Tangle.v
theories/TangleSpec.v
theories/TangleWalk.v
theories/TangleInside.v
theories/TangleRegen.v
theories/TangleSides.v
theories/Thm_Tangle.v
theories/CCode.v
theories/CCodeSpec.v
theories/CCodeProofs.v
theories/CCodeRead.v
theories/CCodeCheck.v
theories/CCodeFaith.v
theories/Thm_CCode.v
theories/Build.v
theories/BuildSpec.v
theories/Layout.v
theories/Table.v
theories/BuildTorus.v
theories/BuildTwist.v
theories/BuildPlait.v
theories/BuildChain.v
theories/BuildAlt.v
theories/Thm_Build.v
theories/KTheory.v
theories/KTheoryText.v
theories/KTheoryProofs.v
theories/KTheoryRegen.v
theories/KTheorySpec.v
theories/Thm_KTheory.v
theories/Nearest.v
theories/Thm_Nearest.v
theories/Project.v
theories/ProjectSpec.v
theories/ProjectProofs.v
theories/ProjectDraw.v
theories/ProjectAssemble.v
theories/ProjectGeo.v
theories/ProjectFind.v
theories/Thm_Project.v
theories/Whitten.v
theories/WhittenSpec.v
theories/Thm_Whitten.v
theories/PolyText.v
theories/PolyTextSpec.v
theories/PolyTextProofs.v
theories/LatexProofs.v
theories/Thm_PolyText.v
theories/KtTable.v
theories/Classify.v
theories/ClassifySpec.v
theories/ClassifyProofs.v
theories/KtProofs.v
theories/Thm_Classify.v
theories/KtText.v
theories/Thm_KtText.v
theories/Sap.v
theories/Thm_Sap.v
theories/Sampler.v
theories/SamplerProofs.v
theories/Thm_Sampler.v
theories/Hopf.v
theories/HopfProofs.v
theories/Thm_Hopf.v
theories/Fan.v
theories/FanProofs.v
theories/Thm_Fan.v
theories/Rotate.v
theories/RotateProofs.v
theories/Thm_Rotate.v
theories/Closure.v
theories/ClosureProofs.v
theories/Thm_Closure.v
theories/Measure.v
theories/MeasureProofs.v
theories/Thm_Measure.v
theories/Geometry.v
theories/Thm_Geometry.v
theories/DeleteArc.v
theories/Thm_DeleteArc.v
theories/Matrix.v
theories/Thm_Matrix.v
theories/Stats.v
theories/Thm_Stats.v
theories/CheckCst.v
theories/Thm_CheckCst.v

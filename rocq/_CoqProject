-Q theories Verif
theories/Prelude.v
theories/BoolSpec.v
theories/BoolSeq.v
theories/BoolProofs.v
theories/BoolProofs2.v
theories/BoolTotal.v
theories/BoolTotal2.v
theories/BoolTotal3.v
theories/BoolStrict.v
theories/BoolEdit.v
theories/BoolEditProofs.v
theories/PropsBool.v
theories/CellText.v
theories/LexSpec.v
theories/Writers.v
theories/WritersProofs.v
theories/ParenModel.v
theories/ParenProofs.v
theories/ParenRemove.v
theories/ParseTerms.v
theories/ParseInts.v
theories/ParseProofs.v
theories/Wrap.v
theories/LexProofs.v
theories/WrapProofs.v
theories/PropsText.v
theories/CtSpec.v
theories/Ctable.v
theories/CtableProofs.v
theories/CtBuild.v
theories/CtBuildProofs.v
theories/VoidCell.v
theories/VoidProofs.v
theories/PropsVoid.v
theories/SurfDict.v
theories/SurfDictProofs.v
theories/PropsSurf.v
theories/VoidBoxes.v
theories/VoidBoxSpec.v
theories/VoidBoxProofs.v
theories/VoidLoopProofs.v
theories/BoxDef.v
theories/BoxSpec.v
theories/BoxDefProofs.v
theories/VoidAll.v
theories/VoidAllProofs.v
theories/PropsBox.v
theories/Enclosures.v
theories/EnclSpec.v
theories/EnclProofs.v
theories/EnclProofs2.v
theories/EnclProofs3.v
theories/PropsEncl.v
theories/Numbering.v
theories/NumberingProofs.v
theories/PropsNum.v
theories/Loading.v
theories/LoadingProofs.v
theories/PropsLoad.v
theories/Remh.v
theories/RemhSpec.v
theories/RemhProofs.v
theories/RemhProofs2.v
theories/PropsRemh.v
theories/RBool.v
theories/RBoolSpec.v
theories/RBoolProofs.v
theories/PropsRBool.v
theories/NoOverlap.v
theories/NoOverlapSpec.v
theories/NoOverlapProofs.v
theories/NoOverlapProofs2.v
theories/PropsOverlap.v
theories/Vec3.v
theories/Geom.v
theories/GeomSpec.v
theories/GeomProofs.v
theories/Export.v
theories/ExportSpec.v
theories/ExportProofs.v
theories/ExportProofs2.v
theories/ExportProofs3.v
theories/ExportProofs4.v
theories/PropsExport.v
theories/Prim.v
theories/PrimSpec.v
theories/PrimProofs.v
theories/Cards.v
theories/CardsSpec.v
theories/CardsProofs.v
theories/Quadric.v
theories/QuadricSpec.v
theories/QuadricProofs.v
theories/PropsPrim.v
theories/RBox.v
theories/RBoxSpec.v
theories/RBoxProofs.v
theories/RPlanes.v
theories/RPlaneSpec.v
theories/RPlaneGeo.v
theories/RPlaneDefProofs.v
theories/RPlaneDefProofs2.v
theories/RPlaneDefProofs3.v
theories/RPlaneQuad.v
theories/PropsRBox.v
theories/RVertex.v
theories/RVertexSpec.v
theories/RVertexProofs.v
theories/RVertexGeo.v
theories/RVertexList.v
theories/RVertexList2.v
theories/RVertexComp.v
theories/RVertexHom.v
theories/RVertexCell.v
theories/RVertexEx.v
theories/PropsRVert.v
theories/SurfCards.v
theories/SurfCardSpec.v
theories/SurfCardProofs.v
theories/SurfCardProofs2.v
theories/SurfCardProofs3.v
theories/PropsCards.v
theories/Same.v
theories/SameSpec.v
theories/SameProofs.v
theories/PropsSame.v
theories/Config.v
theories/ConfigSpec.v
theories/ConfigProofs.v
theories/ConfigProofs2.v
theories/ConfigProofs3.v
theories/ConfigProofs4.v
theories/PropsConfig.v
theories/Univ.v
theories/UnivSpec.v
theories/UnivProofs.v
theories/UnivLike.v
theories/UnivSub.v
theories/UnivCells.v
theories/UnivTree.v
theories/PropsUniv.v
theories/Build.v
theories/BuildSpec.v
theories/BuildProofs.v
theories/BuildProofs2.v
theories/BuildProofs3.v
theories/BuildTotal.v
theories/BuildVox.v
theories/PropsBuild.v
theories/CellDef.v
theories/CellDefSpec.v
theories/CellDefProofs.v
theories/CellDefProofs2.v
theories/CellDefProofs3.v
theories/PropsCellDef.v
theories/Decomp.v
theories/DecompSpec.v
theories/DecompProofs.v
theories/DecompProofs2.v
theories/PropsDecomp.v
theories/AddPlane.v
theories/AddPlaneSpec.v
theories/AddPlaneProofs.v
theories/AddPlaneProofs2.v
theories/AddPlaneProofs3.v
theories/AddPlaneProofs4.v
theories/PropsAddPlane.v
theories/TorusAnnex.v
theories/TorusSpec.v
theories/TorusProofs.v
theories/TorusProofs2.v
theories/TorusProofs3.v
theories/TorusProofs4.v
theories/TorusProofs5.v
theories/PropsTorus.v
theories/ConePlanes.v
theories/ConeSpec.v
theories/ConeProofs.v
theories/ConeProofs2.v
theories/PropsCones.v
theories/PropsConesTab.v
theories/OnSpec.v
theories/OnProofs.v
theories/OnProofs2.v
theories/OnText.v
theories/OnCell.v
theories/OnModel.v
theories/PropsOn.v
theories/Start.v
theories/ReachProofs.v
theories/StartProofs.v
theories/PropsStart.v
theories/SignText.v
theories/CellCones.v
theories/ConeStart.v
theories/PropsStartCones.v
theories/PhitsVoid.v
theories/PropsPhits.v
theories/ExportMerged.v
theories/PropsPhitsFile.v
theories/PropsWritten.v

-Q theories Verif
theories/Ex_Induced.v
theories/Ex_Linalg.v
theories/Ex_Persist.v
theories/Ex_Reduction.v
theories/Ex_Util.v
theories/Ex_Zigzag.v
theories/M_CSC.v
theories/M_CSC2.v
theories/M_Cell.v
theories/M_ColMatrix.v
theories/M_Cover.v
theories/M_Cubical.v
theories/M_DG.v
theories/M_Extension.v
theories/M_Fact.v
theories/M_Field.v
theories/M_Filtration.v
theories/M_Flag.v
theories/M_Functor.v
theories/M_Grid.v
theories/M_Homology.v
theories/M_IO.v
theories/M_Induced.v
theories/M_Landmark.v
theories/M_Light.v
theories/M_MayerVietoris.v
theories/M_Nerve.v
theories/M_Parallel.v
theories/M_Perm.v
theories/M_Persist.v
theories/M_Poly.v
theories/M_Product.v
theories/M_Quiver.v
theories/M_Reduce.v
theories/M_Simplicial.v
theories/M_SimplicialMap.v
theories/M_Sorted.v
theories/M_SparseVec.v
theories/M_Sparsify.v
theories/M_UnionFind.v
theories/M_UpdateGen.v
theories/M_Zigzag.v
theories/M_ZigzagFilt.v
theories/M_Zoo.v
theories/Outcome.v
theories/P_Barcode.v
theories/P_Bars.v
theories/P_Betti.v
theories/P_CSC.v
theories/P_CSC2.v
theories/P_Chain.v
theories/P_ColMatrix.v
theories/P_CubeBoundary.v
theories/P_CubeList.v
theories/P_CubeOps.v
theories/P_Cubical.v
theories/P_Cycles.v
theories/P_DG1.v
theories/P_DG10.v
theories/P_DG11.v
theories/P_DG12.v
theories/P_DG13.v
theories/P_DG14.v
theories/P_DG2.v
theories/P_DG3.v
theories/P_DG4.v
theories/P_DG5.v
theories/P_DG6.v
theories/P_DG7.v
theories/P_DG8.v
theories/P_DG9.v
theories/P_Den.v
theories/P_Dims.v
theories/P_Ext1.v
theories/P_Extra.v
theories/P_Fact1.v
theories/P_Fact2.v
theories/P_Fact3.v
theories/P_Fact4.v
theories/P_Fact5.v
theories/P_Fact6.v
theories/P_Fact7.v
theories/P_Field.v
theories/P_Filtration.v
theories/P_Flag.v
theories/P_Flag2.v
theories/P_Flag3.v
theories/P_Functor.v
theories/P_Grid.v
theories/P_Homology.v
theories/P_IO.v
theories/P_IO2.v
theories/P_Induced.v
theories/P_Insert.v
theories/P_Inv.v
theories/P_Light.v
theories/P_LightBoundary.v
theories/P_LightKey.v
theories/P_MayerVietoris.v
theories/P_Nerve.v
theories/P_Outcome.v
theories/P_Pairing.v
theories/P_Pairs.v
theories/P_Parallel.v
theories/P_Perm.v
theories/P_PermMx.v
theories/P_Persist.v
theories/P_Product.v
theories/P_Quiver1.v
theories/P_Quiver2.v
theories/P_Quiver3.v
theories/P_Quiver4.v
theories/P_Quiver5.v
theories/P_Quiver6.v
theories/P_Quiver7.v
theories/P_Quiver8.v
theories/P_Quiver9.v
theories/P_Reduce.v
theories/P_Rep.v
theories/P_ScBoundary.v
theories/P_ScBuild.v
theories/P_ScOps.v
theories/P_Sign.v
theories/P_Simplicial.v
theories/P_SimplicialMap.v
theories/P_Solve.v
theories/P_Sort.v
theories/P_SparseVec.v
theories/P_SparseVec2.v
theories/P_Sparsify.v
theories/P_SumReduce.v
theories/P_Tasks.v
theories/P_Trie.v
theories/P_UnionFind.v
theories/P_UnionFind2.v
theories/P_UnionFind3.v
theories/P_UpdFilt.v
theories/P_Update.v
theories/P_UpdateGen.v
theories/P_UpdateGen2.v
theories/P_Util.v
theories/P_ZF1.v
theories/P_ZF2.v
theories/P_ZF3.v
theories/P_ZF4.v
theories/P_ZF5.v
theories/P_ZF6.v
theories/P_ZF7.v
theories/P_Zig1.v
theories/P_Zig10.v
theories/P_Zig2.v
theories/P_Zig3.v
theories/P_Zig4.v
theories/P_Zig5.v
theories/P_Zig6.v
theories/P_Zig7.v
theories/P_Zig8.v
theories/P_Zig9.v
theories/Props_CSC.v
theories/Props_Cell.v
theories/Props_Cover.v
theories/Props_CoverInterval.v
theories/Props_CoverNerve.v
theories/Props_CoverRips.v
theories/Props_CubeBoundary.v
theories/Props_Cubical.v
theories/Props_Cycles.v
theories/Props_DG.v
theories/Props_DG2.v
theories/Props_Extension.v
theories/Props_Extension2.v
theories/Props_Fact.v
theories/Props_Field.v
theories/Props_FieldFp.v
theories/Props_Filtration.v
theories/Props_Flag.v
theories/Props_Flag2.v
theories/Props_Functor.v
theories/Props_Grid.v
theories/Props_GridCube.v
theories/Props_IO.v
theories/Props_Induced.v
theories/Props_Landmark.v
theories/Props_Light.v
theories/Props_Linalg.v
theories/Props_MayerVietoris.v
theories/Props_Nerve.v
theories/Props_Parallel.v
theories/Props_Persist.v
theories/Props_Poly.v
theories/Props_Product.v
theories/Props_Quiver.v
theories/Props_Reduction.v
theories/Props_ScBoundary.v
theories/Props_Simplicial.v
theories/Props_SimplicialMap.v
theories/Props_UnionFind.v
theories/Props_UnionFind2.v
theories/Props_UpdateGen.v
theories/Props_Util.v
theories/Props_Witness.v
theories/Props_Zigzag.v
theories/Props_ZigzagFilt.v
theories/Props_Zoo.v
theories/RingTac.v
theories/RingTac2.v
theories/S_CSC.v
theories/S_Cubical.v
theories/S_DG.v
theories/S_Fact.v
theories/S_Filtration.v
theories/S_Flag.v
theories/S_Functor.v
theories/S_Homology.v
theories/S_IO.v
theories/S_Induced.v
theories/S_Light.v
theories/S_Linalg.v
theories/S_Perm.v
theories/S_Persist.v
theories/S_Quiver.v
theories/S_Simplicial.v
theories/S_SimplicialMap.v
theories/S_UnionFind.v
theories/S_UpdateGen.v
theories/S_Zigzag.v
theories/S_ZigzagFilt.v

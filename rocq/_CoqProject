-Q theories Verif
theories/Prelude.v
theories/Keys.v
theories/Dict.v
theories/MaskTypes.v
theories/SpecMask.v
theories/Mask.v
theories/MaskProofs.v
theories/P_Mask.v
theories/MaskHeap.v
theories/SpecHeap.v
theories/MaskHeapProofs.v
theories/P_MaskHeap.v
theories/SpecArray.v
theories/Arrays.v
theories/ArraysProofs.v
theories/P_Arrays.v
theories/Composite.v
theories/SpecComposite.v
theories/CompositeProofs.v
theories/P_Composite.v
theories/SpecAdj.v
theories/Adjacency.v
theories/AdjacencyProofs.v
theories/P_Adjacency.v
theories/Descend.v
theories/DescendProofs.v
theories/P_Descend.v
theories/SpecHard.v
theories/Hard.v
theories/HardProofs.v
theories/P_Hard.v
theories/Hierarchy.v
theories/SpecHier.v
theories/HierProofs.v
theories/TreeProofs.v
theories/HierEvent.v
theories/HierMain.v
theories/HierOrder.v
theories/P_Hier.v
theories/SpecPart.v
theories/Partition.v
theories/PartProofs.v
theories/P_Part.v
theories/SpecSelect.v
theories/SelectMisc.v
theories/P_Select.v
theories/SpecReal.v
theories/RealBase.v
theories/Kinem.v
theories/KinemProofs.v
theories/P_Kinem.v
theories/Par.v
theories/SpecDist.v
theories/DeltaR.v
theories/DeltaRProofs.v
theories/P_DeltaR.v
theories/Coords.v
theories/P_Coords.v
theories/SpecShapes.v
theories/Shapes.v
theories/ShapesProofs.v
theories/P_Shapes.v
theories/SpecAssign.v
theories/Assign.v
theories/AssignProofs.v
theories/P_Assign.v
theories/SpecTag.v
theories/Tag.v
theories/P_Tag.v
theories/SpecMatrix.v
theories/Matrix.v
theories/P_Matrix.v
theories/SpecTransform.v
theories/Transform.v
theories/P_Transform.v
theories/SpecKeys.v
theories/P_Keys.v
theories/ArrayOps.v
theories/P_ArrayOps.v
theories/SpecClusters.v
theories/Clusters.v
theories/ClustersProofs.v
theories/P_Clusters.v
theories/Records.v
theories/SpecRecords.v
theories/P_Records.v
theories/SpecEdge.v
theories/P_Edge.v
theories/P_Edge2.v
theories/SpecIEEE.v
theories/Floats.v
theories/FloatBase.v
theories/FloatOps.v
theories/P_Float.v
theories/P_Float2.v
theories/P_Float3.v
theories/P_Float4.v
theories/P_Float5.v
theories/P_Tight.v
theories/Floats2.v
theories/P_Float6.v
theories/SpecMemory.v
theories/Memory.v
theories/MemoryProofs.v
theories/P_Memory.v
theories/SpecCache.v
theories/AdjCache.v
theories/P_AdjCache.v
theories/P_IRC.v
theories/P_Coords2.v
theories/P_Equiv.v
theories/TupleKeys.v
theories/P_TupleKeys.v
theories/MaskText.v
theories/P_MaskText.v
theories/Floats3.v
theories/P_Float7.v
theories/P_Order.v
theories/PdgTable.v
theories/P_PdgTable.v
theories/Floats4.v
theories/P_Float8.v
theories/P_Float9.v
theories/Floats5.v
theories/P_Float10.v
theories/SpecUfunc.v
theories/UfuncMethods.v
theories/P_UfuncMethods.v
theories/PiBits.v
theories/P_Float11.v
theories/P_Float12.v
theories/P_Pipeline.v
theories/P_Float13.v
theories/P_Float14.v
theories/Floats6.v
theories/P_Float15.v
theories/Floats7.v
theories/P_Float16.v
theories/P_Float17.v
theories/SpecPartDist.v
theories/PartDist.v
theories/P_Part2.v
theories/P_Part3.v
theories/SpecReorder.v
theories/P_Equiv2.v
theories/P_Equiv3.v
theories/SpecPartOrder.v
theories/P_Part4.v
theories/Floats8.v
theories/P_Float18.v
theories/P_Float19.v
theories/ArrayText.v
theories/P_ArrayText.v
theories/Floats9.v
theories/P_Float20.v
theories/P_Float21.v
theories/Floats10.v
theories/P_Float22.v
theories/P_Equiv4.v
theories/Floats11.v
theories/P_Float23.v
theories/P_Graph.v
theories/Floats12.v
theories/P_Float24.v
theories/Floats13.v
theories/P_Float25.v
theories/P_Float26.v
theories/Floats14.v
theories/P_Float27.v
theories/Floats15.v
theories/P_Float28.v
theories/Floats16.v
theories/P_Float29.v
theories/ExtKeys.v
theories/P_ExtKeys.v
theories/Floats17.v
theories/P_Float30.v
theories/Floats18.v
theories/P_Float31.v
theories/P_Float32.v
theories/P_Float33.v

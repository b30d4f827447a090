-Q theories Verif
theories/Base.v
theories/Config.v
theories/MortonLUT.v
theories/Morton.v
theories/MortonProofs.v
theories/CodesProofs.v
theories/Prop_Codes.v
theories/Build.v
theories/TreeSpec.v
theories/BuildSpec.v
theories/BuildProofs.v
theories/BuildProps.v
theories/Prop_Build.v
theories/FOps.v
theories/Disc.v
theories/FOpsProofs.v
theories/DiscProofs.v
theories/BoxProofs.v
theories/BoxAccept.v
theories/BoxMore.v
theories/Prop_Disc.v
theories/NodeProps.v
theories/Tree.v
theories/TreeInv.v
theories/TreeProofs.v
theories/TreeEx.v
theories/TreeSafe.v
theories/TreeProps.v
theories/Prop_Tree.v
theories/RSum.v
theories/NodeGeom.v
theories/NodesR.v
theories/BoxInv.v
theories/NodesEx.v
theories/Prop_Nodes.v
theories/Kernels.v
theories/Force.v
theories/TravProofs.v
theories/KernLoops.v
theories/SelfSum.v
theories/KernR.v
theories/ForceGen.v
theories/ForceOut.v
theories/ForceR.v
theories/ForceTop.v
theories/ForceRTop.v
theories/Geometry.v
theories/ForceMore.v
theories/ForceAcc.v
theories/ForceQ.v
theories/ForceProps.v
theories/ForceEx.v
theories/ForceLast.v
theories/Prop_Force.v
theories/Coll.v
theories/CollSearch.v
theories/CollProofs.v
theories/CollCover.v
theories/CollR.v
theories/CollProps.v
theories/CollFloat.v
theories/CollShift.v
theories/CollEx.v
theories/CollLast.v
theories/CollWit.v
theories/Prop_Coll.v
theories/SimdTree.v
theories/SimdForce.v
theories/SimdEx.v
theories/Prop_Simd.v
theories/Gpu.v
theories/GpuKernel.v
theories/GpuOut.v
theories/GpuTop.v
theories/GpuSplit.v
theories/GpuR.v
theories/GpuMain.v
theories/GpuSelf.v
theories/GpuEx.v
theories/Prop_Gpu.v
theories/Util.v
theories/Print.v
theories/Kw.v
theories/KwProofs.v
theories/KwEx.v
theories/MiscProofs.v
theories/Prop_Kw.v
theories/Unique.v
theories/UniqueR.v
theories/Rebuild.v
theories/UniqueColl.v
theories/Prop_Unique.v
theories/Prop_Error.v
theories/Round.v
theories/RoundNode.v
theories/RoundFin.v
theories/RoundCtor.v
theories/RoundEx.v
theories/SelfShape.v
theories/RoundNear.v
theories/RoundKern.v
theories/RoundSum.v
theories/RoundExact.v
theories/RoundRsqrt.v
theories/TreeShape.v
theories/RoundTree.v
theories/RoundSrc.v
theories/RoundMac.v
theories/RoundGeo.v
theories/Expand.v
theories/RoundCell.v
theories/RoundForce.v
theories/RoundTotal.v
theories/RoundAll.v
theories/RoundLane.v
theories/RoundDev.v
theories/RoundDevEx.v
theories/Prop_Accuracy.v
theories/Prop_TreeAccuracy.v
theories/Prop_TotalError.v
theories/Prop_DeviceError.v
theories/Out.v
theories/OutProofs.v
theories/OutEx.v
theories/Prop_Out.v
theories/Prop_Round.v
theories/Prop_Misc.v
theories/Par.v
theories/ParTree.v
theories/ParProofs.v
theories/ParTop.v
theories/ParTop2.v
theories/ParLast.v
theories/Prop_Par.v
theories/Size.v
theories/Scale.v
theories/ScaleEx.v
theories/Prop_Size.v
theories/Prop_Scale.v
theories/Relabel.v
theories/OrderEx.v
theories/Prop_Order.v
theories/ParBag.v
theories/ParColl.v
theories/ParCollProofs.v
theories/ParCollEx.v
theories/Prop_ParColl.v
theories/ParBuild.v
theories/ParBuildProofs.v
theories/ParBuildEx.v
theories/Prop_ParBuild.v
theories/Coincide.v
theories/Prop_Coincide.v
theories/MacNan.v
theories/Prop_Criterion.v
theories/Scratch.v
theories/ScratchProofs.v
theories/Prop_Buffers.v
theories/Sign.v
theories/Prop_Sign.v
theories/ParCalls.v
theories/Prop_Calls.v
theories/ParExn.v
theories/ParExnTop.v
theories/Prop_Exn.v
theories/ParBagExn.v
theories/ParBuildExn.v
theories/ParBuildExnTop.v
theories/Prop_BuildExn.v
theories/ParSpec.v
theories/ParCollExn.v
theories/Prop_CollExn.v

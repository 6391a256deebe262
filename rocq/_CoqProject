-Q theories Verif
theories/Base.v
theories/BaseLemmas.v
theories/BinvoxModel.v
theories/BinvoxSpec.v
theories/BinvoxLemmas.v
theories/BinvoxProofs.v
theories/Chan.v
theories/BinvoxChan.v
theories/Geom.v
theories/FloatTextQ.v
theories/StoreProofs.v
theories/BinvoxProps.v
theories/VshellModel.v
theories/VshellSpec.v
theories/VshellBits.v
theories/VshellMerge.v
theories/VshellProofs.v
theories/VshellGeom.v
theories/VshellProps.v
theories/VshellCodec.v
theories/VshellCodecSpec.v
theories/VshellCodecProofs.v
theories/VshellChan.v
theories/VshellCodecProps.v
theories/ForkJoin.v
theories/VoxelizeModel.v
theories/VoxelizeSpec.v
theories/VoxelizeLine.v
theories/VoxelizeSlice.v
theories/VoxelizeFill.v
theories/VoxelizeProps.v
theories/MeshSpec.v
theories/MeshCells.v
theories/MeshPush.v
theories/MarchTables.v
theories/MarchModel.v
theories/MarchProofs.v
theories/MarchProps.v
theories/ManifoldXform.v
theories/ManifoldTables.v
theories/ManifoldModel.v
theories/ManifoldProofs.v
theories/ManifoldSurface.v
theories/MeshLeak.v
theories/ManifoldProps.v
theories/VoxcutModel.v
theories/VoxcutProps.v
theories/VoxcutDiceProps.v
theories/VoxelizeShift.v
theories/StldiceModel.v
theories/StldiceProps.v
theories/BinvoxDiceModel.v
theories/BinvoxDiceProps.v
theories/BinvoxDiceFloat.v
theories/SvxModel.v
theories/SvxProps.v
theories/SvxReadProps.v
theories/SvxRace.v
theories/StlMerge.v
theories/MasterModel.v
theories/MasterProps.v
theories/MasterJobs.v
theories/MasterEx.v
theories/MasterSvx.v
theories/StlParse.v
theories/StlParseProps.v
theories/SlaveModel.v
theories/SlaveProps.v
theories/MrModel.v
theories/MrProps.v
theories/FloatDice.v
theories/FloatMerge.v
theories/VoxelizeAccuracy.v
theories/VoxelizeBox.v
theories/FloatMeshModel.v
theories/FloatMesh.v
theories/FloatMeshGap.v
theories/FloatManifold.v
theories/FloatMeshError.v
theories/FloatVoxelModel.v
theories/FloatVoxelFill.v
theories/FloatVoxelError.v
theories/FloatVoxelProps.v
theories/FloatVoxelCover.v
theories/FloatVoxelConc.v
theories/CmdMergeModel.v
theories/CmdMergeProps.v
theories/CmdMergeTiles.v
theories/CmdDice.v
theories/CmdDiceEx.v
theories/MbbModel.v
theories/MbbProps.v
theories/CmdStlModel.v
theories/CmdStlProps.v
theories/CmdStlClosed.v
theories/MeshVolume.v
theories/MeshInside.v
theories/ToMesh.v
theories/CmdSvx.v
theories/ReadWindow.v
theories/VoxelizeLeft.v
theories/ManifoldExact.v
theories/MeshWatertight.v
theories/StldiceDefault.v
theories/CmdDiceMesh.v
theories/CmdManifold.v
theories/VshellMbb.v
theories/BinvoxConc.v
theories/BinvoxNew.v
theories/MeshBox.v
theories/MeshNear.v
theories/MeshSolid.v
theories/SlaveMaster.v
theories/MeshBoxIn.v
theories/ToMeshWind.v
theories/StldiceScriptModel.v
theories/StldiceScript.v
theories/StldiceScriptEx.v
theories/Convex.v
theories/ConvexEx.v
theories/ConvexMesh.v
theories/ConvexScript.v
theories/ConvexScriptEx.v
theories/BinvoxDiceScriptModel.v
theories/BinvoxDiceScript.v
theories/BinvoxDiceScriptEx.v
theories/VoxcutDirModel.v
theories/VoxcutDir.v
theories/VoxcutDirMerge.v
theories/VoxcutDirEx.v
theories/VoxelRound.v
theories/VoxelRoundMesh.v
theories/Smooth.v
theories/SmoothEx.v
theories/SmoothAny.v
theories/SmoothRun.v
theories/GlobModel.v
theories/GlobProps.v
theories/GlobOnly.v
theories/GlobStl.v

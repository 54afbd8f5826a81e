-Q theories Verif
theories/Res.v
theories/ResFacts.v
theories/BlockIter.v
theories/Odometer.v
theories/BlockSpec.v
theories/BlockIterProofs.v
theories/BlockTheorems.v
theories/PropBlock.v
theories/Tables.v
theories/FinField.v
theories/TablesSpec.v
theories/TablesProofs.v
theories/PropTables.v
theories/CurveIter.v
theories/Curve.v
theories/NormalForm.v
theories/EnumProofs.v
theories/CurveSpec.v
theories/PolyOrbit.v
theories/OrbitCount.v
theories/Squarefree.v
theories/EnumTheorems.v
theories/PointSpec.v
theories/PointCount.v
theories/CurveProofs.v
theories/PointMath.v
theories/CurveHistory.v
theories/CurveTheorems.v
theories/FieldExt.v
theories/RamSpec.v
theories/Irred.v
theories/Ramify.v
theories/OMap.v
theories/OMapFacts.v
theories/Store.v
theories/TwistProofs.v
theories/StoreSpec.v
theories/StoreProofs.v
theories/Cases.v
theories/Text.v
theories/TextSpec.v
theories/TextProofs.v
theories/Files.v
theories/FilesSpec.v
theories/FilesProofs.v
theories/OMapPerm.v
theories/Pool.v
theories/Standalone.v
theories/PoolProofs.v
theories/StandaloneSpec.v
theories/Account.v
theories/StandaloneProofs.v
theories/StandaloneTheorems.v
theories/Config.v
theories/ConfigProofs.v
theories/Worker.v
theories/KeyMath.v
theories/WorkerSpec.v
theories/WorkerProofs.v
theories/EndToEnd.v
theories/FlintExists.v
theories/Single.v
theories/SingleSpec.v
theories/SingleProofs.v
theories/PropCurveIter.v
theories/PropCurve.v
theories/PropRam.v
theories/FmpzHeap.v
theories/HeapSpec.v
theories/HeapProofs.v
theories/PropStore.v
theories/PropText.v
theories/PropFiles.v
theories/Progress.v
theories/Lost.v
theories/PropPool.v
theories/PropConfig.v
theories/PropWorker.v
theories/PropHeap.v
theories/PropSingle.v
theories/OpenCL.v
theories/OpenCLProofs.v
theories/PropOpenCL.v
theories/Mpi.v
theories/MpiSpec.v
theories/MpiNode.v
theories/MpiProofs.v
theories/MpiTheorems.v
theories/MpiProgress.v
theories/MpiRounds.v
theories/MpiLost.v
theories/PropMpi.v
theories/TornSpec.v
theories/TornProofs.v
theories/TornLost.v
theories/TornConfig.v
theories/PropTorn.v
theories/Device.v
theories/DeviceSpec.v
theories/DeviceProofs.v
theories/PropDevice.v
theories/Fine.v
theories/FineProofs.v
theories/FineSpec.v
theories/FineTheorems.v
theories/FineEnds.v
theories/PropFine.v
theories/Main.v
theories/MainRuns.v
theories/MainSpec.v
theories/MainProofs.v
theories/PropMain.v
theories/Boot.v
theories/BootProofs.v
theories/PropBoot.v
theories/TableSpec.v
theories/TableProofs.v
theories/PropTable.v
theories/Disk.v
theories/DiskSpec.v
theories/DiskProofs.v
theories/PropDisk.v
theories/Merger.v
theories/MergerSpec.v
theories/MergerProofs.v
theories/PropMerger.v
theories/TidySpec.v
theories/TidyProofs.v
theories/TidyChecks.v
theories/PropTidy.v
theories/Words.v
theories/WordsProofs.v
theories/PropWords.v
theories/Setup.v
theories/SetupProofs.v
theories/PropSetup.v
theories/Choices.v
theories/RamCountSpec.v
theories/RamCount.v
theories/PropRamCount.v
theories/Moments.v
theories/Moments2.v
theories/MomentSpec.v
theories/MomentProofs.v
theories/PropMoment.v
theories/TableTest.v
theories/PropReference.v
theories/Replay.v
theories/PropReplay.v
theories/Closed.v
theories/ClosedSpec.v
theories/ClosedProofs.v
theories/PropClosed.v
theories/Queue.v
theories/QueueSpec.v
theories/QueueProofs.v
theories/PropQueue.v

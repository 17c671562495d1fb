-Q theories Verif
theories/Prelude.v
theories/Num.v
theories/Keys.v
theories/KMap.v
theories/UMap.v
theories/Geometry.v
theories/Factors.v
theories/Clique.v
theories/Pcm.v
theories/Params.v
theories/ParamSpec.v
theories/Solver.v
theories/Base.v
theories/Programs.v
theories/NumText.v
theories/MatrixMarket.v
theories/G2o.v
theories/Logs.v
theories/Tracks.v
theories/Grid.v
theories/ValuesProofs.v
theories/CliqueSpec.v
theories/CliqueRead.v
theories/CliqueExact.v
theories/CliqueHeu.v
theories/PcmSpec.v
theories/PcmProofs.v
theories/PcmInv.v
theories/PcmStore.v
theories/HistSpec.v
theories/StoreSpec.v
theories/SolverProofs.v
theories/HistProofs.v
theories/PlainProofs.v
theories/GraphProofs.v
theories/UpdateProofs.v
theories/ParamProofs.v
theories/TrajProofs.v
theories/AlgProofs.v
theories/TrajRel.v
theories/Lie.v
theories/LiePoses.v
theories/LieSpec.v
theories/LieProofs.v
theories/LieCov.v
theories/LiePd.v
theories/LieTraj.v
theories/LieErr.v
theories/LieInv.v
theories/LieExact.v
theories/StoreProofs.v
theories/AcceptProofs.v
theories/LiveProofs.v
theories/StoreThms.v
theories/SafeProofs.v
theories/RemoveSpec.v
theories/RemoveExact.v
theories/FixSpec.v
theories/FixProofs.v
theories/ExcSpec.v
theories/ExcProofs.v
theories/IntSpec.v
theories/IntProofs.v
theories/CountProofs.v
theories/LandmarkExact.v
theories/RemoveCalls.v
theories/EstSpec.v
theories/EstProofs.v
theories/ItemProofs.v
theories/RecordProofs.v
theories/RemoveIff.v
theories/DeliverProofs.v
theories/ProgProofs.v
theories/CallsSpec.v
theories/CallsProofs.v
theories/MoveProofs.v
theories/TextSpec.v
theories/G2oSpec.v
theories/TextProofs.v
theories/G2oProofs.v
theories/AlignSpec.v
theories/AlignProofs.v
theories/MarketSpec.v
theories/MarketProofs.v
theories/LogsSpec.v
theories/LogsProofs.v
theories/TracksSpec.v
theories/TracksProofs.v
theories/BaseSpec.v
theories/BaseProofs.v
theories/Settings.v
theories/SettingsSpec.v
theories/SettingsProofs.v
theories/Scenes.v
theories/LieScenes.v
theories/PropParams.v
theories/PropTraj.v
theories/PropGraph.v
theories/PropUpdate.v
theories/PropClique.v
theories/PropStore.v
theories/PropRemove.v
theories/PropRemoveExact.v
theories/PropDeliver.v
theories/PropAlign.v
theories/PropG2o.v
theories/PropCalls.v
theories/PropProg.v
theories/PropMarket.v
theories/PropEst.v
theories/PropLie.v
theories/DiskProofs.v
theories/PropLogs.v
theories/PropTracks.v
theories/PropBase.v
theories/PropSettings.v
theories/Floats.v
theories/Replay.v
theories/ReplayData.v
theories/ReplayPcm.v
theories/ReplaySolver.v
theories/ReplayLog.v
theories/NanCovSpec.v
theories/NanCovProofs.v
theories/PropNanCov.v
theories/PropLandmark.v
theories/PropFix.v
theories/PropExc.v
theories/PropInt.v
theories/PropCount.v
theories/ReoptSpec.v
theories/ReoptProofs.v
theories/PropReopt.v
theories/Weights.v
theories/WeightSpec.v
theories/WeightProofs.v
theories/PropWeight.v
theories/IncSpec.v
theories/IncProofs.v
theories/PropInc.v
theories/Rounding.v
theories/LieMaha.v
theories/PropMaha.v
theories/StreamSpec.v
theories/StreamProofs.v
theories/PropStream.v
theories/RenameSpec.v
theories/RenameProofs.v
theories/PropRename.v
theories/NoneSpec.v
theories/NoneProofs.v
theories/PropNone.v
theories/MixSpec.v
theories/MixProofs.v
theories/ShuffleProofs.v
theories/PropMix.v
theories/ApartSpec.v
theories/ApartProofs.v
theories/ApartMore.v
theories/PropApart.v
theories/NanSpec.v
theories/NanProofs.v
theories/PropNan.v
theories/ReplaceSpec.v
theories/ReplaceProofs.v
theories/PropReplace.v
theories/HeuSpec.v
theories/HeuProofs.v
theories/ExactSpec.v
theories/ExactProofs.v
theories/PropExact.v
theories/GroupSpec.v
theories/GroupProofs.v
theories/PropGroup.v
theories/UndoProofs.v
theories/PropUndo.v
theories/OutlierSpec.v
theories/OutlierProofs.v
theories/PropOutlier.v
theories/LatticeSpec.v
theories/LatticeNum.v
theories/LatticeProofs.v
theories/LatticeHist.v
theories/PropLattice.v
theories/TrueSpec.v
theories/TrueAny.v
theories/TrueProofs.v
theories/PropTrue.v
theories/WholeSpec.v
theories/WholeAny.v
theories/WholeProofs.v
theories/PropWhole.v
theories/TrueCovSpec.v
theories/TrueCovProofs.v
theories/PropTrueCov.v
theories/WrongSpec.v
theories/WrongAny.v
theories/WrongProofs.v
theories/PropWrong.v
theories/GridWrongSpec.v
theories/ManySpec.v
theories/ManyProofs.v
theories/GridWrongProofs.v
theories/PropGridWrong.v
theories/PropMany.v
theories/NoisySpec.v
theories/NoisyProofs.v
theories/PropNoisy.v
theories/PropAnyOrder.v

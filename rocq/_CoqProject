-Q theories Verif
theories/Base.v
theories/RecordModel.v
theories/BufferModel.v
theories/MergeModel.v
theories/StructModel.v
theories/ExtModel.v
theories/QueryModel.v
theories/ListLemmas.v
theories/RecordProofs.v
theories/MergeProofs.v
theories/BufferProofs.v
theories/StructProofs.v
theories/StructTotal.v
theories/SortedProofs.v
theories/ExtProofs.v
theories/ContentProofs.v
theories/Spec.v
theories/QueryProofs.v
theories/SerialProofs.v
theories/TagProofs.v
theories/ExecProofs.v
theories/LevelProofs.v
theories/TagContent.v
theories/SizeProofs.v
theories/CountProofs.v
theories/BsmProofs.v
theories/StepProofs.v
theories/Prop_Serial.v
theories/HeaderProofs.v
theories/WordProofs.v
theories/QueryWord.v
theories/Prop_Delete.v
theories/BufSpec.v
theories/BufSeqProofs.v
theories/TailModel.v
theories/TailProofs.v
theories/Prop_Buffer.v
theories/BufMoreModel.v
theories/BufMoreSpec.v
theories/BufMoreProofs.v
theories/Prop_BufMore.v
theories/SpaceSpec.v
theories/SpaceProofs.v
theories/Prop_Space.v
theories/BufConcModel.v
theories/BufConcProofs.v
theories/BufConcView.v
theories/BufConcData.v
theories/BufConcTrace.v
theories/Prop_Conc.v
theories/BuildProofs.v
theories/Prop_Record.v
theories/Prop_Size.v
theories/FlushModel.v
theories/FlushSpec.v
theories/FlushProofs.v
theories/FlushAny.v
theories/FlushKeep.v
theories/Prop_Flush.v
theories/Prop_Tag.v
theories/ISAMModel.v
theories/ISAMProofs.v
theories/Prop_ISAM.v
theories/SearchModel.v
theories/SearchProofs.v
theories/Prop_Search.v
theories/LearnModel.v
theories/LearnSpec.v
theories/LearnProofs.v
theories/LearnHist.v
theories/Prop_Learn.v
theories/CompactModel.v
theories/CompactSpec.v
theories/CompactProofs.v
theories/Prop_Compact.v
theories/VPModel.v
theories/VPSpec.v
theories/VPProofs.v
theories/KNNProofs.v
theories/KNNAny.v
theories/Prop_VP.v
theories/KindModel.v
theories/KindSpec.v
theories/KindProofs.v
theories/Prop_Kind.v
theories/KindTag.v
theories/Prop_KindTag.v
theories/FlushMore.v
theories/KindSize.v
theories/KindBsm.v
theories/Prop_KindSize.v
theories/SampleModel.v
theories/SampleSpec.v
theories/SampleProofs.v
theories/Prop_Sample.v
theories/DistProofs.v
theories/SampleHist.v
theories/Prop_Dist.v
theories/SysModel.v
theories/SysSpec.v
theories/SysInv.v
theories/SysSteps.v
theories/SysRun.v
theories/SysMain.v
theories/SysLive.v
theories/SysCalm.v
theories/SysContent.v
theories/SysSnapshot.v
theories/SysTrace.v
theories/SysStill.v
theories/SysBatch.v
theories/SysQuery.v
theories/SysReads.v
theories/FlushCancel.v
theories/SysOrigin.v
theories/SysWild.v
theories/KeepSpec.v
theories/SysKeep.v
theories/Prop_Sys.v
theories/Prop_Origin.v
theories/Prop_Whole.v
theories/Prop_Reads.v
theories/Prop_Any.v
theories/Prop_Keep.v
theories/Prop_Life.v
theories/SoloSpec.v
theories/SoloProofs.v
theories/Prop_Solo.v
theories/SafeSpec.v
theories/SafeProofs.v
theories/RestProofs.v
theories/Prop_Safe.v
theories/SchedModel.v
theories/SchedProofs.v
theories/SchedLive.v
theories/Prop_Sched.v
theories/StatModel.v
theories/StatProofs.v
theories/Prop_Stat.v
theories/VecModel.v
theories/VecSpec.v
theories/VecProofs.v
theories/SerModel.v
theories/SerSpec.v
theories/SerProofs.v
theories/Prop_Plan.v
theories/MemModel.v
theories/MemProofs.v
theories/Prop_Mem.v
theories/DropModel.v
theories/DropProofs.v
theories/DropTag.v
theories/DropFlush.v
theories/Prop_Drop.v
theories/BenchModel.v
theories/BenchSpec.v
theories/BenchProofs.v
theories/Prop_Bench.v
theories/DriveModel.v
theories/DriveSpec.v
theories/DriveProofs.v
theories/DriveTag.v
theories/Prop_Drive.v
theories/AloneModel.v
theories/AloneSpec.v
theories/AloneProofs.v
theories/Prop_Alone.v
theories/FileModel.v
theories/FileSpec.v
theories/FileProofs.v
theories/Prop_File.v
theories/ProgModel.v
theories/ProgProofs.v
theories/Prop_Prog.v
theories/ScaleModel.v
theories/ScaleProofs.v
theories/Prop_Scale.v
theories/TourModel.v
theories/TourSpec.v
theories/TourProofs.v
theories/Prop_Tour.v
theories/TripModel.v
theories/TripProofs.v
theories/Prop_Trip.v
theories/NearModel.v
theories/NearSpec.v
theories/NearProofs.v
theories/Prop_Near.v
theories/FstModel.v
theories/FstProofs.v
theories/Prop_Fst.v
theories/DrawModel.v
theories/DrawSpec.v
theories/DrawProofs.v
theories/Prop_Draw.v
theories/BatchModel.v
theories/BatchProofs.v
theories/Prop_Batch.v
theories/SweepModel.v
theories/SweepSpec.v
theories/SweepProofs.v
theories/SweepCount.v
theories/Prop_Sweep.v

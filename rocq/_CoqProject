-Q theories Verif
theories/Common.v
theories/HashtableModel.v
theories/HashtableSpec.v
theories/HashtableProofs.v
theories/HashtableProps.v
theories/Locale.v
theories/NumModel.v
theories/ArithModel.v
theories/ArithSpec.v
theories/ArithOpsProofs.v
theories/ArithLex.v
theories/NumProofs.v
theories/ArithHoare.v
theories/ArithProps.v
theories/BufModel.v
theories/BufSpec.v
theories/BufProofs.v
theories/StrbufModel.v
theories/StrbufSpec.v
theories/StrbufProofs.v
theories/BufProps.v
theories/XgetoptModel.v
theories/XgetoptSpec.v
theories/XgetoptProofs.v
theories/XgetoptTables.v
theories/XgetoptProps.v
theories/TrieModel.v
theories/TrieSpec.v
theories/TrieProofs.v
theories/TrieProps.v
theories/AliasModel.v
theories/AliasSpec.v
theories/AliasProofs.v
theories/AliasProps.v
theories/Regex.v
theories/XfnmatchModel.v
theories/XfnmatchSpec.v
theories/XfnmatchProofs.v
theories/XfnmatchMatch.v
theories/XfnmatchProps.v
theories/CharcatModel.v
theories/SplitModel.v
theories/SplitSpec.v
theories/SplitProofs.v
theories/ReadProofs.v
theories/SplitProps.v
theories/QuoteModel.v
theories/QuoteSpec.v
theories/QuoteProofs.v
theories/QuoteProps.v
theories/BraceModel.v
theories/BraceSpec.v
theories/BraceNum.v
theories/BraceSeq.v
theories/BraceProofs.v
theories/BraceTop.v
theories/BraceProps.v
theories/ExpandModel.v
theories/ExpandSpec.v
theories/ExpandFour.v
theories/ExpandWord.v
theories/ExpandQuoted.v
theories/ExpandProofs.v
theories/ExpandPipe.v
theories/ExpandSafe.v
theories/ExpandNull.v
theories/ExpandDemo.v
theories/ExpandProps.v
theories/ExpandParam.v
theories/RedirModel.v
theories/RedirSpec.v
theories/RedirProofs.v
theories/RedirUndo.v
theories/RedirProps.v
theories/JobModel.v
theories/JobSpec.v
theories/JobProofs.v
theories/JobHist.v
theories/JobWait.v
theories/JobRun.v
theories/JobEnd.v
theories/JobAll.v
theories/JobProps.v
theories/VarModel.v
theories/VarSpec.v
theories/VarProofs.v
theories/VarSet.v
theories/VarKeep.v
theories/VarRun.v
theories/VarMore.v
theories/VarArray.v
theories/VarUse.v
theories/VarProps.v
theories/GetoptsModel.v
theories/GetoptsSpec.v
theories/GetoptsProofs.v
theories/GetoptsProps.v
theories/ExecModel.v
theories/ExecSpec.v
theories/ExecOk.v
theories/ExecSim.v
theories/ExecProofs.v
theories/ExecDet.v
theories/ExecFuel.v
theories/ExecQuiet.v
theories/ExecFrame.v
theories/ExecWorld.v
theories/ExecProps.v
theories/CdModel.v
theories/CdSpec.v
theories/CdProofs.v
theories/CdRun.v
theories/CdProps.v
theories/UmaskModel.v
theories/UmaskSpec.v
theories/UmaskProofs.v
theories/UmaskProps.v
theories/GlobModel.v
theories/GlobSpec.v
theories/GlobProofs.v
theories/GlobSound.v
theories/GlobComplete.v
theories/GlobUnique.v
theories/GlobText.v
theories/GlobProps.v
theories/TestModel.v
theories/TestSpec.v
theories/TestPrim.v
theories/TestLong.v
theories/TestShort.v
theories/TestVersion.v
theories/TestProps.v
theories/PrintfModel.v
theories/PrintfSpec.v
theories/PrintfEsc.v
theories/PrintfConv.v
theories/PrintfProofs.v
theories/PrintfRun.v
theories/PrintfProps.v
theories/ParseModel.v
theories/ParseSpec.v
theories/ParseInst.v
theories/ParseLex.v
theories/ParseText.v
theories/ParseRound.v
theories/ParseSound.v
theories/ParseNorm.v
theories/ParseProps.v
theories/GramSpec.v
theories/GramSound.v
theories/GramComplete.v
theories/GramTerm.v
theories/GramProps.v
theories/TokSpec.v
theories/TokOp.v
theories/TokProof.v
theories/TokProps.v
theories/HistModel.v
theories/HistSpec.v
theories/HistProof.v
theories/HistFc.v
theories/HistProps.v
theories/HistFileModel.v
theories/HistFile.v
theories/HistFileProps.v
theories/EditModel.v
theories/EditSpec.v
theories/Edit.v
theories/EditProps.v
theories/OptModel.v
theories/OptSpec.v
theories/Opt.v
theories/OptProps.v
theories/MotionModel.v
theories/MotionSpec.v
theories/Motion.v
theories/MotionProps.v
theories/UlimitModel.v
theories/UlimitSpec.v
theories/Ulimit.v
theories/UlimitProps.v
theories/SigModel.v
theories/SigSpec.v
theories/Sig.v
theories/SigTrap.v
theories/SigProps.v
theories/KillModel.v
theories/KillProps.v

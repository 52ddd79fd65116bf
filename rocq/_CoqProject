-Q theories Verif
theories/Base.v
theories/TimestampModel.v
theories/TimestampSpec.v
theories/TimestampProofs.v
theories/TimestampProps.v
theories/SessionModel.v
theories/SessionSpec.v
theories/SessionProofs.v
theories/SessionInv.v
theories/SessionHist.v
theories/SessionRename.v
theories/SessionLog.v
theories/SessionMore.v
theories/SessionProps.v
theories/SliceModel.v
theories/SliceSpec.v
theories/SliceProofs.v
theories/SliceText.v
theories/SliceSession.v
theories/SliceMore.v
theories/SliceProps.v
theories/PosModel.v
theories/PosSpec.v
theories/PosProofs.v
theories/PosProps.v
theories/Loops.v
theories/FrontModel.v
theories/FrontSpec.v
theories/FrontDag.v
theories/FrontLinks.v
theories/FrontMain.v
theories/FrontLatest.v
theories/FrontReady.v
theories/FrontPipe.v
theories/FrontTotal.v
theories/FrontExact.v
theories/FrontProps.v
theories/ReplayModel.v
theories/ReplaySpec.v
theories/ReplayPure.v
theories/ReplayTrack.v
theories/ReplayTotal.v
theories/ReplayProps.v
theories/SymModel.v
theories/SymSpec.v
theories/SymProofs.v
theories/SymProps.v
theories/UpdModel.v
theories/UpdSpec.v
theories/UpdProofs.v
theories/UpdProps.v
theories/MemoModel.v
theories/MemoSpec.v
theories/MemoProofs.v
theories/MemoProps.v
theories/StoreModel.v
theories/StoreSpec.v
theories/StoreProofs.v
theories/StoreProps.v
theories/RoundModel.v
theories/RoundSpec.v
theories/RoundProofs.v
theories/RoundProps.v
theories/LiveModel.v
theories/LiveSpec.v
theories/LiveProofs.v
theories/LiveSound.v
theories/LiveTerm.v
theories/LiveWrites.v
theories/LiveCases.v
theories/LiveProps.v
theories/CommModel.v
theories/CommSpec.v
theories/CommProofs.v
theories/CommProps.v
theories/ElemModel.v
theories/ElemSpec.v
theories/ElemProofs.v
theories/ElemProps.v
theories/UnpackModel.v
theories/UnpackSpec.v
theories/UnpackProofs.v
theories/UnpackProps.v
theories/ConfModel.v
theories/ConfSpec.v
theories/ConfProofs.v
theories/ConfProps.v
theories/TagModel.v
theories/TagSpec.v
theories/TagProofs.v
theories/TagProps.v
theories/WatchModel.v
theories/WatchSpec.v
theories/WatchProofs.v
theories/WatchProps.v
theories/IntrModel.v
theories/IntrSpec.v
theories/IntrProofs.v
theories/IntrProps.v
theories/OutModel.v
theories/OutSpec.v
theories/OutProofs.v
theories/OutProps.v
theories/DebModel.v
theories/DebSpec.v
theories/DebProofs.v
theories/DebProps.v
theories/AnnoModel.v
theories/AnnoSpec.v
theories/AnnoProofs.v
theories/AnnoProps.v
theories/DagModel.v
theories/DagSpec.v
theories/DagProofs.v
theories/DagProps.v
theories/RefModel.v
theories/RefSpec.v
theories/RefProofs.v
theories/RefProps.v
theories/ScopeModel.v
theories/ScopeSpec.v
theories/ScopeProofs.v
theories/ScopeProps.v
theories/StaleModel.v
theories/StaleSpec.v
theories/StaleProofs.v
theories/StaleProps.v
theories/AliasModel.v
theories/AliasSpec.v
theories/AliasProofs.v
theories/AliasProps.v
theories/WaitModel.v
theories/WaitSpec.v
theories/WaitProofs.v
theories/WaitProps.v
theories/TraceModel.v
theories/TraceSpec.v
theories/TraceProofs.v
theories/TraceProps.v
theories/ArgsModel.v
theories/ArgsSpec.v
theories/ArgsProofs.v
theories/ArgsProps.v
theories/RvalModel.v
theories/RvalSpec.v
theories/RvalProofs.v
theories/RvalProps.v
theories/ChainModel.v
theories/ChainSpec.v
theories/ChainProofs.v
theories/ChainProps.v
theories/BindModel.v
theories/BindSpec.v
theories/BindProofs.v
theories/BindProps.v
theories/ExtModel.v
theories/ExtSpec.v
theories/ExtProofs.v
theories/ExtProps.v
theories/MarkModel.v
theories/MarkSpec.v
theories/MarkProofs.v
theories/MarkProps.v
theories/VersModel.v
theories/VersSpec.v
theories/VersProofs.v
theories/VersProps.v
theories/TypModel.v
theories/TypSpec.v
theories/TypProofs.v
theories/TypProps.v
theories/ChkModel.v
theories/ChkSpec.v
theories/ChkProofs.v
theories/ChkProps.v
theories/RunModel.v
theories/RunSpec.v
theories/RunProofs.v
theories/RunProps.v
theories/TextModel.v
theories/TextSpec.v
theories/TextProofs.v
theories/TextProps.v
theories/LoadModel.v
theories/LoadSpec.v
theories/LoadProofs.v
theories/LoadProps.v
theories/ShownModel.v
theories/ShownSpec.v
theories/ShownProofs.v
theories/ShownProps.v
theories/FuncModel.v
theories/FuncSpec.v
theories/FuncProofs.v
theories/FuncProps.v
theories/StripModel.v
theories/StripSpec.v
theories/StripProofs.v
theories/StripProps.v
theories/StmtModel.v
theories/StmtSpec.v
theories/StmtProofs.v
theories/StmtProps.v
theories/FollowModel.v
theories/FollowSpec.v
theories/FollowProofs.v
theories/FollowProps.v
theories/WroteModel.v
theories/WroteSpec.v
theories/WroteProofs.v
theories/WroteProps.v
theories/DeclModel.v
theories/DeclSpec.v
theories/DeclProofs.v
theories/DeclProps.v
theories/ImportModel.v
theories/ImportSpec.v
theories/ImportProofs.v
theories/ImportProps.v
theories/SkipModel.v
theories/SkipSpec.v
theories/SkipProofs.v
theories/SkipProps.v
theories/KindModel.v
theories/KindSpec.v
theories/KindProofs.v
theories/KindProps.v
theories/CopyModel.v
theories/CopySpec.v
theories/CopyProofs.v
theories/CopyProps.v
theories/NameModel.v
theories/NameSpec.v
theories/NameProofs.v
theories/NameProps.v
theories/AttachModel.v
theories/AttachSpec.v
theories/AttachProofs.v
theories/AttachProps.v
theories/ConfFlagProps.v
theories/WhereModel.v
theories/WhereSpec.v
theories/WhereProofs.v
theories/WhereProps.v

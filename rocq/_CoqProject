-Q theories Verif
theories/Base.v
theories/Syntax.v
theories/FrontEnd.v
theories/First.v
theories/States.v
theories/Actions.v
theories/Tables.v
theories/Runtime.v
theories/User.v
theories/Session.v
theories/TokenText.v
theories/BaseFacts.v
theories/PackFacts.v
theories/Spec.v
theories/Demo.v
theories/Refutations.v
theories/Refutations2.v
theories/WfGrammar.v
theories/FirstFacts.v
theories/ClosureFacts.v
theories/StatesFacts.v
theories/DfsFacts.v
theories/FollowFacts.v
theories/AutoFacts.v
theories/LalrFacts.v
theories/ActFacts.v
theories/CompFacts.v
theories/GroupFacts.v
theories/TabFacts.v
theories/LookFacts.v
theories/PipeFacts.v
theories/PackMore.v
theories/Sizes.v
theories/RunFacts.v
theories/SoundFacts.v
theories/SafeFacts.v
theories/FrontFacts.v
theories/BuildFacts.v
theories/ExpandFacts.v
theories/AbsFacts.v
theories/HaltFacts.v
theories/TermFacts.v
theories/CompleteFacts.v
theories/CleanFacts.v
theories/RefFacts.v
theories/DeclSpec.v
theories/DeclFacts.v
theories/GramFacts.v
theories/LangFacts.v
theories/TypeFacts.v
theories/MeanSpec.v
theories/MeanFacts.v
theories/TypeDecl.v
theories/PanicFacts.v
theories/RunMore.v
theories/Main.v
theories/RepoTests.v
theories/Interpreter.v
theories/Checks.v
theories/Claims.v
theories/Claims2.v
theories/DeclMore.v
theories/Claims3.v
theories/Claims4.v
theories/Names.v
theories/Claims5.v
theories/Claims6.v
theories/Claims7.v
theories/HandlerFacts.v
theories/Claims8.v
theories/TreeSpec.v
theories/Claims9.v
theories/LimitFacts.v
theories/LimitRun.v
theories/CycleSpec.v
theories/CycleFacts.v
theories/Claims10.v
theories/Claims12.v
theories/SourceText.v
theories/SourceFacts.v
theories/Claims11.v
theories/Refutations3.v
theories/FaultSpec.v
theories/FaultFacts.v
theories/FaultDuel.v
theories/FaultAct.v
theories/PanicSort.v
theories/FaultBack.v
theories/FaultNone.v
theories/Reorder.v
theories/ReorderFront.v
theories/ReorderStates.v
theories/Claims13.v
theories/ReorderActs.v
theories/ReorderRun.v
theories/Claims14.v
theories/KeptFacts.v
theories/PrecSpec.v
theories/Claims15.v
theories/OpFacts.v
theories/Claims16.v
theories/NestFacts.v
theories/Claims17.v
theories/TimeSpec.v
theories/TimeFacts.v
theories/Claims18.v
theories/Claims19.v
theories/MendSpec.v
theories/MendFacts.v
theories/Claims20.v
theories/HiddenFacts.v
theories/LinearFacts.v
theories/LinearRun.v
theories/Claims21.v
theories/OrderSpec.v
theories/OrderFacts.v
theories/IsoFacts.v
theories/AnonFacts.v
theories/OrderIso.v
theories/IsoRun.v
theories/OrderRun.v
theories/Claims22.v
theories/Claims23.v
theories/Rename.v
theories/RenameBack.v
theories/Claims24.v
theories/Letters.v
theories/Refutations4.v
theories/Report.v
theories/ReportSpec.v
theories/ReportText.v
theories/ReportActs.v
theories/ReportFacts.v
theories/DepthFacts.v
theories/TraceFacts.v
theories/Claims25.v
theories/PrecErase.v
theories/Claims26.v
theories/ChooseSpec.v
theories/ChooseFacts.v
theories/Claims27.v
theories/Claims28.v
theories/OptIso.v
theories/Claims29.v
theories/BlockIso.v
theories/Claims30.v
theories/Claims31.v
theories/Examples.v
theories/Properties.v

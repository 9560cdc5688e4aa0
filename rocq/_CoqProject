-Q theories Verif
theories/AcceptFacts.v
theories/AgainFacts.v
theories/Api.v
theories/Artifact.v
theories/AverageFacts.v
theories/Base.v
theories/BaseFacts.v
theories/BuildFacts.v
theories/CheckFacts.v
theories/CodecExample.v
theories/CommandFacts.v
theories/Commands.v
theories/CompletedFacts.v
theories/CompletionFacts.v
theories/CompletionThms.v
theories/CutFacts.v
theories/DeterFacts.v
theories/Disk.v
theories/DiskFacts.v
theories/DiskRunFacts.v
theories/DocFacts.v
theories/ElsewhereFacts.v
theories/Expand.v
theories/ExpandFacts.v
theories/ExportFacts.v
theories/Family.v
theories/FamilyFacts.v
theories/FloatFacts.v
theories/FloatNum.v
theories/FreshFacts.v
theories/GraphFacts.v
theories/GreedyFacts.v
theories/HeadFacts.v
theories/IdFacts.v
theories/Ids.v
theories/Init.v
theories/InitFacts.v
theories/JoinFacts.v
theories/JoinThms.v
theories/Json.v
theories/JsonArt.v
theories/JsonArtFacts.v
theories/JsonFacts.v
theories/JsonPanicFacts.v
theories/LineFacts.v
theories/LinkFacts.v
theories/Lint.v
theories/LintFacts.v
theories/LintThms.v
theories/Load.v
theories/LoadFacts.v
theories/LocalFacts.v
theories/Ls.v
theories/LsFacts.v
theories/MarkFacts.v
theories/Markdown.v
theories/MarkdownExact.v
theories/MarkdownFacts.v
theories/MdFileFacts.v
theories/MdPanicFacts.v
theories/Modify.v
theories/MovedFacts.v
theories/Name.v
theories/NameFacts.v
theories/NextFacts.v
theories/Numbers.v
theories/OpFacts.v
theories/OrderFacts.v
theories/OutcomeFacts.v
theories/PhaseFacts.v
theories/Pool.v
theories/PoolFacts.v
theories/PossibleFacts.v
theories/ProjectFacts.v
theories/PropAccept.v
theories/PropAgain.v
theories/PropApi.v
theories/PropArtifacts.v
theories/PropCommands.v
theories/PropCompleted.v
theories/PropDisk.v
theories/PropEdit.v
theories/PropFloat.v
theories/PropFmt.v
theories/PropFresh.v
theories/PropIds.v
theories/PropInit.v
theories/PropJson.v
theories/PropLint.v
theories/PropLoad.v
theories/PropLocal.v
theories/PropLs.v
theories/PropMarkdown.v
theories/PropMdExact.v
theories/PropMdFile.v
theories/PropModify.v
theories/PropNames.v
theories/PropOutcome.v
theories/PropRace.v
theories/PropRecover.v
theories/PropRender.v
theories/PropReport.v
theories/PropRetry.v
theories/PropRoute.v
theories/PropSave.v
theories/PropSaving.v
theories/PropScreen.v
theories/PropServer.v
theories/PropSettings.v
theories/PropSource.v
theories/PropStops.v
theories/PropSystem.v
theories/PropTogether.v
theories/PropView.v
theories/PropWalk.v
theories/PropWalkRace.v
theories/PropWeb.v
theories/PropWebGraph.v
theories/PropWire.v
theories/PureFacts.v
theories/RawNames.v
theories/RawNamesFacts.v
theories/ReadThms.v
theories/ReadyFacts.v
theories/RefFacts.v
theories/Regex.v
theories/RegexFacts.v
theories/ReloadFacts.v
theories/Render.v
theories/RenderFacts.v
theories/ResolveFacts.v
theories/RestateFacts.v
theories/ResultFacts.v
theories/RootFacts.v
theories/RowFacts.v
theories/RunFacts.v
theories/Saving.v
theories/SavingFacts.v
theories/ScanFacts.v
theories/Schedules.v
theories/Screen.v
theories/ScreenFacts.v
theories/SendFacts.v
theories/Server.v
theories/ServerCalls.v
theories/ServerFacts.v
theories/Settings.v
theories/SettingsFacts.v
theories/SinceFacts.v
theories/Source.v
theories/SourceFacts.v
theories/SpecAccept.v
theories/SpecAgain.v
theories/SpecCommands.v
theories/SpecCompletion.v
theories/SpecExpand.v
theories/SpecExport.v
theories/SpecFresh.v
theories/SpecGraph.v
theories/SpecHeads.v
theories/SpecIds.v
theories/SpecJoin.v
theories/SpecJson.v
theories/SpecJsonArt.v
theories/SpecLinks.v
theories/SpecLint.v
theories/SpecLoad.v
theories/SpecLocal.v
theories/SpecLs.v
theories/SpecMarkdown.v
theories/SpecMdExact.v
theories/SpecMdFile.v
theories/SpecModify.v
theories/SpecName.v
theories/SpecOutcome.v
theories/SpecRecover.v
theories/SpecReload.v
theories/SpecRender.v
theories/SpecReport.v
theories/SpecSave.v
theories/SpecScreen.v
theories/SpecServer.v
theories/SpecSettings.v
theories/SpecSource.v
theories/SpecSystem.v
theories/SpecTogether.v
theories/SpecView.v
theories/SpecWalk.v
theories/SpecWeb.v
theories/SpecWebGraph.v
theories/SpecWire.v
theories/StopFacts.v
theories/Stored.v
theories/SubFacts.v
theories/System.v
theories/SystemFacts.v
theories/Topo.v
theories/View.v
theories/ViewFacts.v
theories/Walk.v
theories/WalkFacts.v
theories/WalkRace.v
theories/WalkRaceFacts.v
theories/Web.v
theories/WebFacts.v
theories/WebGraph.v
theories/WebGraphFacts.v
theories/WebRoute.v
theories/WebSave.v
theories/WireFacts.v
theories/WireJson.v
theories/YamlExample.v

-Q theories Verif
theories/SetModel.v
theories/SetProofs.v
theories/SetTheorems.v
theories/ExecutorModel.v
theories/ExecutorSpec.v
theories/ExecutorBase.v
theories/ExecutorInv.v
theories/ExecutorSteps.v
theories/ExecutorSafety.v
theories/ExecutorLive.v
theories/ExecutorOrder.v
theories/ExecutorTheorems.v
theories/Str.v
theories/VersionModel.v
theories/VersionTheorems.v
theories/JobLimitsModel.v
theories/JobLimitsTheorems.v
theories/ProductsModel.v
theories/ProductsTheorems.v
theories/RebuildModel.v
theories/RebuildSpec.v
theories/RebuildDecide.v
theories/RebuildInv.v
theories/RebuildSteps.v
theories/RebuildJobs.v
theories/RebuildReach.v
theories/RebuildFinal.v
theories/RebuildPlain.v
theories/RebuildTheorems.v
theories/Bytes.v
theories/SessionModel.v
theories/SessionTheorems.v
theories/LauncherModel.v
theories/LauncherTheorems.v
theories/LspModel.v
theories/LspTheorems.v
theories/ShellModel.v
theories/ShellTheorems.v
theories/ChangeSetModel.v
theories/ChangeSetTheorems.v
theories/PathModel.v
theories/PathTheorems.v
theories/InstallTheorems.v
theories/PersistModel.v
theories/PersistTheorems.v
theories/SaveModel.v
theories/SaveTheorems.v
theories/GraphModel.v
theories/GraphTheorems.v
theories/RemovalModel.v
theories/RemovalTheorems.v
theories/ArtifactsModel.v
theories/ArtifactsTheorems.v
theories/CleanModel.v
theories/CleanTheorems.v
theories/SettingsModel.v
theories/SettingsTheorems.v
theories/JsSpec.v
theories/JsLiteralModel.v
theories/JsLiteralTheorems.v
theories/ConfigModel.v
theories/ConfigTheorems.v
theories/MultiplexModel.v
theories/MultiplexTheorems.v
theories/PkgConfigModel.v
theories/PkgConfigTheorems.v
theories/ProcessModel.v
theories/ProcessTheorems.v
theories/MergeModel.v
theories/MergeTheorems.v
theories/RuleGraphModel.v
theories/RuleGraphTheorems.v
theories/RuleApplyModel.v
theories/RuleApplyTheorems.v
theories/ChangeTrackingModel.v
theories/ChangeTrackingTheorems.v
theories/RescueModel.v
theories/RescueTheorems.v
theories/DepScanModel.v
theories/DepScanTheorems.v
theories/ModulesModel.v
theories/ModulesTheorems.v
theories/CppScanModel.v
theories/CppScanLexer.v
theories/CppScanTheorems.v
theories/SourcesModel.v
theories/SourcesTheorems.v
theories/ResolverModel.v
theories/ResolverTheorems.v
theories/ResolverAllTheorems.v
theories/RestoreModel.v
theories/RestoreTheorems.v
theories/ReloadModel.v
theories/ReloadTheorems.v
theories/ProbesModel.v
theories/ProbesTheorems.v
theories/EvaluatorModel.v
theories/EvaluatorTheorems.v
theories/GroupValuesTheorems.v
theories/ProvidersModel.v
theories/ProvidersTheorems.v
theories/ParserModel.v
theories/ParserTheorems.v
theories/CommandsModel.v
theories/CommandsTheorems.v
theories/EnvScriptsModel.v
theories/EnvScriptsTheorems.v
theories/InvocationModel.v
theories/InvocationTheorems.v
theories/ParametersModel.v
theories/ParametersTheorems.v
theories/ToolchainsModel.v
theories/ToolchainsTheorems.v
theories/SessionRequestsModel.v
theories/SessionRequestsTheorems.v
theories/ProjectFileModel.v
theories/ProjectFileTheorems.v
theories/OverridesModel.v
theories/OverridesTheorems.v
theories/PlatformsModel.v
theories/PlatformsTheorems.v
theories/QuoteModel.v
theories/QuoteTheorems.v
theories/ValuesModel.v
theories/ValuesTheorems.v
theories/MakefileModel.v
theories/MakefileTheorems.v
theories/LockModel.v
theories/LockTheorems.v
theories/JobItemsModel.v
theories/JobItemsTheorems.v
theories/ExportsModel.v
theories/ExportsTheorems.v
theories/SubNamesModel.v
theories/SubNamesTheorems.v
theories/InheritModel.v
theories/InheritTheorems.v
theories/LinkModel.v
theories/LinkTheorems.v
theories/LinkMsvcModel.v
theories/LinkMsvcTheorems.v
theories/LinkRpathTheorems.v
theories/ProgressModel.v
theories/ProgressTheorems.v
theories/GotoModel.v
theories/GotoTheorems.v

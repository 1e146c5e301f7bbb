-Q theories Verif
theories/Base.v
theories/BigIntSpec.v
theories/BigIntModel.v
theories/DecFacts.v
theories/BigIntProofs.v
theories/SMap.v
theories/SMapFacts.v
theories/ValueModel.v
theories/ValueSpec.v
theories/KeyProofs.v
theories/ResolverModel.v
theories/ResolverProofs.v
theories/NumberTheorems.v
theories/OrderProofs.v
theories/ValueTheorems.v
theories/VmModel.v
theories/VmSpec.v
theories/VmProofs.v
theories/VmSimProofs.v
theories/VmStmtProofs.v
theories/VmMergeProofs.v
theories/VmCacheProofs.v
theories/VmTheorems.v
theories/VmOpsTheorems.v
theories/CollModel.v
theories/CollSpec.v
theories/CollProofs.v
theories/CollObjProofs.v
theories/CollGraphProofs.v
theories/CollTheorems.v
theories/BinModel.v
theories/CrcProofs.v
theories/BinSpec.v
theories/BinProofs.v
theories/BinLoadProofs.v
theories/BinSafeProofs.v
theories/BinTheorems.v
theories/StrModel.v
theories/StrSpec.v
theories/StrProofs.v
theories/StrTheorems.v
theories/CoreModel.v
theories/CoreSpec.v
theories/CoreProofs.v
theories/CoreTheorems.v
theories/EncModel.v
theories/EncSpec.v
theories/EncProofs.v
theories/UriProofs.v
theories/EncTheorems.v
theories/MiscModel.v
theories/MiscSpec.v
theories/MiscProofs.v
theories/MiscTheorems.v
theories/PatchModel.v
theories/PatchSpec.v
theories/PatchProofs.v
theories/PatchTheorems.v
theories/JsonModel.v
theories/JsonSpec.v
theories/JsonProofs.v
theories/JsonTheorems.v
theories/CApiModel.v
theories/CApiSpec.v
theories/CApiProofs.v
theories/CApiTheorems.v
theories/DispatchModel.v
theories/DispatchSpec.v
theories/DispatchProofs.v
theories/RegistryModel.v
theories/RegistrySpec.v
theories/RegistryProofs.v
theories/RegistryTheorems.v
theories/CalModel.v
theories/TimeSpec.v
theories/CalProofs.v
theories/TimeModel.v
theories/TimeProofs.v
theories/DurProofs.v
theories/TimeTheorems.v
theories/GlobModel.v
theories/GlobSpec.v
theories/GlobProofs.v
theories/GlobTheorems.v
theories/InterpModel.v
theories/InterpSpec.v
theories/InterpTheorems.v
theories/DepModel.v
theories/DepSpec.v
theories/DepProofs.v
theories/DepTheorems.v
theories/PlanModel.v
theories/PlanSpec.v
theories/PlanProofs.v
theories/PlanBuildProofs.v
theories/PlanTheorems.v
theories/GlobsModel.v
theories/GlobsSpec.v
theories/GlobsProofs.v
theories/GlobsLoopProofs.v
theories/GlobsTextProofs.v
theories/GlobsTheorems.v
theories/RegexModel.v
theories/RegexSpec.v
theories/RegexProofs.v
theories/RegexTheorems.v
theories/JwtModel.v
theories/JwtSpec.v
theories/JwtProofs.v
theories/JwtSignProofs.v
theories/JwtTheorems.v
theories/BundleJsonModel.v
theories/BundleJsonSpec.v
theories/BundleJsonProofs.v
theories/BundleJsonTheorems.v
theories/RuleModel.v
theories/RuleSpec.v
theories/RuleVmProofs.v
theories/RuleVisitProofs.v
theories/RuleProofs.v
theories/RuleCompleteProofs.v
theories/RuleFnProofs.v
theories/RuleSetProofs.v
theories/RuleObjProofs.v
theories/RuleBuiltProofs.v
theories/RuleEntryProofs.v
theories/RuleQueryProofs.v
theories/RuleTheorems.v
theories/QueryModel.v
theories/QuerySpec.v
theories/QueryProofs.v
theories/QueryFnProofs.v
theories/QueryBuiltProofs.v
theories/QueryTheorems.v
theories/TermModel.v
theories/TermSpec.v
theories/TermStaticProofs.v
theories/TermVmProofs.v
theories/TermCalmProofs.v
theories/TermRunProofs.v
theories/TermScopeProofs.v
theories/TermRuleProofs.v
theories/TermPlainProofs.v
theories/TermSaneProofs.v
theories/TermLinkProofs.v
theories/TermBuiltProofs.v
theories/TermPolicyProofs.v
theories/TermTheorems.v
theories/TermPolicyTheorems.v
theories/OutputModel.v
theories/OutputSpec.v
theories/OutputProofs.v
theories/OutputTheorems.v
theories/ToNumModel.v
theories/ToNumSpec.v
theories/ToNumProofs.v
theories/ToNumTheorems.v
theories/PrintModel.v
theories/PrintSpec.v
theories/PrintProofs.v
theories/PrintTheorems.v
theories/CryptoModel.v
theories/CryptoTheorems.v
theories/SplitModel.v
theories/SplitSpec.v
theories/SplitProofs.v
theories/SplitTheorems.v
theories/SplitObjModel.v
theories/SplitObjTheorems.v

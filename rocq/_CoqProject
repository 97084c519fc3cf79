-Q theories Verif
theories/Base.v
theories/Fasl.v
theories/FaslProofs.v
theories/FaslThm.v
theories/Outcome.v
theories/Arith.v
theories/ArithProofs.v
theories/ArithThm.v
theories/Hashtable.v
theories/HashtableProofs.v
theories/HashtableThm.v
theories/Decimal.v
theories/Symbol.v
theories/SymbolProofs.v
theories/SymbolThm.v
theories/Env.v
theories/EnvProofs.v
theories/EnvThm.v
theories/Heap.v
theories/Equal.v
theories/EqualProofs.v
theories/EqualThm.v
theories/HeapM.v
theories/Lists.v
theories/ListsProofs.v
theories/ListsThm.v
theories/Vectors.v
theories/VectorsThm.v
theories/Strings.v
theories/StringsProofs.v
theories/StringsThm.v
theories/Pairs.v
theories/PairsThm.v
theories/Gc.v
theories/GcProofs.v
theories/GcThm.v
theories/Sort.v
theories/SortProofs.v
theories/SortThm.v
theories/Sets.v
theories/SetsProofs.v
theories/SetsThm.v
theories/Promise.v
theories/PromiseThm.v
theories/Path.v
theories/PathThm.v
theories/Port.v
theories/PortThm.v
theories/Ast.v
theories/Code.v
theories/Compile.v
theories/Sem.v
theories/Vm.v
theories/FreeVars.v
theories/CodeProofs.v
theories/CodeThm.v
theories/CompRel.v
theories/CompProofs.v
theories/SlotProofs.v
theories/CompThm.v
theories/Sim.v
theories/SimLemmas.v
theories/SimProofs.v
theories/TailProofs.v
theories/SimThm.v
theories/Stack.v
theories/StackThm.v
theories/Reader.v
theories/ReaderProofs.v
theories/ReaderThm.v
theories/WriteThm.v
theories/Check.v
theories/CheckThm.v
theories/Syntax.v
theories/SyntaxThm.v
theories/Records.v
theories/RecordsThm.v
theories/Format.v
theories/FormatThm.v
theories/Raise.v
theories/RaiseThm.v
theories/Opt.v
theories/OptRel.v
theories/OptSim.v
theories/OptProofs.v
theories/OptFun.v
theories/OptProg.v
theories/EvalFun.v
theories/OptTerm.v
theories/EvalRun.v
theories/OptThm.v
theories/LibRead.v
theories/LibReadProofs.v
theories/LibReadThm.v
theories/Modules.v
theories/ModulesProofs.v
theories/ModulesThm.v
theories/Expand.v
theories/ExpandProofs.v
theories/ExpandThm.v
theories/ExpandFormsThm.v
theories/BodyProofs.v
theories/BodyThm.v
theories/Derived.v
theories/DerivedProofs.v
theories/DerivedThm.v
theories/DerivedErrThm.v
theories/StxCase.v
theories/StxCaseProofs.v
theories/StxCaseThm.v
theories/Template.v
theories/TemplateProofs.v
theories/TemplateThm.v
theories/Enum.v
theories/EnumThm.v
theories/Generics.v
theories/GenericsThm.v
theories/DefRecord.v
theories/DefRecordThm.v
theories/Exn.v
theories/ExnThm.v
theories/Files.v
theories/FilesProofs.v
theories/FilesThm.v
theories/Main.v
theories/MainThm.v
theories/RecEq.v
theories/RecEqThm.v
theories/SynRules.v
theories/SynRulesProofs.v
theories/SynRulesThm.v
theories/MacroProofs.v
theories/DerivedStx.v
theories/DerivedStxProofs.v
theories/DerivedStxThm.v
theories/EnvLib.v
theories/EnvLibThm.v
theories/Diverge.v
theories/DivergeProofs.v
theories/DivergeSim.v
theories/DivergeThm.v
theories/Pipe.v
theories/PipeProofs.v
theories/PipeThm.v
theories/ListErrThm.v
theories/PipeParse.v
theories/GenTemp.v
theories/GenTempThm.v
theories/EnumMac.v
theories/EnumMacThm.v
theories/PromiseMacThm.v
theories/Names.v
theories/NamesThm.v
theories/ErrText.v
theories/ErrTextThm.v
theories/IO.v
theories/IOThm.v
theories/EvalPrim.v
theories/EvalPrimThm.v
theories/InitProofs.v
theories/InitThm.v
theories/FrameProofs.v
theories/FrameThm.v
theories/LibText.v
theories/LibTextProofs.v
theories/LibTextRun.v
theories/LibTextThm.v
theories/LibSource.v
theories/LibBoot.v
theories/LibBuild.v
theories/LibBuildProofs.v
theories/LibBuildThm.v
theories/PathText.v
theories/PathTextProofs.v
theories/PathTextRun.v
theories/PathTextThm.v
theories/SubText.v
theories/SubTextProofs.v
theories/SubTextThm.v
theories/StxText.v
theories/StxTextProofs.v
theories/StxTextThm.v
theories/StxSplit.v
theories/StxSplitProofs.v
theories/StxSplitThm.v
theories/StxMore.v
theories/StxMoreProofs.v
theories/StxMoreThm.v
theories/ScopeText.v
theories/ScopeTextProofs.v
theories/ScopeTextThm.v

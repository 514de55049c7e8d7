-Q theories Verif
theories/Base.v
theories/Names.v
theories/Comp.v
theories/Engine.v
theories/Fuel.v
theories/RefSem.v
theories/Discipline.v
theories/DiscRef.v
theories/SpecFacts.v
theories/Graph.v
theories/Rel.v
theories/Steps.v
theories/Steps2.v
theories/Ops.v
theories/Replay.v
theories/Watch.v
theories/Sim.v
theories/Sim2.v
theories/Main.v
theories/Spec.v
theories/Consistency.v
theories/Demo.v
theories/Refuted.v
theories/Necessity.v
theories/Static.v
theories/Memo.v
theories/MemoEx.v
theories/Uncond.v
theories/Edits.v
theories/TraceTree.v
theories/Context.v
theories/Types.v
theories/Demands.v
theories/EngineProps.v
theories/Dirtying.v
theories/TraceCount.v
theories/TraceRuns.v
theories/Examples.v
theories/BitString.v
theories/Naive.v
theories/Manage.v
theories/NodeInv.v
theories/WfCheck.v
theories/Checked.v
theories/Share.v
theories/Limits.v
theories/Lists.v
theories/Trees.v
theories/Trie.v
theories/Parse.v
theories/Printing.v
theories/Cat.v
theories/Layout.v
theories/CatEv.v
theories/CatFold.v
theories/CatTol.v
theories/CatSeq.v
theories/CatMerge.v
theories/CatList.v
theories/CatNm.v
theories/CatNames.v
theories/CatKinds.v
theories/CatNmKinds.v
theories/CatFilt.v
theories/CatSpec.v
theories/CatSessions.v
theories/CatExamples.v
theories/CatRefuted.v
theories/CatLoop.v
theories/Recording.v
theories/Reflected.v
theories/TraceShape.v
theories/Cutoff.v
theories/Exact.v
theories/Switch.v
theories/NomMemo.v
theories/NsFree.v
theories/IncMap.v
theories/IncMapEx.v
theories/IncTree.v
theories/IncTreeEx.v
theories/IncRev.v
theories/IncRevEx.v
theories/Macros.v
theories/Firewall.v
theories/Cycles.v
theories/Panic.v
theories/Lockstep.v
theories/Crash.v
theories/Dangling.v
theories/NoDups.v
theories/NoDupsSnap.v
theories/DanglingEx.v
theories/Arith.v

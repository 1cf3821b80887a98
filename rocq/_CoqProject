-Q theories Verif
theories/Base.v
theories/GoStr.v
theories/State.v
theories/Scanner.v
theories/ReadVal.v
theories/GoSort.v
theories/Segment.v
theories/Graph.v
theories/LogModel.v
theories/Reader.v
theories/Grammar.v
theories/Json.v
theories/Mxt.v
theories/Lua.v
theories/Tests.v
theories/BaseFacts.v
theories/Spec.v
theories/Utf8Facts.v
theories/StrFacts.v
theories/ScannerFacts.v
theories/ScannerRevFacts.v
theories/ReadFacts.v
theories/ScannerSafe.v
theories/ExKit.v
theories/PropScanner.v
theories/PropRead.v
theories/SpecSeg.v
theories/TokenFacts.v
theories/SortFacts.v
theories/SegFacts.v
theories/GraphFacts.v
theories/PropSegment.v
theories/PropGraph.v
theories/ReaderFwd.v
theories/ReaderFacts.v
theories/ReaderSim.v
theories/ReaderTrans.v
theories/ReaderSteps.v
theories/ReaderScan.v
theories/ReaderMisc.v
theories/PropReader.v
theories/PropMisc.v
theories/BasketFacts.v
theories/Marks.v
theories/MarksFacts.v
theories/TrackFacts.v
theories/PropBasket.v
theories/LogFacts.v
theories/PropLog.v
theories/Peg.v
theories/PegFacts.v
theories/PegBytes.v
theories/GrammarFacts.v
theories/PropGrammar.v
theories/SpecJson.v
theories/JsonFacts.v
theories/ReaderSync.v
theories/UseFacts.v
theories/PropJson.v
theories/PegTotal.v
theories/PropMxt.v
theories/SpecLua.v
theories/LuaFacts.v
theories/PropLua.v
theories/SpecLuaLex.v
theories/LuaLex.v
theories/LuaComment.v
theories/PropTotal.v
theories/PropLuaLex.v
theories/Gather.v
theories/Trace.v
theories/TraceFacts.v
theories/HearFacts.v
theories/PropTrack.v
theories/SpecMxt.v
theories/MxtFacts.v
theories/PropMxtText.v
theories/SpecTree.v
theories/JsonTree.v
theories/PropDemo.v
theories/SpecCfg.v
theories/CfgFacts.v
theories/PropCfg.v
theories/SpecLuaSyntax.v
theories/LuaSyntax.v
theories/LuaLens.v
theories/PropLuaSyntax.v
theories/PickFrom.v
theories/PropLuaBasket.v
theories/PropLeaf.v
theories/SpecLuaStyle.v
theories/LuaStyleKit.v
theories/LuaStyleRules.v
theories/LuaStyleHead.v
theories/LuaStyleExp.v
theories/LuaStyleSem.v
theories/LuaStyleList.v
theories/LuaStyleStat.v
theories/PropLuaStyle.v
theories/SpecWhat.v
theories/WhatFacts.v
theories/PropWhat.v
theories/SpecLuaOpen.v
theories/LuaOpen.v
theories/PropLuaOpen.v
theories/SpecLuaGap.v
theories/LuaGap.v
theories/PropLuaGap.v
theories/BasketMem.v
theories/BasketMemFacts.v
theories/PropBasketMem.v
theories/Cost.v
theories/CostFacts.v
theories/CostBound.v
theories/JsonCost.v
theories/LuaCost.v
theories/PropCost.v
theories/ShowFacts.v
theories/PropShow.v
theories/MxtCost.v
theories/MxtCostLow.v
theories/PropMxtCost.v
theories/Exchange.v
theories/ReaderLaws.v
theories/PropExchange.v
theories/Blame.v
theories/JsonBlame.v
theories/PropBlame.v
theories/Depth.v
theories/DepthFacts.v
theories/DepthBound.v
theories/SpecNest.v
theories/JsonDepth.v
theories/LuaDepth.v
theories/PropDepth.v
theories/Watch.v
theories/WatchFacts.v
theories/WatchBase.v
theories/WatchFwd.v
theories/PropWatch.v
theories/PropSetup.v
theories/PropWhile.v
theories/MxtBlame.v
theories/PropMxtBlame.v
theories/MxtParts.v
theories/PropMxtParts.v
theories/Silent.v
theories/JsonHear.v
theories/PropJsonHear.v
theories/Mirror.v
theories/PropMirror.v
theories/HearFrom.v
theories/PropHearFrom.v
theories/Shift.v
theories/ShiftRev.v
theories/PropShift.v
theories/Wire.v
theories/PropWire.v
theories/PropAll.v
theories/PropLine.v
theories/LogCalls.v
theories/PropLogCalls.v
theories/Edges.v
theories/PropEdges.v

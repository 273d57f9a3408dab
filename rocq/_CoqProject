-Q theories Verif
theories/Base.v
theories/Pointer.v
theories/Index.v
theories/Tree.v
theories/Builder.v
theories/Hist.v
theories/Node.v
theories/Iter.v
theories/Query.v
theories/Edit.v
theories/Print.v
theories/Render.v
theories/Clone.v
theories/Spec.v
theories/SpecSpan.v
theories/SpecEq.v
theories/SpecMap.v
theories/SpecMacro.v
theories/SpecForward.v
theories/SpecMarks.v
theories/SpecClone.v
theories/SpecWrap.v
theories/SpecFind.v
theories/SpecRange.v
theories/SpecEdit.v
theories/Rep.v
theories/Marks.v
theories/Refine.v
theories/TreeRep.v
theories/Enum.v
theories/Walk.v
theories/WalkTree.v
theories/Bounds.v
theories/WalkGen.v
theories/WalkThms.v
theories/Nav.v
theories/Skip.v
theories/Demo.v
theories/DocInv.v
theories/Layout.v
theories/Opaque.v
theories/AllHist.v
theories/AllWalk.v
theories/StepFacts.v
theories/Sim.v
theories/PropsTree.v
theories/PropsArith.v
theories/PropsSpan.v
theories/PropsFused.v
theories/PropsEq.v
theories/PropsDebug.v
theories/PropsSafe.v
theories/Stack.v
theories/PropsOpen.v
theories/PropsFind.v
theories/Relabel.v
theories/PropsReplace.v
theories/PropsMacro.v
theories/Forward.v
theories/PropsWith.v
theories/Place.v
theories/PropsMarks.v
theories/PropsClone.v
theories/PropsNest.v
theories/Local.v
theories/PropsWrap.v
theories/Range.v
theories/PropsRange.v
theories/Modify.v
theories/Replaced.v
theories/Copy.v
theories/PropsEdit.v
theories/PropsQuery.v
theories/SpecEmpty.v
theories/Spanless.v
theories/PropsEmpty.v
theories/Text.v
theories/ClientMath.v
theories/ClientCalc.v
theories/ClientSynth.v
theories/SpecChars.v
theories/SpecProgram.v
theories/PropsProgram.v
theories/ClientFacts.v
theories/SpecMath.v
theories/PropsMath.v
theories/SpecFail.v
theories/PropsFail.v
theories/SpecCalc.v
theories/CalcParse.v
theories/PropsCalc.v
theories/CalcEval.v
theories/PropsCalcEval.v
theories/PropsChars.v
theories/PropsCalcAll.v
theories/Mix.v
theories/SpecMix.v
theories/AllMix.v
theories/PropsMix.v
theories/PropsShop.v
theories/SpecText.v
theories/PropsText.v
theories/SpecSynth.v
theories/PropsSynth.v
theories/Order.v
theories/Direct.v
theories/SpecLast.v
theories/Stale.v
theories/PropsLinks.v
theories/SpecRemove.v
theories/PropsRemove.v
theories/SpecStarts.v
theories/PropsStarts.v
theories/Family.v
theories/SpecFamily.v
theories/PropsFamily.v
theories/SpecWalkMix.v
theories/PropsWalkMix.v
theories/Settle.v
theories/PropsSettle.v
theories/SpecModified.v
theories/SpecHistory.v
theories/PropsModified.v
theories/PropsHistory.v
theories/PropsCover.v
theories/SpecReplay.v
theories/PropsReplay.v
theories/SpecEvents.v
theories/PropsEvents.v
theories/SpecFlavors.v
theories/PropsFlavors.v
theories/Compare.v
theories/SpecCompare.v
theories/PropsCompare.v
theories/SpecInside.v
theories/PropsInside.v
theories/AllPlaced.v
theories/SpecReads.v
theories/AllReads.v
theories/PropsMisuse.v
theories/SpecShape.v
theories/Shape.v
theories/PropsShape.v
theories/SpecTour.v
theories/Tour.v
theories/PropsTour.v
theories/SpecEnds.v
theories/Ends.v
theories/Inside.v
theories/PropsEnds.v
theories/SpecShown.v
theories/PropsShown.v
theories/SpecOnward.v
theories/Onward.v
theories/PropsOnward.v
theories/SpecAfter.v
theories/After.v
theories/PropsAfter.v
theories/Macro.v
theories/SpecLiteral.v
theories/Literal.v
theories/PropsLiteral.v
theories/ClientBench.v
theories/SpecBench.v
theories/PropsBench.v
theories/Pretty.v
theories/SpecPretty.v
theories/PropsPretty.v
theories/SpecPrinted.v
theories/Deep.v
theories/PropsPrinted.v
theories/MacroFlavor.v
theories/SpecMacroFlavor.v
theories/PropsMacroFlavor.v
theories/Capacity.v
theories/PropsCapacity.v
theories/SpecSearches.v
theories/PropsSearches.v
theories/PropsIndexLaws.v
theories/Labels.v
theories/PropsLabels.v
theories/Live.v
theories/SpecLive.v
theories/PropsLive.v
theories/Conform.v

-Q theories Verif
theories/Base.v
theories/MBits.v
theories/MUtils.v
theories/MGraph.v
theories/MStack.v
theories/MRec.v
theories/MHeur.v
theories/MEnum.v
theories/MApi.v
theories/MExt.v
theories/MPy.v
theories/MGen.v
theories/MAlign.v
theories/MKabsch.v
theories/MMask.v
theories/MIter.v
theories/MFile.v
theories/MNW.v
theories/MNWEnum.v
theories/MNWApi.v
theories/MNWCorr.v
theories/SpecBits.v
theories/BaseFacts.v
theories/BitsFacts.v
theories/PopFacts.v
theories/SetFacts.v
theories/FindFacts.v
theories/SortFacts.v
theories/RadixFacts.v
theories/RowFacts.v
theories/ConstructFacts.v
theories/CardFacts.v
theories/Spec.v
theories/SpecDec.v
theories/FindTwo.v
theories/FileFacts.v
theories/LoadFacts.v
theories/ExportFacts.v
theories/LoadProps.v
theories/FileProps.v
theories/FileAny.v
theories/FileShort.v
theories/FileCount.v
theories/ExtFacts.v
theories/LiveFacts.v
theories/BitsProps.v
theories/SearchBase.v
theories/FrameFacts.v
theories/FrameInv.v
theories/LexFacts.v
theories/StackFacts.v
theories/NWSum.v
theories/NWBase.v
theories/NWStack.v
theories/RecFacts.v
theories/HeurFacts.v
theories/NWHeur.v
theories/SearchFacts.v
theories/CliqueFacts.v
theories/IsoFacts.v
theories/ApiFacts.v
theories/EnumFacts.v
theories/EnumApi.v
theories/NWSearch.v
theories/SpecNW.v
theories/NWFacts.v
theories/NWEnumFacts.v
theories/NWEnumApi.v
theories/NWProps.v
theories/NWSamples.v
theories/SatFacts.v
theories/SearchProps.v
theories/Samples.v
theories/ExtProps.v
theories/ExtSamples.v
theories/SpecIso.v
theories/IsoDicts.v
theories/SpecKeep.v
theories/KeepFacts.v
theories/KeepProps.v
theories/NWMono.v
theories/KeepSamples.v
theories/SpecGen.v
theories/GenFacts.v
theories/GenProps.v
theories/AlignFacts.v
theories/GenSamples.v
theories/SpecCont.v
theories/SpecOrder.v
theories/SpecFile.v
theories/ContFacts.v
theories/ContSamples.v
theories/SpecState.v
theories/StateFacts.v
theories/SpecNest.v
theories/NestFacts.v
theories/NestSamples.v
theories/OrderFacts.v
theories/P_Bits.v
theories/HubFacts.v
theories/P_Load.v
theories/P_Search.v
theories/EnumCalls.v
theories/P_Enum.v
theories/CorrCalls.v
theories/P_Ext.v
theories/P_File.v
theories/P_NW.v
theories/P_Keep.v
theories/P_Gen.v
theories/P_Cont.v
theories/P_Nest.v
theories/P_State.v
theories/NWSame.v
theories/SameSamples.v
theories/P_Order.v
theories/SpecRound.v
theories/RoundFacts.v
theories/RoundProps.v
theories/RoundSamples.v
theories/P_Round.v
theories/P_Refute.v
theories/P_Same.v
theories/NWRoundFacts.v
theories/NWRoundProps.v
theories/NWRoundSamples.v
theories/P_NWRound.v
theories/SpecKabsch.v
theories/KabschFacts.v
theories/KabschProps.v
theories/KabschSamples.v
theories/P_Kabsch.v
theories/LengthProps.v
theories/P_Length.v
theories/SpecMask.v
theories/MaskProps.v
theories/P_Mask.v
theories/EqualProps.v
theories/EqualSamples.v
theories/P_Equal.v
theories/SpecIter.v
theories/IterFacts.v
theories/IterSamples.v
theories/P_Iter.v
theories/SpecTheta.v
theories/ThetaProps.v
theories/ThetaSamples.v
theories/P_Theta.v
theories/SpecFirst.v
theories/FirstFacts.v
theories/FirstSamples.v
theories/P_First.v
theories/MDefault.v
theories/DefaultProps.v
theories/DefaultSamples.v
theories/P_Default.v
theories/SpecNWNest.v
theories/NWNestFacts.v
theories/NWNestProps.v
theories/NWNestSamples.v
theories/P_NWNest.v
theories/SpecScript.v
theories/ScriptFacts.v
theories/FlagFacts.v
theories/ScriptSamples.v
theories/P_Script.v
theories/NWEdgeFacts.v
theories/NWEdgeSamples.v
theories/P_NWEdge.v
theories/SpecSpace.v
theories/SpaceFacts.v
theories/SpaceSamples.v
theories/P_Space.v
theories/NWBoundSamples.v
theories/P_NWBound.v
theories/NWDetFacts.v
theories/SpecJunk.v
theories/NWEnumDet.v
theories/NWDetApi.v
theories/JunkSamples.v
theories/P_Junk.v
theories/DetFacts.v
theories/EnumDet.v
theories/SpecChoice.v
theories/DetApi.v
theories/ChoiceSamples.v
theories/P_Choice.v
theories/MCorr.v
theories/SpecCorr.v
theories/CorrFacts.v
theories/CorrSamples.v
theories/P_Corr.v
theories/MCorrIter.v
theories/CorrIter.v
theories/P_CorrIter.v
theories/MShare.v
theories/SpecShare.v
theories/ShareFacts.v
theories/P_Share.v
theories/EpsFacts.v
theories/EpsProps.v
theories/P_Eps.v
theories/GenRound.v
theories/GenRoundSamples.v
theories/P_GenRound.v
theories/MAlignGraph.v
theories/SpecAlign.v
theories/AlignProps.v
theories/AlignAll.v
theories/AlignSamples.v
theories/P_Align.v
theories/P_AlignAll.v
theories/MAlignIter.v
theories/AlignIter.v
theories/P_AlignIter.v
theories/SpecSwap.v
theories/SwapFacts.v
theories/P_Swap.v
theories/SpecChange.v
theories/ChangeFacts.v
theories/P_Change.v
theories/SpecContain.v
theories/ContainFacts.v
theories/P_Contain.v
theories/SpecUnits.v
theories/UnitFacts.v
theories/UnitSamples.v
theories/P_Units.v
theories/SpecScale.v
theories/ScaleFacts.v
theories/P_Scale.v
theories/SpecGrow.v
theories/GrowFacts.v
theories/GrowSamples.v
theories/P_Grow.v
theories/SpecLone.v
theories/LoneFacts.v
theories/LoneSamples.v
theories/SpecNWFirst.v
theories/NWFirst.v
theories/NWFirstLone.v
theories/NWFirstSamples.v
theories/P_NWFirst.v
theories/HeurCount.v
theories/P_Lone.v
theories/SpecCopy.v
theories/CopyFacts.v
theories/CopySamples.v
theories/P_Copy.v
theories/MDepth.v
theories/DepthFacts.v
theories/DepthNeed.v
theories/DepthSamples.v
theories/P_Depth.v
theories/SpecBeside.v
theories/BesideFacts.v
theories/BesideLists.v
theories/BesideSamples.v
theories/P_Beside.v
theories/SpecJoin.v
theories/JoinFacts.v
theories/JoinSamples.v
theories/P_Join.v
theories/SpecColour.v
theories/ColourFacts.v
theories/ColourSamples.v
theories/P_Colour.v
theories/MShow.v
theories/MNWShow.v
theories/SpecShow.v
theories/ShowFacts.v
theories/NWShowFacts.v
theories/ShowSamples.v
theories/NWShowSamples.v
theories/P_Show.v
theories/SpecGreedy.v
theories/GreedyFacts.v
theories/GreedySamples.v
theories/P_Greedy.v

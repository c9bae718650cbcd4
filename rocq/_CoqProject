-Q theories Verif
theories/Order.v
theories/Domain.v
theories/Bounds.v
theories/BoundsProps.v
theories/Interval.v
theories/Spec.v
theories/IntervalFacts.v
theories/Instances.v
theories/IntervalSize.v
theories/IntervalProps.v
theories/PropInterval.v
theories/Tree.v
theories/SetModel.v
theories/Seg.v
theories/TreeFacts.v
theories/EraseIter.v
theories/JoinFacts.v
theories/SetFacts.v
theories/SetAdd.v
theories/SetOps.v
theories/CrashModel.v
theories/CrashFacts.v
theories/CrashSet.v
theories/SegElem.v
theories/SetWhole.v
theories/SetFlip.v
theories/SetQuery.v
theories/SetQuery2.v
theories/SetQuery3.v
theories/SetQuery4.v
theories/ContModel.v
theories/ContJoin.v
theories/ContCompare.v
theories/ContElems.v
theories/DenseSize.v
theories/SetSpec.v
theories/SetProps.v
theories/SetLaws.v
theories/SetThms.v
theories/PropSet.v
theories/MapModel.v
theories/Upd.v
theories/MapFacts.v
theories/MapAdd.v
theories/MapSub.v
theories/MapIns.v
theories/MapErase.v
theories/MapWhole.v
theories/MapFlip.v
theories/MapModel2.v
theories/MapQuery.v
theories/MapSpec.v
theories/MapReach.v
theories/MapCuts.v
theories/MapThms.v
theories/MapThms2.v
theories/MapThms3.v
theories/MapThms4.v
theories/MapBorders.v
theories/MapInst.v
theories/PropMap.v
theories/PropMap2.v
theories/PropMap3.v
theories/ElemModel.v
theories/ElemSpec.v
theories/ElemFacts.v
theories/ElemOps.v
theories/ElemQuery.v
theories/ElemThms.v
theories/ElemThms2.v
theories/ElemRefine.v
theories/ElemRefine2.v
theories/ElemConv.v
theories/ElemTop.v
theories/PropElem.v
theories/PropElem2.v
theories/IterSpec.v
theories/IterModel.v
theories/IterThms.v
theories/PropIter.v
theories/AliasModel.v
theories/AliasThms.v
theories/PropAlias.v
theories/LookSpec.v
theories/LookThms.v
theories/PropLook.v
theories/SetKeep.v
theories/StableSpec.v
theories/StableThms.v
theories/PropStable.v
theories/CrashSpec.v
theories/CrashThms.v
theories/PropCrash.v
theories/CrashMapModel.v
theories/ThrowModel.v
theories/CrashMap.v
theories/CrashIns.v
theories/CrashAdd.v
theories/CrashAny.v
theories/ThrowFacts.v
theories/CrashMapSpec.v
theories/CrashMapThms.v
theories/PropCrash2.v
theories/CrashFlipModel.v
theories/CrashFlip.v
theories/PropCrash3.v
theories/StableAllSpec.v
theories/StableAll.v
theories/CrashFlipMapModel.v
theories/CrashFlipMap.v
theories/PropCrash4.v
theories/PropStable2.v
theories/CompareModel.v
theories/CompareSpec.v
theories/CompareThms.v
theories/PropCompare.v
theories/SizeThms.v
theories/SizeAnd.v
theories/SizeFlip.v
theories/FlipBorders.v
theories/PropSize.v
theories/HistSpec.v
theories/HistThms.v
theories/PropHist.v
theories/LargeBitsetModel.v
theories/LargeBitsetSpec.v
theories/LargeBitsetThms.v
theories/PropLarge.v
theories/ThrowSpec.v
theories/ThrowThms.v
theories/PropThrow.v
theories/DistinctModel.v
theories/DistinctSpec.v
theories/DistinctThms.v
theories/CollSpec.v
theories/CollThms.v
theories/CollInst.v
theories/PropColl.v
theories/QuantSpec.v
theories/QuantThms.v
theories/QuantInst.v
theories/PropQuant.v
theories/NestSpec.v
theories/NestThms.v
theories/PropNest.v
theories/NestISpec.v
theories/NestIThms.v
theories/PropNestI.v
theories/PrintModel.v
theories/PrintSpec.v
theories/PrintThms.v
theories/PropPrint.v
theories/WholeBorders.v
theories/PropWhole.v
theories/Assumptions.v

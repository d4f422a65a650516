-Q theories Verif
theories/Base.v
theories/Tokens.v
theories/Syn.v
theories/Errors.v
theories/FieldStatus.v
theories/Helpers.v
theories/Meta.v
theories/LibPrim.v
theories/LibColl.v
theories/With.v
theories/DeriveFields.v
theories/DeriveStruct.v
theories/DeriveEnum.v
theories/Attrs.v
theories/HasAttrs.v
theories/SpecNodes.v
theories/LemNodes.v
theories/Validations.v
theories/SmallString.v
theories/SpecSmall.v
theories/LemSmall.v
theories/Lexer.v
theories/ExNodes.v
theories/PropsNodes.v
theories/PropsSmall.v
theories/TestKit.v
theories/SourceKit.v
theories/Conformance.v
theories/SpecWf.v
theories/LemWf.v
theories/LemWfD.v
theories/LemWfE.v
theories/WfMore.v
theories/PropsWf.v
theories/SpecStruct.v
theories/LemWalk.v
theories/LemNamed.v
theories/LemItems.v
theories/LemStruct.v
theories/LemStructP.v
theories/LemBlind.v
theories/LemBlindD.v
theories/LemLocal.v
theories/LemLocalD.v
theories/SpecColl.v
theories/LemColl.v
theories/LemSet.v
theories/LemMap.v
theories/LemTuple.v
theories/LemTuple2.v
theories/LemTStruct.v
theories/LemAbout.v
theories/LemRun.v
theories/LemSplit.v
theories/LemAppend.v
theories/LemColl2.v
theories/SpecImpl.v
theories/LemImpl.v
theories/LemColl3.v
theories/SpecWith.v
theories/SpecPrim.v
theories/LemPrim.v
theories/PropsPrim.v
theories/SpecMod.v
theories/LemMod.v
theories/ExMod.v
theories/PropsMod.v
theories/LemWith.v
theories/LemPunct.v
theories/ExStruct.v
theories/PropsStruct.v
theories/ExColl.v
theories/PropsColl.v
theories/SpecFlat.v
theories/LemFlat.v
theories/LemFlat2.v
theories/ExFlat.v
theories/PropsFlat.v
theories/SpecEnum.v
theories/LemTransparent.v
theories/LemEnum.v
theories/LemEnum2.v
theories/LemEnum3.v
theories/LemEnum4.v
theories/LemEnum5.v
theories/LemEnum6.v
theories/LemEnum7.v
theories/ExEnum.v
theories/PropsEnum.v
theories/SpecMore.v
theories/LemMore.v
theories/LemMore2.v
theories/LemMore3.v
theories/ExMore.v
theories/PropsMore.v
theories/SpecAttr.v
theories/LemAttr.v
theories/LemAttr2.v
theories/ExAttr.v
theories/PropsAttr.v
theories/Schema.v
theories/NamesCode.v
theories/SpecNames.v
theories/LemNames.v
theories/ExNames.v
theories/PropsNames.v
theories/Header.v
theories/SpecHeader.v
theories/LemHeader.v
theories/Lower.v
theories/SpecSnake.v
theories/LemSnake.v
theories/PropsSnake.v
theories/SpecSchema.v
theories/LemSchema.v
theories/LemSchema2.v
theories/LemSchema3.v
theories/LemSchema4.v
theories/LemSchema5.v
theories/LemSchema6.v
theories/Driver.v
theories/SpecDriver.v
theories/LemDriver.v
theories/ExSchema.v
theories/ExHeader.v
theories/PropsHeader.v
theories/ExDriver.v
theories/PropsDriver.v
theories/PropsSchema.v
theories/SpecOpts.v
theories/LemOpts.v
theories/LemOpts2.v
theories/LemOpts3.v
theories/LemOpts4.v
theories/LemOpts5.v
theories/LemOpts6.v
theories/LemOpts7.v
theories/LemOpts8.v
theories/ExOpts.v
theories/PropsOpts.v
theories/SpecVariant.v
theories/LemVariant.v
theories/PropsVariant.v
theories/SpecSource.v
theories/SpecFSource.v
theories/LemSource.v
theories/LemSource2.v
theories/LemFSource.v
theories/SpecESource.v
theories/SpecVSource.v
theories/LemSource3.v
theories/LemSource4.v
theories/ExSource.v
theories/ExFSource.v
theories/ExESource.v
theories/ExVSource.v
theories/PropsSource.v
theories/PropsVSource.v
theories/PropsFSource.v
theories/KeyStr.v
theories/SpecKeyStr.v
theories/LemKeyStr.v
theories/PropsKeyStr.v
theories/LemPath.v
theories/PropsPath.v
theories/SpecNested.v
theories/LemNested.v
theories/ExNested.v
theories/PropsNested.v
theories/SpecDiag.v
theories/LemDiag.v
theories/LemDiag2.v
theories/LemDiag3.v
theories/LemDiag4.v
theories/LemDiag5.v
theories/LemDiag6.v
theories/LemDiag7.v
theories/LemDiag8.v
theories/ExDiag.v
theories/PropsDiag.v
theories/SpecBlock.v
theories/LemBlock.v
theories/LemBlock2.v
theories/LemBlock3.v
theories/LemBlock4.v
theories/LemBlock5.v
theories/ExBlock.v
theories/PropsBlock.v
theories/SpecStop.v
theories/LemStop.v
theories/ExStop.v
theories/PropsStop.v
theories/SpecDrop.v
theories/LemDrop.v
theories/LemDrop2.v
theories/LemDrop3.v
theories/LemDrop4.v
theories/ExDrop.v
theories/PropsDrop.v
theories/SpecEStop.v
theories/LemEStop.v
theories/ExEStop.v
theories/PropsEStop.v
theories/SpecOrder.v
theories/SpecEFlat.v
theories/LemEFlat.v
theories/SpecPick.v
theories/LemPick.v
theories/ExEFlat.v
theories/PropsEFlat.v
theories/SpecBare.v
theories/LemBare.v
theories/ExBare.v
theories/PropsBare.v
theories/SpecTight.v
theories/LemTight.v
theories/ExTight.v
theories/PropsTight.v
theories/SpecRefuse.v
theories/LemRefuse.v
theories/PropsRefuse.v
theories/SpecRow.v
theories/LemRow.v
theories/ExRow.v
theories/PropsRow.v
theories/SpecSpan.v
theories/LemSpan.v
theories/PropsSpan.v
theories/SpecVItem.v
theories/LemVItem.v
theories/PropsVItem.v
theories/SpecAccum.v
theories/LemAccum.v
theories/PropsAccum.v
theories/SpecIdle.v
theories/LemIdle.v
theories/ExIdle.v
theories/PropsIdle.v
theories/SpecAdvice.v
theories/LemAdvice.v
theories/ExAdvice.v
theories/PropsAdvice.v
theories/LemLone.v
theories/ExLone.v
theories/PropsLone.v
theories/LemFirst.v
theories/LemIdle2.v
theories/ExFirst.v
theories/PropsFirst.v
theories/ProcMacro.v
theories/SpecPm.v
theories/LemPm.v
theories/ExPm.v
theories/PropsPm.v
theories/LemAdvert.v
theories/LemOwn.v
theories/ExPick.v
theories/PropsPick.v
theories/SpecPerm.v
theories/LemPerm.v
theories/ExPerm.v
theories/PropsPerm.v
theories/SpecMove.v
theories/LemMove.v
theories/ExMove.v
theories/PropsMove.v
theories/SpecGrow.v
theories/LemGrow.v
theories/ExGrow.v
theories/PropsGrow.v
theories/SpecAlias.v
theories/LemAlias.v
theories/ExAlias.v
theories/PropsAlias.v
theories/SpecAllow.v
theories/LemAllow2.v
theories/LemAllow.v
theories/ExAllow.v
theories/PropsAllow.v
theories/SpecAka.v
theories/LemAka.v
theories/ExAka.v
theories/PropsAka.v
theories/SpecLax.v
theories/LemLax.v
theories/ExLax.v
theories/PropsLax.v
theories/SpecWider.v
theories/LemWider.v
theories/LemWider2.v
theories/LemWider3.v
theories/LemWider4.v
theories/LemWider5.v
theories/LemWider6.v
theories/ExWider.v
theories/PropsWider.v
theories/SpecTwice.v
theories/LemTwice.v
theories/ExTwice.v
theories/PropsTwice.v
theories/ExAdvert.v
theories/PropsAdvert.v
theories/SpecTail.v
theories/LemTail.v
theories/ExTail.v
theories/PropsTail.v
theories/SpecHold.v
theories/LemHold.v
theories/LemHold2.v
theories/ExHold.v
theories/PropsHold.v
theories/SpecValid.v
theories/LemValid.v
theories/PropsValid.v
theories/SpecOff.v
theories/LemOff.v
theories/LemOff2.v
theories/ExOff.v
theories/PropsOff.v
theories/Emit.v
theories/SpecEmit.v
theories/LemEmit.v
theories/LemEmit2.v
theories/LemEmit3.v
theories/LemEmit4.v
theories/LemEmit5.v
theories/ExEmit.v
theories/PropsEmit.v

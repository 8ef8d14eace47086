-Q theories Verif
theories/Res.v
theories/Str.v
theories/BMap.v
theories/BMapProofs.v
theories/StrProofs.v
theories/Profile.v
theories/Tag.v
theories/Num.v
theories/Value.v
theories/Metadata.v
theories/Err.v
theories/Coalesce.v
theories/Figment.v
theories/ProfileProofs.v
theories/SpecValue.v
theories/ValueProofs.v
theories/CoalesceProofs.v
theories/SpecFigment.v
theories/FigmentProofs.v
theories/ProvProofs.v
theories/SpecTag.v
theories/TagProofs.v
theories/FigmentProofs2.v
theories/SpecPriority.v
theories/PriorityProofs.v
theories/SpecLookup.v
theories/LookupProofs.v
theories/PriorityProofs2.v
theories/PropsCoalesce.v
theories/PropsTag.v
theories/PropsFigment.v
theories/PropsLookup.v
theories/Escape.v
theories/NumParse.v
theories/Parse.v
theories/Env.v
theories/SpecNear.v
theories/NearProofs.v
theories/SpecParse.v
theories/EscapeProofs.v
theories/TrimProofs.v
theories/NumParseProofs.v
theories/ParseProofs.v
theories/ParseProofs2.v
theories/ParseProofs3.v
theories/SpecShow.v
theories/ShowProofs.v
theories/SpecLossy.v
theories/LossyProofs.v
theories/SpecEnv.v
theories/EnvProofs.v
theories/PropsParse.v
theories/PropsEnv.v
theories/Fmt.v
theories/De.v
theories/Ser.v
theories/DeProofs.v
theories/LossyDeProofs.v
theories/SpecDe.v
theories/FmtProofs.v
theories/BlameProofs.v
theories/ExtractProofs.v
theories/PropsDe.v
theories/SpecRt.v
theories/RtProofs.v
theories/SerProofs.v
theories/SpecMagic.v
theories/MagicProofs.v
theories/PropsRt.v
theories/Path.v
theories/Data.v
theories/Jail.v
theories/SpecPath.v
theories/PathProofs.v
theories/SpecData.v
theories/DataProofs.v
theories/SpecJail.v
theories/JailProofs.v
theories/PropsFile.v
theories/SpecExtract.v
theories/MeaningProofs.v
theories/Display.v
theories/SpecDisplay.v
theories/SpecMore.v
theories/MoreProofs.v
theories/PropsMore.v
theories/SpecEither.v
theories/EitherProofs.v
theories/PropsEither.v
theories/Into.v
theories/SpecInto.v
theories/IntoProofs.v
theories/PropsNear.v
theories/Doc.v
theories/SpecDoc.v
theories/DocProofs.v
theories/PropsDoc.v
theories/SpecShown.v
theories/FloatShowProofs.v
theories/ShortestProofs.v
theories/ActualProofs.v
theories/SpecQuote.v
theories/QuoteProofs.v
theories/PropsShown.v
theories/SpecStuck.v
theories/StuckProofs.v
theories/PropsStuck.v
theories/SpecEnvData.v
theories/EnvDataProofs.v
theories/PropsEnvData.v
theories/SpecTaken.v
theories/TakenProofs.v
theories/PropsTaken.v
theories/SpecGives.v
theories/GivesProofs.v
theories/PropsGives.v
theories/SpecBlind.v
theories/BlindProofs.v
theories/PropsBlind.v
theories/Eq.v
theories/SpecEq.v
theories/EqProofs.v
theories/PropsEq.v
theories/SpecFrame.v
theories/FrameProofs.v
theories/OrderProofs.v
theories/PropsFrame.v
theories/Magic.v
theories/World.v
theories/SpecWorld.v
theories/WorldProofs.v
theories/PropsWorld.v
theories/SpecLayers.v
theories/LayersProofs.v
theories/PropsLayers.v
theories/SpecView.v
theories/ViewProofs.v
theories/PropsView.v
theories/Yaml.v
theories/SpecYaml.v
theories/YamlProofs.v
theories/PropsYaml.v
theories/SpecText.v
theories/TextProofs.v
theories/PropsText.v
theories/Threads.v
theories/SpecThreads.v
theories/ThreadsProofs.v
theories/PropsThreads.v
theories/SpecStack.v
theories/StackProofs.v
theories/PropsStack.v
theories/SpecMeta.v
theories/PropsMeta.v
theories/SpecTwin.v
theories/TwinProofs.v
theories/PropsTwin.v
theories/Debug.v
theories/SpecDebug.v
theories/Float32ShowProofs.v
theories/DebugProofs.v
theories/PropsDebug.v
theories/SpecHollow.v
theories/HollowProofs.v
theories/PropsHollow.v
theories/JailExactProofs.v
theories/PropsJailExact.v
theories/Content.v
theories/Derive.v
theories/SpecBuffer.v
theories/SpecDerive.v
theories/FieldProofs.v
theories/ContentProofs.v
theories/DeriveProofs.v
theories/BareProofs.v
theories/CopyProofs.v
theories/PlaceProofs.v
theories/PropsDerive.v
theories/SpecSer.v
theories/SerExactProofs.v
theories/PropsSer.v
theories/SpecRefuse.v
theories/RefuseProofs.v
theories/RefuseDataProofs.v
theories/RefusalProofs.v
theories/PropsRefuse.v
theories/SpecBuilt.v
theories/PropsBuilt.v
theories/SpecFault.v
theories/FaultProofs.v
theories/PropsFault.v
theories/SpecSave.v
theories/AgreeProofs.v
theories/SaveProofs.v
theories/PropsSave.v
theories/SpecStages.v
theories/StagesProofs.v
theories/PropsStages.v
theories/AgainProofs.v
theories/PropsAgain.v
theories/SpecField.v
theories/PropsField.v
theories/SpecCapital.v
theories/PropsCapital.v
theories/SpecStageFault.v
theories/StageFaultProofs.v
theories/PropsStageFault.v
theories/SpecSettings.v
theories/SettingsProofs.v
theories/PropsSettings.v
theories/OsText.v
theories/SpecOsText.v
theories/OsTextProofs.v
theories/PropsOsText.v
theories/SpecRocket.v
theories/RocketProofs.v
theories/PropsRocket.v
theories/SpecDeny.v
theories/PropsDeny.v
theories/SpecSource.v
theories/SourceProofs.v
theories/PropsSource.v
theories/RepoTests.v

-Q theories Verif
theories/Model/Adjacent.v
theories/Model/Attributes.v
theories/Model/Buffered.v
theories/Model/BufferedEnum.v
theories/Model/BufferedSer.v
theories/Model/BytePaths.v
theories/Model/Bytes.v
theories/Model/Checks.v
theories/Model/Concurrent.v
theories/Model/Config.v
theories/Model/Convert.v
theories/Model/Converted.v
theories/Model/Deserializer.v
theories/Model/Errors.v
theories/Model/Finder.v
theories/Model/Flt.v
theories/Model/Layers.v
theories/Model/Logging.v
theories/Model/Macro.v
theories/Model/Merge.v
theories/Model/Num.v
theories/Model/Paths.v
theories/Model/Readers.v
theories/Model/Readme.v
theories/Model/SerCalls.v
theories/Model/Serde.v
theories/Model/SkipSer.v
theories/Model/Stateful.v
theories/Model/StdTypes.v
theories/Model/Text.v
theories/Model/Toml.v
theories/Model/TomlText.v
theories/Model/Value.v
theories/Model/Visitor.v
theories/Model/World.v
theories/Proofs/AdjacentProofs.v
theories/Proofs/Aliases.v
theories/Proofs/AsText.v
theories/Proofs/Attrs.v
theories/Proofs/Basics.v
theories/Proofs/BufferedCompare.v
theories/Proofs/BufferedEnumProofs.v
theories/Proofs/BufferedMore.v
theories/Proofs/BufferedProofs.v
theories/Proofs/BufferedTrips.v
theories/Proofs/BufferedTripsMore.v
theories/Proofs/BytePathsProofs.v
theories/Proofs/BytesProofs.v
theories/Proofs/Calls.v
theories/Proofs/ChecksProofs.v
theories/Proofs/Commute.v
theories/Proofs/ConcurrentProofs.v
theories/Proofs/ConfigBuild.v
theories/Proofs/Containers.v
theories/Proofs/Conversions.v
theories/Proofs/DeProofs.v
theories/Proofs/Display.v
theories/Proofs/EndToEnd.v
theories/Proofs/Env.v
theories/Proofs/ErrorTexts.v
theories/Proofs/Files.v
theories/Proofs/FinderGrow.v
theories/Proofs/FinderMore.v
theories/Proofs/FinderProofs.v
theories/Proofs/FinderTop.v
theories/Proofs/Float32.v
theories/Proofs/FloatBase.v
theories/Proofs/FloatConv.v
theories/Proofs/FloatText.v
theories/Proofs/FormatTrip.v
theories/Proofs/LifeProofs.v
theories/Proofs/Loaded.v
theories/Proofs/LogProofs.v
theories/Proofs/MacroProofs.v
theories/Proofs/Merge.v
theories/Proofs/MergeMore.v
theories/Proofs/Override.v
theories/Proofs/PartsMore.v
theories/Proofs/PathLemmas.v
theories/Proofs/ReadAs.v
theories/Proofs/ReadersProofs.v
theories/Proofs/ReadmeProofs.v
theories/Proofs/Reads.v
theories/Proofs/Recursive.v
theories/Proofs/RoundTrip.v
theories/Proofs/SameReads.v
theories/Proofs/SearchTrace.v
theories/Proofs/SerCallsProofs.v
theories/Proofs/SerProofs.v
theories/Proofs/SerdeMore.v
theories/Proofs/Settle.v
theories/Proofs/Shape.v
theories/Proofs/Shortest.v
theories/Proofs/SkipProofs.v
theories/Proofs/StartProofs.v
theories/Proofs/StatefulProofs.v
theories/Proofs/StdProofs.v
theories/Proofs/TomlArrays.v
theories/Proofs/TomlDates.v
theories/Proofs/TomlDoc.v
theories/Proofs/TomlExact.v
theories/Proofs/TomlForm.v
theories/Proofs/TomlFrame.v
theories/Proofs/TomlHand.v
theories/Proofs/TomlJoin.v
theories/Proofs/TomlKinds.v
theories/Proofs/TomlLex.v
theories/Proofs/TomlLook.v
theories/Proofs/TomlMeaning.v
theories/Proofs/TomlNum.v
theories/Proofs/TomlOrder.v
theories/Proofs/TomlProofs.v
theories/Proofs/TomlProper.v
theories/Proofs/TomlRead.v
theories/Proofs/TomlReadDoc.v
theories/Proofs/TomlReadLong.v
theories/Proofs/TomlReadValues.v
theories/Proofs/TomlSays.v
theories/Proofs/TomlSim.v
theories/Proofs/TomlStart.v
theories/Proofs/TomlTables.v
theories/Proofs/TomlValues.v
theories/Proofs/TomlWords.v
theories/Proofs/Utf8.v
theories/Proofs/VisitorMore.v
theories/Proofs/VisitorProofs.v
theories/Properties/P01_Containers.v
theories/Properties/P02_Conversions.v
theories/Properties/P03_Floats.v
theories/Properties/P04_Merge.v
theories/Properties/P05_Config.v
theories/Properties/P06_Layers.v
theories/Properties/P07_Finder.v
theories/Properties/P08_Macro.v
theories/Properties/P09_Serde.v
theories/Properties/P10_Shape.v
theories/Properties/P11_Formats.v
theories/Properties/P12_Concurrency.v
theories/Properties/P13_EndToEnd.v
theories/Properties/P14_Races.v
theories/Properties/P15_Reads.v
theories/Properties/P16_Order.v
theories/Properties/P17_Start.v
theories/Properties/P18_Growth.v
theories/Properties/P19_Loaded.v
theories/Properties/P20_Recursive.v
theories/Properties/P21_Reads.v
theories/Properties/P22_Override.v
theories/Properties/P23_AsText.v
theories/Properties/P24_Calls.v
theories/Properties/P25_Attributes.v
theories/Properties/P26_SerCalls.v
theories/Properties/P27_Toml.v
theories/Properties/P28_Buffered.v
theories/Properties/P29_Aliases.v
theories/Properties/P30_BufferedTrips.v
theories/Properties/P31_StdTypes.v
theories/Properties/P32_Stateful.v
theories/Properties/P33_Life.v
theories/Properties/P34_Settle.v
theories/Properties/P35_BufferedEnums.v
theories/Properties/P36_Logging.v
theories/Properties/P37_TypedStart.v
theories/Properties/P38_Checks.v
theories/Properties/P39_Readme.v
theories/Properties/P40_Parts.v
theories/Properties/P41_Search.v
theories/Properties/P42_BytePaths.v
theories/Properties/P43_TomlExact.v
theories/Properties/P44_PartsMore.v
theories/Properties/P45_TomlText.v
theories/Properties/P46_TomlValues.v
theories/Properties/P47_TomlTables.v
theories/Properties/P48_TomlDates.v
theories/Properties/P49_SkipSer.v
theories/Properties/P50_TomlArrays.v
theories/Properties/P51_TomlOrder.v
theories/Properties/P52_TomlLines.v
theories/Properties/P53_TomlLook.v
theories/Properties/P54_TomlForm.v
theories/Properties/P55_TomlSays.v
theories/Spec/AgreeSpec.v
theories/Spec/AliasSpec.v
theories/Spec/AttrSpec.v
theories/Spec/BufferedEnumSpec.v
theories/Spec/BufferedSerSpec.v
theories/Spec/BufferedSpec.v
theories/Spec/BytePathsSpec.v
theories/Spec/BytesSpec.v
theories/Spec/CallsSpec.v
theories/Spec/ConcurrentSpec.v
theories/Spec/ConfigSpec.v
theories/Spec/Containers.v
theories/Spec/EnvSpec.v
theories/Spec/ErrorSpec.v
theories/Spec/FinderSpec.v
theories/Spec/FloatSpec.v
theories/Spec/LifeSpec.v
theories/Spec/LogSpec.v
theories/Spec/MacroSpec.v
theories/Spec/MergeSpec.v
theories/Spec/Numerals.v
theories/Spec/OverrideSpec.v
theories/Spec/PartsSpec.v
theories/Spec/PathSpec.v
theories/Spec/ReadSpec.v
theories/Spec/ReadersSpec.v
theories/Spec/ReadsSpec.v
theories/Spec/RecSpec.v
theories/Spec/SearchSpec.v
theories/Spec/SerCallsSpec.v
theories/Spec/SerdeSpec.v
theories/Spec/SettleSpec.v
theories/Spec/ShapeSpec.v
theories/Spec/SkipSpec.v
theories/Spec/Spec.v
theories/Spec/StartSpec.v
theories/Spec/StatefulSpec.v
theories/Spec/StdSpec.v
theories/Spec/TextSpec.v
theories/Spec/TomlArrays.v
theories/Spec/TomlDates.v
theories/Spec/TomlForm.v
theories/Spec/TomlGrammar.v
theories/Spec/TomlLook.v
theories/Spec/TomlOrder.v
theories/Spec/TomlSays.v
theories/Spec/TomlSpec.v
theories/Spec/TomlTextSpec.v
theories/Spec/TypedStartSpec.v
theories/Spec/VisitorSpec.v
theories/Tests/RepoTests.v

-Q theories Verif

theories/Int64.v
theories/HMap.v
theories/HMapSpec.v
theories/HMapBase.v
theories/HMapInv.v
theories/HMapRefine.v
theories/HMapCor.v
theories/PropertiesMap.v
theories/Utf8.v
theories/Data.v
theories/DataSpec.v
theories/DataProofs.v
theories/FloatInt.v
theories/CompareProofs.v
theories/PropertiesData.v
theories/Arr.v
theories/ArrSpec.v
theories/MapIter.v
theories/ArrProofs.v
theories/ArrKinds.v
theories/PropertiesArr.v
theories/Slices.v
theories/SlicesSpec.v
theories/SlicesProofs.v
theories/PropertiesSlices.v
theories/Types.v
theories/Assign.v
theories/TypesSpec.v
theories/InstProofs.v
theories/GuardProofs.v
theories/SemProofs.v
theories/EqProofs.v
theories/SubProofs.v
theories/AssignProofs.v
theories/NoHitProofs.v
theories/TypesCor.v
theories/PropertiesTypes.v
theories/Construct.v
theories/ConstructSpec.v
theories/ConstructProofs.v
theories/PropertiesConstruct.v
theories/Text.v
theories/TextSpec.v
theories/Utf8Proofs.v
theories/TextProofs.v
theories/PropertiesText.v
theories/Convert.v
theories/ConvertSpec.v
theories/ConvertProofs.v
theories/PropertiesConvert.v
theories/Loader.v
theories/LoaderSpec.v
theories/LoaderProofs.v
theories/Hierarchy.v
theories/HierarchySpec.v
theories/HierarchyProofs.v
theories/Registry.v
theories/RegistrySpec.v
theories/RegistryProofs.v
theories/RegistryNames.v
theories/PropertiesLoader.v
theories/Objects.v
theories/ObjectsSpec.v
theories/ObjectsProofs.v
theories/ObjectsCor.v
theories/PropertiesObjects.v
theories/Totality.v
theories/TypeEqSpec.v
theories/TypeEqProofs.v
theories/TypeHashProofs.v
theories/Validate.v
theories/ValidateSpec.v
theories/ValidateProofs.v
theories/Generic.v
theories/GenericSpec.v
theories/GenericProofs.v
theories/TypesCor2.v
theories/AgreeSpec.v
theories/AgreeProofs.v
theories/ReflProofs.v
theories/TransProofs.v
theories/TransStructProofs.v
theories/PropertiesTypes2.v
theories/Graph.v
theories/GraphSpec.v
theories/GraphProofs.v
theories/PropertiesGraph.v
theories/Func.v
theories/FuncSpec.v
theories/FuncProofs.v
theories/FuncNest.v
theories/FuncNestSpec.v
theories/FuncNestProofs.v
theories/PropertiesFunc.v
theories/Print.v
theories/PrintSpec.v
theories/PrintProofs.v
theories/PropertiesPrint.v
theories/Lexer.v
theories/LexerSpec.v
theories/LexerProofs.v
theories/SlashProofs.v
theories/PropertiesLexer.v
theories/Syntax.v
theories/ParserProofs.v
theories/SyntaxSpec.v
theories/TokenProofs.v
theories/WriteProofs.v
theories/ReadProofs.v
theories/SyntaxProofs.v
theories/CoreProofs.v
theories/RenewProofs.v
theories/PropertiesSyntax.v
theories/Stream.v
theories/StreamSpec.v
theories/StreamProofs.v
theories/StreamEnds.v
theories/RichProofs.v
theories/Json.v
theories/JsonSpec.v
theories/JsonProofs.v
theories/JsonWhole.v
theories/PropertiesStream.v
theories/PropertiesRich.v
theories/ReadBack.v
theories/IndentRead.v
theories/PropertiesReadBack.v
theories/Reflect.v
theories/ReflectSpec.v
theories/ReflectProofs.v
theories/PropertiesReflect.v
theories/Share.v
theories/ShareSpec.v
theories/ShareProofs.v
theories/PropertiesShare.v
theories/Struct.v
theories/StructSpec.v
theories/StructProofs.v
theories/PropertiesStruct.v
theories/Pcore.v
theories/PcoreSpec.v
theories/PcoreLex.v
theories/PcoreProofs.v
theories/PcoreTypes.v
theories/PropertiesPcore.v
theories/RecTypes.v
theories/RecTypesSpec.v
theories/RecTypesProofs.v
theories/RecTypesEnds.v
theories/RecMeaning.v
theories/RecTypesCases.v
theories/PropertiesRecTypes.v
theories/Resolve.v
theories/ResolveSpec.v
theories/ResolveProofs.v
theories/ResolveInstance.v
theories/ResolveCases.v
theories/PropertiesResolve.v
theories/RecAssign.v
theories/RecAssignSpec.v
theories/RecAssignProofs.v
theories/RecAssignSound.v
theories/RecAssignEnds.v
theories/RecAssignCases.v
theories/PropertiesRecAssign.v
theories/TypeReflect.v
theories/TypeReflectSpec.v
theories/TypeReflectProofs.v
theories/TypeReflectTypes.v
theories/TypeReflectStore.v
theories/PropertiesTypeReflect.v
theories/Named.v
theories/NamedSpec.v
theories/NamedProofs.v
theories/PropertiesNamed.v
theories/NamedStream.v
theories/NamedStreamSpec.v
theories/NamedStreamProofs.v
theories/NamedStreamJson.v
theories/PropertiesNamedStream.v
theories/GoFunc.v
theories/GoFuncSpec.v
theories/GoFuncProofs.v
theories/PropertiesGoFunc.v
theories/ErrorVal.v
theories/ErrorSpec.v
theories/ErrorProofs.v
theories/PropertiesErrorVal.v
theories/Native.v
theories/NativeSpec.v
theories/NativeProofs.v
theories/NativeHashProofs.v
theories/NativeTypeProofs.v
theories/PropertiesNative.v
theories/LoaderValue.v
theories/LoaderValueSpec.v
theories/LoaderValueProofs.v
theories/PropertiesLoaderValue.v
theories/Args.v
theories/ArgsSpec.v
theories/ArgsProofs.v
theories/PropertiesArgs.v
theories/Accessors.v
theories/AccessorsSpec.v
theories/AccessorsProofs.v
theories/PropertiesAccessors.v
theories/LexBlank.v
theories/FuncText.v
theories/FuncTextSpec.v
theories/FuncTextProofs.v
theories/PropertiesFuncText.v
theories/NewSpec.v
theories/NewProofs.v
theories/PropertiesNew.v
theories/JsonReadSpec.v
theories/JsonReadProofs.v
theories/PropertiesJsonRead.v
theories/LexGrammarSpec.v
theories/LexGrammarProofs.v
theories/PropertiesLexGrammar.v
theories/Declare.v
theories/DeclareSpec.v
theories/DeclareRead.v
theories/DeclareParse.v
theories/DeclareProofs.v
theories/DeclareDone.v
theories/DeclareOnce.v
theories/DeclareCases.v
theories/PropertiesDeclare.v
theories/DeclMeanSpec.v
theories/DeclMeanProofs.v
theories/DeclMeanBuilt.v
theories/DeclMeanDone.v
theories/DeclPlain.v
theories/DeclMeanCases.v
theories/PropertiesDeclMean.v
theories/Race.v
theories/RaceSpec.v
theories/RaceProofs.v
theories/RaceLocks.v
theories/PropertiesRace.v
theories/MapShareSpec.v
theories/MapShare.v
theories/PropertiesMapShare.v
theories/Seconds.v
theories/SecondsSpec.v
theories/SecondsProofs.v
theories/PropertiesSeconds.v
theories/PcoreName.v
theories/PcoreNameSpec.v
theories/PcoreNameProofs.v
theories/PropertiesPcoreName.v
theories/MapEach.v
theories/MapEachSpec.v
theories/MapEachProofs.v
theories/PropertiesMapEach.v
theories/ArrEach.v
theories/ArrEachSpec.v
theories/ArrEachProofs.v
theories/ArrEachRoom.v
theories/PropertiesArrEach.v
theories/TypeArgs.v
theories/TypeArgsSpec.v
theories/TypeArgsProofs.v
theories/PropertiesTypeArgs.v
theories/StructFrom.v
theories/StructFromSpec.v
theories/StructFromProofs.v
theories/PropertiesStructFrom.v
theories/AliasStream.v
theories/AliasStreamSpec.v
theories/AliasStreamProofs.v
theories/PropertiesAliasStream.v
theories/MutKeys.v
theories/MutKeysSpec.v
theories/MutKeysProofs.v
theories/PropertiesMutKeys.v
theories/EntryEq.v
theories/EntryEqSpec.v
theories/EntryEqProofs.v
theories/PropertiesEntryEq.v

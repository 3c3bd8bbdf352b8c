# Formal model of lyraproj/dgo in Rocq (Coq 8.16.1)

Planned before the proofs. The status per property is in MANIFEST.json; what was found is under Findings.

## Approach

The Go code is never run. Each Coq definition cites the Go file and lines it models.
Files under `rocq/theories`:

| file | content | models |
|---|---|---|
| `Int64.v` | 64 bit wrap-around arithmetic, xor, shift | Go integer arithmetic |
| `HMap.v` (`HMapSpec`, `HMapBase`, `HMapInv`, `HMapRefine`, `HMapCor`, `PropertiesMap`) | hash map on the level of pointers: nodes in a store, buckets, doubly linked order | internal/map.go hashMap |
| `MapIter.v` | iteration methods with callbacks | internal/map.go Each... |
| `Utf8.v`, `Utf8Proofs.v` | UTF-8 decoding | unicode/utf8, `range` over strings |
| `Data.v` (`DataSpec`, `DataProofs`, `FloatInt`, `CompareProofs`, `PropertiesData`) | finite data values, Equals, HashCode, CompareTo | the Equals, HashCode and CompareTo methods of internal/*.go, internal/compare.go |
| `Arr.v` (`ArrSpec`, `ArrProofs`, `PropertiesArr`) | array algorithms on lists | internal/array.go |
| `Slices.v` (`SlicesSpec`, `SlicesProofs`, `PropertiesSlices`) | arrays as slices of shared backing arrays | internal/array.go |
| `Objects.v` (`ObjectsSpec`, `ObjectsProofs`, `ObjectsCor`, `PropertiesObjects`) | heap of arrays, maps, entries, sensitives, binaries; freezing and copying | Freeze, Frozen, FrozenCopy, ThawedCopy and the mutators of array.go, map.go, sensitive.go, binary.go |
| `Types.v`, `Assign.v` (`TypesSpec`, `InstProofs`, `GuardProofs`, `SemProofs`, `EqProofs`, `SubProofs`, `AssignProofs`, `NoHitProofs`, `TypesCor`, `PropertiesTypes`) | types that do not refer to themselves; Equals, Instance, Assignable with the recursion guard, Type of a value | the type definitions of internal/*.go |
| `TypeEqSpec.v`, `TypeEqProofs`, `TypeHashProofs`, `Totality`, `AgreeSpec`, `AgreeProofs`, `ReflProofs`, `TransProofs`, `TransStructProofs`, `TypesCor2`, `PropertiesTypes2` | further theorems about `Types.v` and `Assign.v` | as above |
| `Validate.v` (`ValidateSpec`, `ValidateProofs`) | Validate and ValidateVerbose | internal/mapstruct.go |
| `Generic.v` (`GenericSpec`, `GenericProofs`) | Generic of types | internal/type.go and the Generic methods |
| `Construct.v` (`ConstructSpec`, `ConstructProofs`, `PropertiesConstruct`) | constructors of types with their simplifications | IntegerType ... SensitiveType of internal/*.go |
| `Text.v` (`TextSpec`, `TextProofs`, `PropertiesText`) | string reader, indenter | util/reader.go, util/indenter.go |
| `Convert.v` (`ConvertSpec`, `ConvertProofs`, `PropertiesConvert`) | ToInt, ReflectTo of integers, base64 of binaries, New | internal/integer.go, binary.go, value.go, New of all types |
| `Loader.v`, `Hierarchy.v` (`LoaderSpec`, `LoaderProofs`, `HierarchySpec`, `HierarchyProofs`, `PropertiesLoader`) | mutable loader with any number of goroutines; child loaders, namespaces | loader/loader.go |
| `Graph.v` (`GraphSpec`, `GraphProofs`, `PropertiesGraph`) | Equals, HashCode and CompareTo on arrays, maps and sensitive values that may contain themselves | internal/compare.go, util/slice.go and the deep methods of array.go, map.go, sensitive.go |
| `Print.v` (`PrintSpec`, `PrintProofs`, `PropertiesPrint`) | String of values, on the graphs of `Graph.v` | AppendTo and String of internal/*.go, util/erpindenter.go, util/indenter.go |
| `Lexer.v` (`LexerSpec`, `LexerProofs`, `PropertiesLexer`) | the lexer of type expressions, quoting of strings and patterns | parser/lexer.go, internal/regexp.go |
| `Syntax.v` (`SyntaxSpec`, `TokenProofs`, `WriteProofs`, `ParserProofs`, `ReadProofs`, `SyntaxProofs`, `CoreProofs`, `RenewProofs`, `PropertiesSyntax`) | the text of types, the parser of type expressions | stringer/typestring.go, parser/parser.go |
| `Stream.v`, `Json.v` (`StreamSpec`, `StreamProofs`, `StreamEnds`, `RichProofs`, `JsonSpec`, `JsonProofs`, `JsonWhole`, `PropertiesStream`, `PropertiesRich`) | streamer, collectors, decoder, writing and reading JSON | streamer/streamer.go, basiccollector.go, datacollector.go, decoder.go, json.go |
| `Reflect.v` (`ReflectSpec`, `ReflectProofs`, `PropertiesReflect`) | conversion of Go values to dgo values and back | internal/value.go, ArrayFromReflected, FromReflectedMap, ReflectTo and ReflectType of internal/*.go |
| `Share.v` (`ShareSpec`, `ShareProofs`, `PropertiesShare`) | memory that Go code shares with dgo values | WrapSlice, GoSlice, Binary, GoBytes, ReflectTo, Freeze, FrozenCopy of internal/array.go, binary.go, string.go, time.go |
| `Struct.v` (`StructSpec`, `StructProofs`, `PropertiesStruct`) | Go structs as maps | internal/struct.go |
| `Pcore.v` (`PcoreSpec`, `PcoreLex`, `PcoreProofs`, `PcoreTypes`, `PropertiesPcore`) | lexer and parser of the Puppet type language | streamer/pcore/lexer.go, parser.go |
| `RecTypes.v` (`RecTypesSpec`, `RecTypesProofs`, `RecTypesEnds`, `RecTypesCases`, `PropertiesRecTypes`) | types that refer to themselves: graphs of types, Instance on graphs of values | internal/array.go, map.go, mapstruct.go, ternary.go, not.go, sensitive.go, compare.go |
| `Resolve.v` (`ResolveSpec`, `ResolveProofs`, `ResolveInstance`, `ResolveCases`, `PropertiesResolve`) | replacing references to named types in place, on a heap of types | internal/alias.go, the Resolve methods of array.go, map.go, mapstruct.go, meta.go, not.go, ternary.go |
| `Declare.v` (`DeclareSpec`, `DeclareRead`, `DeclareParse`, `DeclareProofs`, `DeclareDone`, `DeclareOnce`, `DeclareCases`, `PropertiesDeclare`) | the parser of type expressions with declared names. Left out: functions, patterns, ~, named types | parser/parser.go, internal/alias.go (aliasAdder, update), tf/type.go |
| (`RecMeaning`, `DeclMeanSpec`, `DeclMeanProofs`, `DeclMeanBuilt`, `DeclMeanDone`, `DeclPlain`, `DeclMeanCases`, `PropertiesDeclMean`) | no new model: C90 is about `Declare.v`, `Resolve.v` and `RecTypes.v` together | as these |
| `RecAssign.v` (`RecAssignSpec`, `RecAssignProofs`, `RecAssignSound`, `RecAssignEnds`, `RecAssignCases`, `PropertiesRecAssign`) | Assignable on types that refer to themselves | internal/compare.go, type.go, array.go, map.go, mapstruct.go, ternary.go, sensitive.go |
| `Race.v` (`RaceSpec`, `RaceProofs`, `RaceLocks`, `PropertiesRace`) | the accesses to shared memory and the lock operations of loaders, default aliases and strings used as keys. A map is one location; what is found in maps is not modelled, so lookups may succeed or fail. Left out: the comparison of the values of entries, named types (a sync.Map) | loader/loader.go, internal/alias.go, string.go, map.go |
| `MapEach.v` | iteration with callbacks that change the map | internal/map.go Each, EachEntry, EachKey, EachValue (439-461), with the Put and Remove of `HMap.v`; a callback is a function from the visited entries to its changes |
| `ArrEach.v` | iteration of arrays with callbacks that change arrays | internal/array.go Each, EachWithIndex (999-1011), and the loops of All, Any, Find, Map, One, Reduce, Reject and Select as far as they do not return early, with the operations and slices of `Slices.v`; a callback is a function from what it has been given to its operations |
| `TypeArgs.v` | types made of lists of arguments | internal/array.go ArrayType with arrayTypeOne to arrayTypeThree (46-102), map.go MapType with mapTypeOne to mapTypeFour (910-994), string.go StringType (338-361), binary.go BinaryType (37-57), sensitive.go SensitiveType (23-34); an argument is a type, an integer, a string or something else; the texts of the panics are left out |
| `StructFrom.v` | struct types made from a map that describes the entries | internal/mapstruct.go StructMapTypeFromMap (89-149), StructFromMapType (81-86), createExactMap (59-66), checkExactKeys (151-158); Instance of the type of legal maps is written out by hand; Parse is an oracle (if it returns, and what); inner maps have strings as keys |
| `AliasStream.v` | streaming of types with an alias map, and the alias map made by the decoder | streamer/streamer.go emitType (178-194) with the functions of `NamedStream.v`, decoder.go decode (43-86), internal/alias.go Add, Collect, update (150-200); values are trees and types are known by their texts, as in `NamedStream.v`; types contain no references |
| `MutKeys.v` | mutable arrays as keys of maps, changed between the operations | internal/map.go Put with frozenCopy (599-638, 900-905), Remove, Get, internal/array.go ToMap (1308-1339), on top of `HMap.v`. Not modelled: Go values inside keys that are not Freezable and change, mutable elements of frozen arrays (C20_with_refuted); maps as keys; PutAll, Merge and the iterations between the changes |
| `EntryEq.v` | equality, hash codes and frozen copies of entries, and entries as keys | internal/map.go mapEntry (93-132, 177-181), hashNode.FrozenCopy (142-149), Put (599-638); internal/mapstruct.go structEntry (467-478); internal/compare.go deepHashCode, equals (98-132). Not modelled: entries that contain themselves, entries inside of arrays and maps; values that are not entries are abstract |
| (`MapShareSpec`, `MapShare`, `PropertiesMapShare`) | no new model: C93 is about `HMap.v` | as `HMap.v` |
| `Seconds.v` (`SecondsSpec`, `SecondsProofs`, `PropertiesSeconds`) | time.go:100-108 (New of floats), 148-159 (SecondsWithFraction) | calendar: only the two comparisons of the year, as seconds; math.Modf and time.Unix as the Go documentation says |
| `PcoreName.v` (`PcoreNameSpec`, `PcoreNameProofs`, `PropertiesPcoreName`) | pcore/parser.go:812-819 (toDgoName) with the lexers of `Pcore.v` and `Lexer.v` | what aliasDeclaration adds to the alias map |
| `TypeReflect.v` (`TypeReflectSpec`, `TypeReflectProofs`, `TypeReflectTypes`, `TypeReflectStore`, `PropertiesTypeReflect`) | ReflectType of types, TypeFromReflected | internal/type.go, ternary.go, array.go, map.go, mapstruct.go, and the ReflectType methods of the other types |
| `Named.v` (`NamedSpec`, `NamedProofs`, `PropertiesNamed`) | named, parameterized and exact named types: Assignable, Instance, Equals, HashCode, Generic, New | internal/named.go, exact.go |
| `NamedStream.v` (`NamedStreamSpec`, `NamedStreamProofs`, `NamedStreamJson`, `PropertiesNamedStream`) | streaming, decoding and JSON of values with objects of named types, as trees with deduplicated strings | streamer/streamer.go, decoder.go, basiccollector.go, json.go |
| `GoFunc.v` (`GoFuncSpec`, `GoFuncProofs`, `PropertiesGoFunc`) | calls of Go functions, types of Go functions, Equals and HashCode of both | internal/function.go |
| `ErrorVal.v` (`ErrorSpec`, `ErrorProofs`, `PropertiesErrorVal`) | errors as values, their types, Equals, HashCode, Unwrap, ReflectTo | internal/error.go, typeerror.go, exact.go |
| `Native.v` (`NativeSpec`, `NativeProofs`, `NativeHashProofs`, `NativeTypeProofs`, `PropertiesNative`) | native values on a heap of Go values: Equals, HashCode; native types; ReflectTo of natives | internal/native.go, value.go (ValueFromReflected), array.go (ArrayFromReflected) |
| `LoaderValue.v` (`LoaderValueSpec`, `LoaderValueProofs`, `PropertiesLoaderValue`) | loaders as values: Equals, HashCode, init arguments, names | loader/loader.go |
| `Args.v` (`ArgsSpec`, `ArgsProofs`, `PropertiesArgs`) | Arguments | internal/arguments.go, type.go (illegalArgumentCount) |
| `Accessors.v` (`AccessorsSpec`, `AccessorsProofs`, `PropertiesAccessors`) | what types say about themselves: sizes, ranges, elements, exact values, labels | array.go, map.go, mapstruct.go, string.go, binary.go, integer.go, float.go, type.go, typeidentifier.go, typ/utils.go |
| `FuncText.v` (`FuncTextSpec`, `LexBlank`, `FuncTextProofs`, `PropertiesFuncText`) | the text of a function type, and how the parser reads a text that is a function type; arguments and results are no function types | stringer/typestring.go: function, writeTupleArgs; parser/parser.go: funcExpression |
| `NewSpec.v` (`NewProofs`, `PropertiesNew`) | what New makes, for `Convert.v` |
| `JsonReadSpec.v` (`JsonReadProofs`, `PropertiesJsonRead`) | JSON documents and what they say, for `Json.v` |
| `LexGrammarSpec.v` (`LexGrammarProofs`, `PropertiesLexGrammar`) | the grammar of tokens, for `Lexer.v` |
| `Func.v`, `FuncNest.v` (`FuncSpec`, `FuncProofs`, `FuncNestSpec`, `FuncNestProofs`, `PropertiesFunc`) | Assignable of function types, also of functions of functions | internal/function.go |
| `Registry.v` (`RegistrySpec`, `RegistryProofs`) | named types and default aliases with any number of goroutines | internal/named.go, internal/alias.go |

A model file has no proofs, a `*Spec.v` file does not mention how the code computes, `Properties*.v` files have the
property theorems, `Print Assumptions` below each, and examples.

## Plan per property

| id | model | proof |
|---|---|---|
| C01,C02,C05 | `HMap.v`: a store of nodes with `hashNext/next/prev`, a bucket vector, first/last/len/frozen; every loop of map.go over pointers | representation invariant (order list + per-bucket chains), preserved by every operation; refinement to an insertion ordered association list by induction over operation sequences |
| C03 | same store; copies allocate new nodes | frame property: nodes of the receiver are untouched |
| C04 | `ToMap`, `ToMapFromEntries` on the same store | proved for distinct keys; `_refuted` witnesses for duplicates and for entry reuse |
| C06,C07,C08 | `Data.v` | well-founded induction on value size; pigeonhole for maps; sorted permutation uniqueness for the hash |
| C09,C58 | `Types.v` equality and hash | induction on the depth; fragment proof and `_refuted` witnesses |
| C10 | graph of arrays with `seen` list | measure: nodes not yet seen; `_refuted` witness for symmetry |
| C11,C12 | `Data.v`, floats as `SpecFloat` | case analysis and induction; `_refuted` for mixed comparison |
| C13 | insertion sort is used as the model of any stable sort (sort.SliceStable is trusted to meet its contract) | uniqueness of stable sorted permutations |
| C14,C18,C19 | `Slices.v` | refinement + separation invariant; `_refuted` for With |
| C15,C16,C17,C52 | `Arr.v` | list induction |
| C20,C21,C22 | `Objects.v` | reachability invariants over histories |
| C23-C34,C59 | `Types.v`, `Assign.v`, `Generic.v`, `Validate.v` | induction on types/values, fuel adequate by size |
| C35 | `Text.v` | list induction, simulation |
| C36,C61,C62 | `Lexer.v` | list induction on the text; measure: bytes not yet read |
| C37,C63 | `Syntax.v`: stringer and parser | tokens of printed types, induction on types; measure: tokens not yet read |
| C64 | `Print.v` and `Syntax.v` together (`ReadBack`, `IndentRead`, `PropertiesReadBack`) | the text of a readable value is the text of its exact type, then C37; with indentation: the blanks between the tokens are skipped by the lexer |
| C65,C66 | `Reflect.v`: Go types and values as trees, the order of map entries is a parameter | induction on Go values and on dgo values; `_refuted` for the values that change |
| C67 | `Share.v`: cells of memory, values, and what Go code holds | ownership invariant over all sequences of calls; `_refuted` for Freeze of arrays and pointers to strings and times |
| C68 | `Struct.v`: fields with Go types and embedded structs, FieldByName, all methods of structVal | invariants on fields with different names, C65 and C66 for field values; `_refuted` for embedded structs and conversions |
| C69,C70 | `Pcore.v`: lexer and parser; texts that use aliases, named types, Callable or calls of types have an own outcome | measure: tokens not yet read; induction on expressions, simulation of the lists of the parser |
| C71 | `Pcore.v` with the constructors of `Construct.v` | meaning of type expressions stated on values; induction on expressions, C29-C32, C53-C56 for each constructor |
| C72 | `RecTypes.v`: Instance with its guard on graphs of types and values | a meaning is a fixed point; Hoare style rules for the state of the guard, measure: room of the guard; `_refuted` for unions of arrays |
| C73 | `Resolve.v`: Replace and the Resolve methods on a heap, with every intermediate heap | invariant: types being resolved, types done; measure: types not being resolved, then rank of values; the meaning of C72 is kept; `_refuted` for sensitive types, chains of names, values that contain themselves, panics and readers |
| C74 | `RecAssign.v`: Assignable and the DeepAssignable methods on graphs of types, with the guard | separate rules, their least and greatest relations; the outcome is compared with both; measure: rank through arrays, then room in the guard, then rank of alternatives; the rules are sound for the meaning of C72; `_refuted` for arrays, alternatives and cycles of different lengths |
| C75 | `TypeReflect.v`: the ReflectType methods, commonReflectTo and TypeFromReflected, on the Go types of C65 | which Go values belong to the type of their Go type, exactly, by induction on the Go value; every instance can be stored in the Go type and comes back, by induction on the type and C66; `_refuted` for []byte, nil slices, nil behind pointers, dgo.Value, uint64, float32, open structs, alternatives without types, array keys, times |
| C76 | `Named.v`: the methods of named, parameterized and exactNamed; functions, Go types and objects of applications are the record `nworld` | membership stated on Go types; induction on the source type; `_refuted` for interfaces, definitions without Go type, New without checker, New of exact types, types defined again |
| C77 | `NamedStream.v`: emitNamed and the rest of emitData, the decoder, on trees; constructors and ParseType are the record `makers` | induction on the value with the table of strings as invariant; JSON through the writer and reader of `Json.v`; `_refuted` for empty arguments, reserved keys and names, keys that are no strings |
| C78 | `GoFunc.v`: Call, In and Out of Go functions on the Go types of `Reflect.v`; the body of a function is a function on Go values | induction on the Go type, with C75 for the results; `_refuted` for unchecked arguments, pointers to pointers, keys, nil results, closures, mixed function types |
| C79 | `ErrorVal.v`: Go errors as identity, text and cause; the errors of typeerror.go with the types of `Types.v` and the texts of `Syntax.v`; the field that a *error leads to | case analysis, C58 and C09 for the types in errors; induction on the causes and on the program; `_refuted` witnesses for all errors of typeerror.go |
| C80 | `Native.v`: Go values in a heap with numbered cells; reflect.DeepEqual with the pairs it has met; the conversion of fields and structHash | the pairs met are a bisimulation (sound), bisimilar values are never told apart (complete), the pairs not met are the measure (ends); hash codes by induction on the fuel for two related values; ranks for heaps without cycles; `_refuted` for NaN, functions, cycles, slices of natives, cached hash codes of strings |
| C81 | `Native.v`: Go types as name, underlying type and methods | case analysis; `_refuted` for defined types, the default type, nil, pointers |
| C82 | `LoaderValue.v`: loaders as trees of maps, child loaders and namespaces; absolute names as the list of the names of the parent namespaces, loaded in the heaps of `Hierarchy.v`; the map of entries as an object for what New and init do with it | induction on loaders with maps as finite functions of their keys; absolute names are paths without leading empty names; `_refuted` for finders, lost parents, named roots, mutable entries |
| C83 | `Args.v`: Arguments as one more reference to the slice of an array of `Slices.v` | the relation of C19 is kept when the array is frozen; `_refuted` for mutable arrays and for Equals |
| C84 | `Accessors.v`: the accessors of the types of `Types.v` and `Assign.v` | by cases on the type from the meaning of instances (C27); `_refuted` for case independent strings, variadic tuples, the empty struct type, infinite floats, element, key and value types of several types, patterns, nil and sensitive values |
| C85 | `FuncText.v` on top of `Syntax.v`, `Lexer.v` and `Func.v` | the tokens of the text, with the blank between arguments and results; lists in parentheses by induction, from C37; `_refuted` for operands, parentheses, ranges and nil |
| C86 | `Convert.v` | an inductive relation per kind of type, independent of the order of the cases in the code, and the equivalence by cases; parsing and formatting of numbers and times by other packages is an oracle as in C34 |
| C87 | `Json.v`, `Stream.v` | documents as trees with their tokens and value; reading by induction on the tree, collecting with the invariant that finished objects lie above the open ones; brackets by induction on the fuel; `_refuted` for text after the document and for the words of the dialect |
| C88 | `Lexer.v` | a grammar on characters with conditions on what follows; each loop of the lexer is a function on characters, and these are equivalent to the grammar by induction; `_refuted` for control characters and digits before x |
| C89 | `Declare.v`, with `Resolve.v` | the parser with its map of new names, on the heap of `Resolve.v`; expressions are described by a small syntax with the type that each describes; induction on the expression shows that its tokens are read as that type with references, and the theorems of C73 that these are replaced; `_refuted` for names of names and for sensitive |
| C90 | `Declare.v`, `Resolve.v`, `RecTypes.v` | what belongs to an expression is defined by recursion on the expression (`DeclMeanSpec.v`); the heap after reading is restricted to the types that the expression describes, which has exactly one meaning on values without cycles (`RecMeaning.v`), and that is what the expression says; C72 gives Instance; a second induction, on the value, shows that declarations fix what names stand for; when no name refers to itself, the heap has no cycles and C72 gives Instance for all alternatives and for cyclic values (`DeclPlain.v`); `_refuted` for alternatives that are containers, inside and outside of what refers to itself |
| C91 | `Race.v` | a small language of lock operations and accesses; each method is a program in it, and calls compose; an invariant says for each goroutine which lock it holds and which strings have their hash code; two accesses to one location without a common lock contradict it; `_refuted` for the methods that do not lock |
| C92 | `Race.v` | the invariant says which lock each goroutine holds, at most one, and none where it asks for one; so whoever holds a lock can go on |
| C93 | `HMap.v` | by the refinement of C01 it is enough to look at dictionaries, where only the receiver of a mutator changes; the result of each other operation is a new map or one that was there; `_refuted` for With, Without and Merge that return a mutable map that was there |
| C94 | `Seconds.v` | SpecFloat division and conversion are related to rounding of reals by Flocq; order: rounding is monotone; accuracy: half a unit in the last place of 2^33 seconds, twice; whole seconds: nanoseconds that are s*10^9 rounded to 53 bits divide back to s while the error is less than half a unit; `_refuted` for whole seconds after 2116, milliseconds, zones, and times far away |
| C95 | `PcoreName.v` | an invariant of the loops of the lexer: what is read of a name is a name; the translation, one character after the other, has an inverse; `_refuted` for the character 6, names with ::, and names of dgo's own types |
| C96 | `MapEach.v` | an invariant of the nodes that are still to be visited: they are linked into the map up to its end, or left behind by a growing table; `_refuted` for entries removed after the current one, stale values, the influence of the capacity, and an iteration that does not end |
| C97 | `ArrEach.v` | the slice that is iterated over is a prefix of the buffer of the array, or of one that no mutable array uses; within the capacity the buffer is the list followed by cells that are nil up to the first length, and once the array has been moved the buffer never changes again, so that what any callback is given is known exactly; `_refuted` for removals, the influence of the capacity, and stale values |
| C98 | `TypeArgs.v` | cases of the arguments, with the theorems of the constructors (C30, C54); legal arguments are an inductive relation; `_refuted` for arrays of one nil |
| C99 | `StructFrom.v` | refinement to `struct_map_type` of C32 over an inductive relation of described entries; `_refuted` for a map that describes a single value with nil in it |
| C100 | `AliasStream.v` | induction on the value with the invariant of C77 and the list of added names; the alias map by induction on the added names; `_refuted` for types without a name and for names of two types |
| C101 | `MutKeys.v` | two hash codes and equalities that agree on the keys of a table make the same steps; so a program behaves as if arrays had their final content all the time and copies had been put; then the refinement of C01; `_refuted` for ToMap |
| C102 | `EntryEq.v` | Equals against an inductive relation by induction on the entry, and the laws by induction on the relation; the keys of a map filled by Put are frozen copies (induction on the puts), which no struct entry equals; `_refuted` for symmetry, copies of struct entries and struct entries as keys |
| C38-C40 | `Stream.v`, `Json.v` | simulation: reference indexes of the streamer and values of the collector; measure for cyclic values: objects not yet seen |
| C41,C60 | printer on graphs | induction on the depth of recursion for two graphs at once; measure as for C10 |
| C42-C46 | interleaving state machines, one step per lock region | invariants over all reachable states |
| C47,C49 | `Int64.v` | arithmetic |
| C48 | base64 over bytes | induction in blocks of three |
| C50 | list of code points | list induction |
| C51 | `Func.v`, `FuncNest.v`: function types over the types of `Types.v` and over function types | from C24, by induction on the nesting; functions are any set with any arguments and results; `_refuted` for arguments and variadic functions |

## Trusted base

* Coq's kernel (8.16.1). `Print Assumptions` is issued under each property theorem; the output is
  "Closed under the global context" for every one of them except four: C94_ordered_partial, C94_accurate_partial,
  C94_distinct_partial and C94_whole_seconds_partial are proved with the real numbers of the standard library (and with
  theorems of Flocq, which adds no axioms), and depend on ClassicalDedekindReals.sig_not_dec,
  ClassicalDedekindReals.sig_forall_dec, FunctionalExtensionality.functional_extensionality_dep and
  Classical_Prop.classic. Floats are those of `Coq.Floats.SpecFloat`, which are defined without axioms. Modules of the standard library that are loaded
  (Coq.ssr.ssrunder, through ssreflect) contain a module type whose fields are listed as axioms when the whole environment is
  listed; no theorem uses them.
* The reading of the Go source that the definitions cite. Nothing links the model to the code mechanically.
* The semantics of Go that the models have built in: integers wrap around, slices share backing arrays and `append` reuses
  spare capacity (the growth of a slice is a parameter), a read or write under a lock is one step, `sync.Map` operations
  are atomic, `sync.RWMutex` excludes as documented.
* Go library code that is modelled from its documentation: UTF-8 decoding, base64, strconv.Quote, strconv.ParseInt, sort.SliceStable. Of the last the
  insertion sort is modelled that it runs on up to 20 elements. The merging of larger arrays is not modelled: for them
  sort.SliceStable is trusted to give a stable sorted permutation, of which there is only one on sortable arrays
  (vsort_stable).
* strings.EqualFold, strings.ToLower, regular expression matching and whether the dgo parser accepts a string are parameters
  (the record `world` of `Types.v`), as are the conversions that New leaves to strconv and callbacks given by callers.
  The record `env` of `Syntax.v` has those of the parser and the stringer: unicode.IsPrint, the text of floats and times, ParseFloat,
  whether a pattern compiles, ToLower, which names are known. Theorems hold for all values of the parameters.
* In `Reflect.v` the rules of package reflect (which assignments and map keys panic, zero values, MapIndex of NaN) are modelled from its
  documentation; the order in which the entries of a Go map are visited and sorted is any permutation.
* In `Json.v` a JSON text is a list of tokens: that encoding/json writes and reads strings and numbers as RFC 8259 says is trusted,
  except that bytes that are not UTF-8 are replaced. Which floats are written without a fraction, the float nearest to an
  integer out of range, the text of times and the named types are parameters.
* In `Named.v` the functions given to NewNamedType, reflect.Type.AssignableTo, and the methods Type, Equals and HashCode of the objects of
  applications are parameters (the record `nworld`). What is assumed of them is in `NamedSpec.v` (`honest`, `equality`, `go_types`,
  `sound_checker`) and is a hypothesis of the theorems that need it. Types without named types are opaque there: they accept no object, except any.
* In `NamedStream.v` the constructors of named types and the parser of types are parameters (the record `makers`); a value is a tree, an object is its
  name and extracted argument: one object in two places, objects that contain themselves and alias maps are not modelled there (see the
  findings on shared sensitive values). Only the name of a parameterized type is sent, the parameters are not.
* In `GoFunc.v` the body of a Go function is any function from the values of its parameters to results or a panic; that its results have the Go types of
  its signature is a hypothesis (`typed`), which the Go compiler ensures. All native types are one type there.
* In `ErrorVal.v` a Go error is its identity, text and cause; methods Is and As of Go errors are not modelled (errors.Is is by identity). String() of the
  value of an exact type is a parameter. Errors are not elements of the arrays and maps of the other models.
* In `Native.v` reflect.DeepEqual and Type.AssignableTo are modelled after their documentation. The heap has cells for what pointers, slices and dgo strings
  lead to; a slice shows the whole of its array. The addresses of channels and functions are any integers.
* In `LoaderValue.v` there are no loaders that are in a namespace of themselves (HashCode of such a loader never ends), and no loaders among entries.

### Not modelled

Native values inside other values (`Native.v` has them alone; where the code makes one the model of C65 has the outcome `Native`, and a
nativeType is a type without instances in C75), the Go types of meta, function and native types, functions, function
types within other types, in the Puppet language aliases, named types, Callable and calls of types, the interfaces and wrappers of dgo/, typ/, vf/, tf/, and, of types that refer to themselves through aliases, everything but Instance, Assignable (without allOf, oneOf and not, sized arrays from tuples and sized maps from structs) and Resolve (without deferred calls, function types, and references in the keys of structs). The parts planned but not done yet are the rows of the plan without a file in the
table above.

## Findings

Claims that are false of the model. Each is a theorem, named in parentheses, with a concrete witness.

Maps and arrays
* `ToMap` on a list in which a key repeats makes a map with two entries for the key; after Remove the key is still there
  (C04_repeated_key_refuted, C34_duplicate_keys_refuted).
* `ToMapFromEntries` on entries of another map relinks the nodes of that map: iteration of both may not end
  (C04_entries_of_a_map_refuted).
* That holds for frozen maps too: entries of a frozen map are relinked, so that it afterwards iterates without
  end, or over an entry that was never put into it (`C05_entries_of_a_frozen_map_refuted`).
* `With(k, nil)` returns the map without the key (C03_with_nil_refuted).
* Sorting {nil, {}} gives {{}, nil}, which is not ordered; sorting that gives {nil, {}} again (C13_sort_refuted).
* `{1,2,3}.ContainsAll({3})` is false (C17_contains_all_refuted).
* A frozen array changes: `a.Slice(0,2).With(9)`, and two `With` on the same array, write into the shared spare capacity
  (C18_frozen_unchanged_refuted, C18_frozen_with_refuted, C19_no_interference_refuted).
* `Slice` beyond the length but within the capacity shows cells behind the array (C19_slice_bounds_refuted).

Freezing
* With, WithAll and map With on a frozen container make a frozen container with mutable contents; WithAll even thaws what
  was frozen. Freeze and FrozenCopy stop there (C20_with_refuted, C20_map_with_refuted, C20_with_all_refuted,
  C21_with_refuted), and as keys of maps such arrays are shared with thawed copies (C22_key_refuted).
* ThawedCopy of an entry assigns to the entry itself, also in a frozen map (C22_entry_refuted).
* An entry that is held by a frozen array changes with its map (C20_entry_refuted), and an entry can become its own value,
  on which Freeze does not end (C20_own_entry_refuted). FrozenCopy and ThawedCopy of an array that contains itself do not
  end (C21_cyclic_refuted).

Go values
* MaxUint64 is refused (C65_uint64_refuted). A pointer to a pointer is read but cannot be set (C65_pointers_refuted), a pointer to a nil
  slice comes back as a nil pointer (C65_nil_slice_refuted), a nil dgo.Value as Nil (C65_nil_value_refuted), an int in an interface{} as an
  int64 (C65_any_refuted). A *time.Time is not made a Time but a native value (C65_time_refuted), so that a time that ReflectTo puts into
  an interface{} is not a time when it comes back (C66_time_refuted).
* A Go map with a NaN key loses its value (C65_nan_refuted). A map[interface{}]T with int(1) and int64(1) becomes a map with two entries
  for the key 1 (C65_keys_refuted).
* nil in an int becomes 0 (C66_nil_refuted), an array in a []byte becomes a binary with its integers cut to bytes (C66_bytes_refuted). ReflectTo
  into an interface{} panics for maps with an array or a binary as a key (C66_array_key_refuted).
* An array frozen by Freeze changes when the slice is written that WrapSlice got or that GoSlice or ReflectTo gave away before
  (C67_freeze_refuted, C67_go_slice_refuted). Binaries are safe: Freeze copies their bytes.
* ReflectTo into a *string gives the address of the text in the immutable string; a write through it changes the string and leaves the
  cached hash code behind (C67_string_refuted). The same holds for *time.Time (C67_time_refuted). A frozen struct
  and a frozen copy of a struct share the slices of their fields with Go code (C67_struct_refuted).
* Get and ContainsKey of a struct find the fields of embedded structs, Keys, Each and Len do not count them (C68_promoted_refuted); a map
  can therefore equal a struct that does not equal the map (C68_equals_refuted).
* A struct passed by value says it is not frozen but Put panics (C68_put_refuted); FromReflectedStruct is documented to make a frozen map
  and makes a mutable one (C68_not_frozen_refuted); Put cuts off integers (C68_put_value_refuted); PutAll can stop halfway
  (C68_put_all_refuted).
* Freeze of a struct with an embedded struct panics and leaves it frozen (C68_freeze_refuted); GoStruct panics after Freeze but gives a pointer
  into a frozen copy (C68_go_struct_refuted); ThawedCopy makes a []int in an interface{} a []int64 (C68_thawed_copy_refuted).

Function types
* `func(any) int` is assignable from `func(string) int` and not the other way around: argument types are compared in the
  same direction as results (C51_arguments_refuted, C51_arguments_reversed_partial). For arguments of arguments this is right again
  (C51_nested_callbacks_partial).
* `func(...int)` and `func(...string)` are assignable to each other: the types of variadic elements are not compared when the tuples have no other
  elements beyond the common ones (C51_variadic_refuted).
* Call does not look at the types of arguments: a func(int8) called with 300 gets 44, with nil it gets 0 (C78_checked_refuted). In() accepts 1 for a
  func(**int) and a func(*interface{}), and {[1]: 2} for a func(map[interface{}]int), the calls panic (C78_pointers_refuted,
  C78_array_keys_refuted). No value is an instance of In() of a func(dgo.Value), no binary of In() of a func([]byte)
  (C78_too_strict_refuted). A func(map[float32]int) loses entries (C78_float32_keys_refuted). A nil slice is returned as nil, which is no
  instance of Out() (C78_nil_result_refuted).
* All closures of a func literal are equal (C78_equal_functions_refuted). The type of a Go function is equal to a parsed function type, but not the other
  way round (C78_type_equals_refuted).
* A Go error is equal to every error of dgo with the same text, which is not equal to it and has another hash code (C79_symmetric_refuted,
  C79_hash_refuted, C79_transitive_refuted). Such an error is an instance of an exact error type that its type is not assignable to
  (C79_instance_by_type_refuted).
* `errors.Is(vf.Value(err), err)` is false: Unwrap of the value passes over the error that it holds (C79_causes_refuted).
* vf.FromValue of an error into a *error gives away a pointer to the field of the value; an assignment through it changes the value
  (C79_kept_refuted).
* HashCode of a native that is a pointer to a struct that leads back to itself never ends (C80_hash_ends_refuted). It panics for a struct with
  a slice of structs, and for a struct with a slice that is not empty in a field that is not exported: the frozen array that is made of the slice asks natives for
  frozen copies (C80_no_panic_refuted).
* A native struct with a NaN or a function in it is not equal to itself (C80_reflexive_refuted). Two equal natives with dgo strings are not equal any more
  after HashCode of one of them, since the cached hash code of the string is compared (C80_equals_again_refuted).
* Assignable of native types is not containment: AssignableTo of Go is not transitive (C81_containment_refuted). typ.Native has no hash code
  and nil is one of its instances; Instance(nil) of other native types panics (C81_default_refuted).
* vf.FromValue of a native that is a pointer to a struct panics when the variable has the type of the pointer (C81_reflect_to_refuted).
* Equal loaders may load different values and have different names: Equals looks at the entries and namespaces that are there (C82_equal_load_refuted). Get
  with a finder changes the hash code of a loader, and makes it different from a loader that was made the same way. Namespace compares the
  namespace of another goroutine with its own (loader.go:267-270): it panics if the other one has already been used (C82_get_refuted).
* What Type.New makes of the init argument of a loader has no finder, no creator and no parent namespace (C82_init_refuted), and a map loader made this way
  changes with the map of its entries (C82_immutable_refuted).
* With a root that has a name Load does not find what AbsoluteName says (C82_absolute_name_refuted).
* Arguments are not Equal to themselves, and an array is not Equal to Arguments that are Equal to it (C83_equal_refuted). Arguments of a mutable array share its
  storage: Add on both overwrites an element (C83_independent_refuted).
* The accessors of some types are wrong about their instances. ElementType, KeyType and ValueType of tuples, exact arrays, exact maps and struct types with more
  than one member are the intersection of the members, mostly empty, and not their union (C84_element_type_refuted, C84_map_types_refuted; C84_element_type_below
  shows that it is the intersection). A variadic tuple with several types claims to be Unbounded (C84_variadic_unbounded_refuted), the struct type without entries
  has no maximum (C84_empty_struct_refuted), the size of case independent strings can differ from Min and Max (C84_ci_size_refuted), and infinity is an
  instance of float, whose Max is MaxFloat64 (C84_float_refuted).
* The exact value of a pattern type is a regexp, no instance of it; the exact types of nil and sensitive values do not lead back to them (C84_exact_refuted).
* TypeIdentifier.String panics for the type of named values; the indenter that protects from endless recursion calls it (C84_labels_refuted).
* Function types as text: func() int|string is how both a function with the result int|string and the choice of func() int and string are written
  (C85_func_operand_refuted); func() (int|string)&any is the text of two types (C85_func_parenthesis_refuted); a first argument that starts with dots makes the
  function variadic (C85_func_range_refuted); func() nil and func(nil) panic, since nil counts as exact but has no exact value (C85_func_nil_refuted).
* UnmarshalJSON ignores what follows the document: 1 2 and 1]} are read as 1 (C87_trailing_text_refuted). A document that happens to use the words of the dialect
  panics or becomes something else (C87_words_refuted).
* A character of the text with code 1 to 7 is taken for a token of the type with that number: the text that is only U+0001 is an integer without digits and
  parses as the type of 0 (C88_integers_have_digits_refuted). 012x34 is one integer token and parses as 0, like everything that strconv does not accept
  (C88_hex_digits_refuted).

Values that contain themselves
* With a = {a}, `a.Equals({5})` holds and `{5}.Equals(a)` does not: in `equals` a recursion on the left side is taken as
  equality whatever is on the right side (C10_symmetric_refuted).
* a = {a} and b = {{b}} are Equal both ways and their hash codes differ (C10_equal_values_equal_hash_refuted).
* With a = {a}, comparing a to {{5}} gives 0, comparing {{5}} to a is not possible (C10_compare_refuted).
* With a = {a}, util.ToString(a) and util.ToIndentedString(a) do not return, unlike a.String() (C60_plain_indenter_refuted).

Numbers and text
* Equality of integers and floats is not transitive above 2^53 (C12_transitive_refuted).
* ToInt of an uint64 from 2^63 on is negative (C47_uint64_refuted); ReflectTo truncates (C56_overflow_refuted).
* What a binary prints is standard base64, which the encoding `%u` does not decode (C48_url_refuted).
* The string reader rejects U+FFFD in valid text and counts columns from 2 after a line break
  (C35_replacement_character_refuted, C35_column_refuted).
* strconv.Quote writes characters that are not printable, like U+00A0, with escapes that the lexer rejects
  (C36_not_printable_refuted). Patterns with a backslash are read back as other patterns (C36_pattern_refuted).
* The control characters 1 to 7 are read as tokens with an empty text: the character 1 is the integer 0
  (C61_control_character_refuted). The literal 08 is read as 0, and literals out of range as the nearest integer
  (C62_bad_literal_refuted).
* Types that are printed in a form that the parser rejects: binaries with a size, exact binaries, times and regular
  expressions, arrays and maps of negated or case independent types, tuples with a float range without upper end,
  sensitive types of exact types (C37_binary_refuted, C37_time_and_regexp_refuted, C37_operator_in_element_refuted,
  C37_open_float_range_refuted, C37_sensitive_refuted).
* Types that are read back as other types: the empty tuple, tuples that start with a range without lower end, struct
  types with keys that are numbers or booleans, patterns with backslashes, the type of meta types (C37_empty_tuple_refuted,
  C37_range_in_tuple_refuted, C37_struct_key_refuted, C37_pattern_refuted, C37_meta_refuted). The texts {a?} and {{?} are
  accepted as the empty tuple (C37_wrong_syntax_accepted).
* The printed form of arrays with nil, binaries, times, regular expressions or sensitive values is rejected by the parser; the
  empty array is printed like the empty map; boolean keys become strings; String of a string is not quoted (C64_*_refuted).
* The indenter replaces bytes that are not UTF-8, and its String() empties it (C50_invalid_bytes_refuted,
  C50_string_twice_refuted).

Types
* Assignable holds although not every instance of one type is an instance of the other: recursion guard hit by types that
  do not refer to themselves (four C24_guard_*), string[1,5] from dgo and from case independent strings, the element type of
  a tuple, variadic tuples, oneOf, not, open structs, exact AllOf of values (the other C24_*_refuted).
* Equals of types is not symmetric and Equal types may have different instances: {sensitive[int]} and the type of
  {sensitive 1} (C53_equal_types_same_instances_refuted).
* Nor is it transitive: types of values with sensitive parts (C58_transitive_refuted, C58_symmetric_refuted). Equal types
  have different hash codes: int|string and string|int, the empty tuple and the type of {}, {sensitive[int]} and the type
  of {sensitive 1} (C09_*_refuted).
* Assignable is not transitive, and a oneOf type is not assignable from an equal copy of itself (C25_*_refuted); float is not
  assignable from 1.0..2.0|3.0..4.0, and map not from struct types. The types of the rest of two variadic tuples are never
  compared ({string,...int} accepts {string,...string}), and a closed struct type accepts an open one with the same keys.
* The type of an instance is not assignable: []int and {}, []float and {1.0,2.0}, sensitive[1..5] and sensitive 3; the type of
  {2,3,8} is assignable to [](int&1..5) (C26_*_refuted).
* Generic narrows open structs and tuples of negations, and is nil for the AllOf type without types (C28_*_refuted).
* Validate reports additional entries of open structs, accepts other sensitive values and panics on a nil key
  (C33_*_refuted).
* IntegerType(MinInt64,MaxInt64,false) accepts MaxInt64 (C29_full_range_refuted); the float range from -MaxFloat64 to
  MaxFloat64 accepts infinity (C55_full_range_refuted); a type of one integer is not assignable from a range with one element
  (C29_contained_assignable_refuted); SizedStringType(0,0) is not
  assignable from SizedStringType(-1,-3), which accepts the same strings (C30_negative_bound_refuted).
* Types that refer to themselves: the built-in type data accepts {sensitive 1} and {{binary}}, though neither belongs to it; a type
  node={value:int,next:nil|node} accepts {value:1,next:{}}: the recursion guard takes two unrelated repetitions for a
  recursion. Instance of x=int|x and of x=[]!x does not return (C72_*_refuted).
* TupleType([nil]) panics (C31_tuple_of_nil_refuted).
* New(sensitive[int], "a") gives a value that is not an instance of the type (C34_sensitive_refuted).

Loaders and aliases
* A nil entry of a loader made of entries hides what the child has (C44_nil_entry_refuted).
* Two named types with one implementation type: which of them NamedTypeFromReflected returns is not determined
  (C57_reflected_refuted).
* References in sensitive types are never replaced: with x=sensitive[y], y=int the sensitive of the string y belongs to x, that of 1 does
  not (C73_sensitive_refuted). Added without the parser, x=[]y, y=z, z=int leaves a reference in x (C73_chain_refuted).
* Resolve empties a type while it replaces what is in it, also if there is nothing to replace. Parsing []data does that with the built-in
  type data, which other goroutines use: to them 1 is no instance of data then (C73_readers_refuted). After a panic about an unknown
  name the type stays emptied: []y is an array of anything (C73_error_refuted).
* Resolve of an exact array type that contains itself does not return (C73_array_refuted).
* Assignable does not return on two types that refer to themselves through array elements, e.g. two definitions of
  tree={v: int, kids: []tree}: array.go:195 starts again without the guard (C74_arrays_refuted).
* Assignable accepts too much when it meets a type again: data is assignable from map[string]map[string]binary (C74_alternatives_refuted),
  and so are types with cycles of different lengths (C74_cycles_refuted).
* The type that TypeFromReflected makes of []byte is an array type, but a []byte becomes a binary, which is no instance
  (C75_bytes_refuted, C75_binary_back_refuted). The same holds for nil slices and maps (C75_nil_slice_refuted), for the elements of a []dgo.Value
  (C75_dgo_value_refuted), for uint64 from 2^63 on (C75_uint64_refuted) and for infinite float32 (C75_float32_refuted).
* The type of a pointer is oneOf[T, nil]. The type of **int and of *interface{} therefore rejects nil
  (C75_nil_behind_pointers_refuted).
* ReflectType of {a: int, ...} is map[string]int64; ReflectTo panics for its instance {a: 1, b: x} (C75_open_struct_refuted).
* allOf without types accepts everything, but its ReflectType is nil, and that of an array of it panics (C75_no_types_refuted). ReflectType
  of a map with arrays as keys panics as well (C75_array_keys_refuted).
* A named type accepts another by the Go type of the other, not by its interface: a with Go type A accepts i with Go type A and interface I, but
  an object of Go type B that implements I is an instance of i only (C76_assignable_interface_refuted); a accepts i, i accepts b, a does not
  accept b (C76_assignable_transitive_refuted).
* A named type without a Go type and without a checker: Assignable of itself and Instance of an object panic (C76_no_go_type_panics_refuted). One with a
  Go type that does not implement its interface does not accept itself (C76_assignable_reflexive_refuted).
* New of a named type without a checker returns whatever the constructor returns (C76_new_instance_refuted). New of the exact type of an object
  returns other objects (C76_new_exact_refuted), and panics if the type of the object is parameterized (C76_new_exact_parameterized_refuted).
* Named types are equal if they have the same name. A type that was removed and defined again is equal to the old one, with other instances
  (C76_equal_types_same_instances_refuted). Without a checker, parameters mean nothing (C76_parameters_ignored_refuted). allOf without operands is
  accepted by every named type (C76_assignable_empty_all_of_refuted).
* A name declared as another name, or as the negation of a negated name, is not followed to its end: in {x=[]y, y=z, z=w, w=int} x keeps an
  unresolved reference (C89_chain_refuted, C89_negated_name_refuted), as does x={int,sensitive[<x>]} (C89_sensitive_refuted). The parser reports
  no error; the reference behaves as the exact string type of the name.
* The type read from node={v:int, n:string|node} accepts {v:1, n:{}} (C90_alternatives_refuted, by the guard of C72). So does string|(l={v:int, next?:l}) accept {v:1, next:{}} (C90_alternatives_outside_refuted): the guard also fails when the alternative is outside of what refers to itself.
* The range -9223372036854775808...9223372036854775807 is read as the type int, which accepts its end (C90_all_but_the_last_refuted).
* With, documented to create a copy, returns the mutable map itself if it has the association already, Without does so if the key is absent, and Merge of
  an empty map returns the mutable argument. What is put into the result is then put into the original (C93_with_refuted, C93_without_refuted,
  C93_merge_refuted).
* Times as numbers. The division of nanoseconds that were already rounded gives some whole seconds after 2116 a fraction, 4656493119 is the
  number of a later time (C94_whole_seconds_refuted). New cuts nanoseconds off, so that 637897810.890 comes back as 637897810.889999985
  (C94_milliseconds_refuted). SecondsWithFraction chooses the precision by the year in the zone of the time, so that equal times may have different
  numbers (C94_zone_refuted). Times more than 292277 years from now get numbers of the past (C94_far_refuted). The comment in the code says that dates
  before 1678 or after 2262 can be represented, and means that they can not.
* Changing a map while it is iterated. A callback that removes its entry and then the next one is still given the next one
  (C96_removed_is_visited_refuted), but not if it removes them in the other order. A put that makes the table grow leaves the iteration in the old
  entries, so that it delivers values that have been replaced (C96_stale_value_refuted). If a new entry is visited depends on the capacity that
  the map was made with (C96_capacity_refuted). A callback that replaces its entry by a new one never comes to an end (C96_endless_refuted,
  for every number of visits). If a new entry is put after or before the removal of the last one decides if it is visited (C96_last_removed_refuted).
* Changing an array while it is iterated. A callback of an array that removes the elements it is given leaves every other one, which it is never given, and is called with the Go
  nil instead (C97_removing_refuted): removePos shifts the cells of the slice that is iterated over. An insertion makes an element be visited twice
  if the array has room and not if it has none (C97_capacity_refuted). A replaced element is visited with its old value if the array has grown in
  between (C97_stale_refuted). Callbacks that only append are safe for every capacity.
* Types of arguments. tf.Array(nil type, 1, 1) panics with a failed type assertion, while every other legal list of arguments makes a type
  (C98_array_of_nil_refuted).
* Types and alias maps. A type that has no name in the alias map given to the streamer is lost: it is decoded as {__type: nil}
  (C100_unnamed_refuted). If two types answer to one name the decoder leaves the first without a name (C100_names_restored_refuted).
- ToMap stores the elements of the array as keys as they are, while Put and PutAll store frozen copies. If such a key is a mutable array and the array is changed, its entry is found neither by
  the old nor by the new content (C101_tomap_refuted).
- An entry equals a struct entry with the same key and value, which does not equal it (C102_symmetric_refuted). A struct entry inherits FrozenCopy of the entry that it embeds, so that its frozen
  copy is not a struct entry and the struct entry does not equal it (C102_frozen_copy_refuted). Put stores frozen copies of keys, so a struct entry that is a key is never found again, and if it is
  put twice there are two entries (C102_struct_keys_lost, C102_keys_refuted). An entry that was made with a mutable array as key says that it is frozen, and its frozen copy shares the
  key (C102_constant_refuted).
- Not modelled: a decoder gives the alias adder nil to the parser of types, and `p.sc.GetType` (parser/parser.go:724, 735) panics on nil if the text of a type contains a name, although the
  documentation of ParseFile calls the alias map optional. So the hypothesis of C77 and C100 that the text of a type is parsed as that type fails for types printed with names, such as `[]data`.
* Struct types from maps. `StructMapTypeFromMap(false, {a:"nil"})` is legal by its own check, and then panics with a failed type assertion, since all entries are exact
  and the nil type has no ExactValue (C99_accepts_refuted). C99_broken shows that these are the only legal maps that panic.
* Names of Puppet types. The type My::Type is named my.type in dgo, which the parser of dgo can not read (C95_qualified_refuted). A declared type Int is
  named int, so that its text is that of another type (C95_builtin_refuted). A character 6 in the text is a name without characters and makes toDgoName
  panic with an index out of range instead of a syntax error (C95_control_character_refuted).
* Data races. HashCode, Equals and String of a mutable loader read its maps without its lock (C91_hash_code_refuted, C91_equals_refuted,
  C91_string_refuted). Namespace does so when two goroutines create the same namespace: the one that comes second compares both while others may
  already use the first (C91_namespace_refuted). AddDefaultAliases reads the variable before it takes the lock, although its comment says that it is
  safe (C91_add_aliases_refuted); DefaultAliases, used by the parser, never takes it (C91_default_aliases_refuted). A dgo.String computes its hash code
  when it is first used as a key and writes it without a lock, so that two goroutines that only look up the same new string, in a frozen map,
  race (C91_new_string_refuted).
* A type that lost its alias to another keeps answering to it, and references are resolved against the aliases at
  the begin of the call (C46_stale_name_refuted, C46_stale_reference_refuted).

Streaming and JSON
* A sensitive value streamed to a collector becomes a map (C38_sensitive_refuted).
* An array that has one sensitive value twice is decoded as the sensitive value and the map that encodes it: ReplaceLast changes
  the stack but not the values that references are looked up in. Also through JSON (C38_shared_sensitive_refuted,
  C40_shared_sensitive_refuted). Binaries, times and maps with keys that are no strings are affected as well.
* {"__ref": 1} is sent as a reference, {"__ref": "a"} makes UnmarshalJSON panic, and a map with the keys __type and __value
  is decoded (C38_reference_map_refuted, C40_reserved_keys_refuted).
* Decoding {1: a} with a = {a} does not end: replaceInstance follows cycles (C38_cyclic_value_refuted).
* A type streamed to JSON with an alias map that has no name for it makes the text {"__type"} (C39_type_refuted).
* 1.0 is read back as the integer 1, strings that are not UTF-8 change (C40_float_refuted, C40_string_refuted), MarshalJSON
  panics on NaN (C40_nan_panics).
* With the pcore dialect references are written with the key __ref and not recognised when read (C40_pcore_refuted).
* An object whose extractor returns an empty map is decoded as its type (C77_empty_argument_refuted). If the map has the key __value, New gets only the
  value of that key; if it has the key __type, New of another type is called (C77_value_key_refuted, C77_type_key_refuted). Named types called
  sensitive, map, binary and so on are decoded as those (C77_reserved_name_refuted). Keys of that map go to the consumer as they are: an integer
  key makes a text that is no JSON (C77_json_keys_refuted).

Puppet language
* {a=>1,a=>2} is read as a map with two entries for one key; integers out of range and 08 are read as other numbers; the text after a
  zero byte is ignored; a carriage return is no white space; the control characters 1 to 7 are read as empty tokens of these
  types; [a => b => c] makes an entry whose key is an entry (C70_*_refuted).
* The sizes of tuple types are dropped; Tuple[Undef], Array[Undef,1,1] and Struct[{a=>Undef}] panic, as do String[default,3], Tuple[]
  and NotUndef['x']; Number[2.5] accepts 2; the bounds of Float[1e999] are swapped, so that it accepts only the largest float; the
  string 'default' is taken for the word; Enum[true] accepts nothing (C71_*_refuted).

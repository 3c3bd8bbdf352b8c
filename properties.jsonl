{"id": "C01", "title": "Mutable map behaves like an insertion ordered dictionary", "statement": "Starting from an empty mutable map, after any sequence of Put, PutAll, Remove and RemoveAll calls, Get returns exactly the value of the last Put of an equal key that has not been removed since (and nil when there is none), Put and Remove return the previously associated value, Len is the number of associated keys, and the iteration order is the order in which the surviving keys were first put. Growth of the internal table is never observable.", "quantifier": "all finite sequences of map operations, all keys and values, all lawful Equals/HashCode implementations of the key values, all initial capacities", "why_tests_cant": "collision chains, resizing and unlinking interact; the state space of operation sequences is infinite and any one test exercises one collision pattern", "anchors": ["internal/map.go: hashMap.Put, hashMap.Get, hashMap.PutAll, hashMap.Remove, hashMap.RemoveAll, hashMap.resize, hashMap.Len, hashMap.EachEntry, MapWithCapacity, tableSizeFor, hash"]}
{"id": "C02", "title": "Map iteration is consistent with lookup", "statement": "In every map reachable through the map operations, no two iterated entries have equal keys, every iterated entry is found by Get under its key, every key found by Get is iterated, Len equals the number of iterated entries, and backwards/forwards links of the iteration order agree.", "quantifier": "all reachable map states", "why_tests_cant": "the structure is a hash table threaded with a doubly linked list; consistency must hold in all reachable states, including the ones after resize and unlinking in the middle of a chain", "anchors": ["internal/map.go: hashMap, hashNode, hashMap.Each, hashMap.EachKey, hashMap.Keys, hashMap.Values, hashMap.ContainsKey"]}
{"id": "C03", "title": "With, Without, WithoutAll, Merge, Copy and Map.Map are pure", "statement": "m.With(k,v) is a map equal to m except that k is associated with v; m.Without(k), m.WithoutAll(ks), m.Merge(o), m.Copy(f) and m.Map(f) likewise yield the dictionary their name says; none of them changes what can be observed of m or of the argument.", "quantifier": "all maps, keys, values and arguments", "why_tests_cant": "purity is a statement about all later observations of the receiver, and the copying relies on re-creating every node of an unbounded structure", "anchors": ["internal/map.go: hashMap.With, hashMap.Without, hashMap.WithoutAll, hashMap.Merge, hashMap.Copy, hashMap.Map, hashMap.resize"]}
{"id": "C04", "title": "A map built from a flat list or from entries is a dictionary", "statement": "vf.Map(k1,v1,k2,v2,...), Array.ToMap and Array.ToMapFromEntries produce a map in which every key occurs once, associated with the last value given for it, and leave the source (including the map that entries were taken from) unchanged.", "quantifier": "all lists of keys and values, with or without repetitions", "why_tests_cant": "the constructors bypass Put; tests only use distinct keys and never look at the source again", "anchors": ["internal/array.go: array.ToMap, array.ToMapFromEntries", "internal/map.go: mapFromArgs"]}
{"id": "C05", "title": "A frozen map rejects every mutation", "statement": "Put, PutAll (with a non-empty argument), Remove and RemoveAll on a frozen map panic and leave every observation of the map as it was.", "quantifier": "all frozen maps and all mutation attempts, in any sequence", "why_tests_cant": "must hold in every state, including partially executed operations", "anchors": ["internal/map.go: hashMap.Put, hashMap.PutAll, hashMap.Remove, hashMap.RemoveAll, hashMap.Freeze"]}
{"id": "C06", "title": "Equals is an equivalence relation on data values", "statement": "For data values without NaN (nil, booleans, integers, floats, strings, binaries, times, sensitives, arrays and maps nested to any depth) Equals is reflexive, symmetric and transitive.", "quantifier": "all triples of finite data values", "why_tests_cant": "infinitely many nested values; map equality is defined asymmetrically (iterate one, look up in the other)", "anchors": ["internal/compare.go: equals, sliceEquals", "internal/map.go: mapEqual", "internal/array.go: array.deepEqual", "internal/sensitive.go: sensitive.deepEqual", "internal/float.go: floatVal.Equals", "internal/integer.go: intVal.Equals"]}
{"id": "C07", "title": "Equal data values have equal hash codes", "statement": "If a.Equals(b) then a.HashCode() == b.HashCode(), for all data values, including maps whose entries were inserted in different orders.", "quantifier": "all pairs of finite data values", "why_tests_cant": "the hash of a map depends on a sort of the hashes of its entries, 64 bit wrap around and nested hashes; it must hold for all permutations", "anchors": ["internal/compare.go: deepHashCode", "internal/map.go: hashMap.deepHashCode, mapEntry.deepHashCode", "internal/array.go: array.deepHashCode", "util/string.go: StringHash"]}
{"id": "C08", "title": "Map equality ignores insertion order and nothing else", "statement": "Two maps are Equal exactly when they associate equal values with equal keys; any permutation of the entries of a map yields an equal map, and a key associated with nil is never equal to an absent key.", "quantifier": "all pairs of maps", "why_tests_cant": "quantifies over all permutations and all contents", "anchors": ["internal/map.go: mapEqual, hashMap.Get", "internal/nil.go: nilValue.Equals", "internal/compare.go: equals"]}
{"id": "C09", "title": "Equal types have equal hash codes", "statement": "If two dgo types are Equal then their HashCodes are equal, so that types can be used as map keys and in Unique.", "quantifier": "all pairs of types", "why_tests_cant": "type expressions nest without bound and ternary types compare as sets", "anchors": ["internal/ternary.go: deepHashCode, deepEqual", "internal/array.go: tupleHashCode, sizedArrayType.deepHashCode", "internal/map.go: sizedMapType.deepHashCode", "internal/exact.go: exactType.HashCode"]}
{"id": "C10", "title": "Equals terminates and is symmetric on cyclic values", "statement": "a.Equals(b) terminates for all finite object graphs, cyclic ones included, and a.Equals(b) == b.Equals(a).", "quantifier": "all finite graphs of arrays", "why_tests_cant": "cyclic graphs cannot be enumerated and non-termination cannot be observed by a test", "anchors": ["internal/compare.go: equals, sliceEquals", "util/slice.go: RecursionHit"]}
{"id": "C11", "title": "CompareTo is a total order on each kind of comparable value", "statement": "On booleans, on integers, on floats without NaN, on strings, on binaries, and on arrays of those (lexicographically), CompareTo is reflexive (0 on equal values), antisymmetric and transitive, returns 0 exactly for Equal values, and nil compares less than everything else.", "quantifier": "all triples of values of one kind", "why_tests_cant": "infinitely many values; lexicographic comparison of arrays nests", "anchors": ["internal/array.go: array.deepCompare", "internal/compare.go: compare", "internal/integer.go: intVal.CompareTo", "internal/float.go: floatVal.CompareTo", "internal/string.go: hstring.CompareTo", "internal/boolean.go: boolean.CompareTo", "internal/binary.go: binary.CompareTo", "internal/nil.go: nilValue.CompareTo"]}
{"id": "C12", "title": "Comparison of integers with floats is consistent", "statement": "CompareTo between integers and floats is antisymmetric and, together with the comparison of integers and the comparison of floats, transitive.", "quantifier": "all integers in the 64 bit range and all floats", "why_tests_cant": "rounding of 64 bit integers to 53 bit significands only matters at magnitudes no test uses", "anchors": ["internal/integer.go: intVal.CompareTo", "internal/float.go: floatVal.CompareTo"]}
{"id": "C13", "title": "Sort yields a stable ordered permutation", "statement": "a.Sort() contains exactly the elements of a, ordered so that no element is followed by one that CompareTo says is smaller, equal elements keep their relative order, and a itself is unchanged.", "quantifier": "all arrays of mutually comparable elements; all arrays", "why_tests_cant": "correctness of a comparison sort depends on the comparator being a strict weak ordering, a property of all triples of elements", "anchors": ["internal/array.go: array.Sort"]}
{"id": "C14", "title": "Mutable array behaves like a list", "statement": "For every sequence of Add, AddAll, AddValues, Set, Insert, Remove, RemoveValue, Pop on a mutable array the observable contents are those of the corresponding list operations; calls with an index out of range panic (or return nil for Remove) and change nothing.", "quantifier": "all finite sequences of array operations", "why_tests_cant": "in-place shifting and append with spare capacity; infinite operation sequences", "anchors": ["internal/array.go: array.Add, array.AddAll, array.AddValues, array.Set, array.Insert, array.Remove, array.RemoveValue, array.removePos, array.Pop, array.Get, array.Len"]}
{"id": "C15", "title": "Unique removes exactly the later duplicates", "statement": "a.Unique() has no two Equal elements, is a subsequence of a containing the first occurrence of every element, and every element of a is Equal to one of it.", "quantifier": "all arrays of elements with lawful Equals/HashCode", "why_tests_cant": "implementation uses its own hash table; must hold for all collision patterns", "anchors": ["internal/array.go: array.Unique"]}
{"id": "C16", "title": "Flatten removes all array nesting and nothing else", "statement": "a.Flatten() contains no array as element, and is the depth first sequence of the non-array leaves of a.", "quantifier": "all finitely nested arrays", "why_tests_cant": "unbounded nesting", "anchors": ["internal/array.go: array.Flatten, flattenElements"]}
{"id": "C17", "title": "ContainsAll and SameValues are multiset relations", "statement": "a.ContainsAll(b) is true exactly when every element of b occurs in a (counting multiplicity) and a.SameValues(b) exactly when a and b hold the same elements in some order.", "quantifier": "all pairs of arrays", "why_tests_cant": "quantifies over all arrays and permutations", "anchors": ["internal/array.go: array.ContainsAll, array.deepContainsAll, array.SameValues"]}
{"id": "C18", "title": "A frozen array never changes", "statement": "Once an array is frozen, no sequence of public operations on it or on arrays derived from it (Slice, With, WithValues, WithAll, Copy, ...) changes the elements observed through it.", "quantifier": "all operation histories on all arrays sharing storage", "why_tests_cant": "storage sharing between slices shows only for particular capacity histories", "anchors": ["internal/array.go: array.Slice, array.With, array.WithValues, array.WithAll, array.Copy, array.GoSlice", "util/slice.go: SliceCopy"]}
{"id": "C19", "title": "Two arrays never interfere", "statement": "An operation on one array object never changes what is observed through a different array object (value semantics of derived arrays: Slice, Copy, With, ...).", "quantifier": "all operation histories", "why_tests_cant": "depends on spare capacity of backing arrays left over by earlier operations", "anchors": ["internal/array.go: array.Slice, array.With, array.WithValues, array.Add, array.Insert"]}
{"id": "C20", "title": "Freeze is deep and final", "statement": "After v.Freeze() every array, map and sensitive reachable from v is frozen, and no later sequence of public mutators on any object changes the value observed from v.", "quantifier": "all object graphs without cycles through frozen flags, all later histories", "why_tests_cant": "requires all graphs and all later histories", "anchors": ["internal/array.go: array.Freeze", "internal/map.go: hashMap.Freeze, mapEntry.Freeze", "internal/sensitive.go: sensitive.Freeze"]}
{"id": "C21", "title": "FrozenCopy is an equal, deeply frozen value and leaves the original alone", "statement": "v.FrozenCopy() observes equal to v at the time of the call, is deeply frozen, later mutations of v are not observed through it, and a value that was already frozen is returned as is.", "quantifier": "all finite object graphs (trees and DAGs), all later histories", "why_tests_cant": "all graphs and histories", "anchors": ["internal/array.go: array.Copy, array.FrozenCopy", "internal/map.go: hashMap.Copy, mapEntry.copyFreeze", "internal/sensitive.go: sensitive.FrozenCopy"]}
{"id": "C22", "title": "ThawedCopy is an equal mutable copy sharing no mutable state with the original", "statement": "v.ThawedCopy() observes equal to v, is mutable at all levels, and mutations through the copy are never observed through the original, nor the other way around.", "quantifier": "all finite object graphs, all later histories", "why_tests_cant": "all graphs and histories", "anchors": ["internal/array.go: array.ThawedCopy", "internal/map.go: hashMap.ThawedCopy, mapEntry.copyThaw, mapEntry.ThawedCopy, hashNode.ThawedCopy"]}
{"id": "C23", "title": "Every value is an instance of its own type", "statement": "v.Type().Instance(v) is true for all data values (without NaN).", "quantifier": "all finite data values", "why_tests_cant": "unbounded nesting", "anchors": ["internal/exact.go: exactType.Instance, deepExactType.DeepInstance", "internal/sensitive.go: sensitive.Type", "internal/array.go: array.Type", "internal/map.go: hashMap.Type"]}
{"id": "C24", "title": "Assignability is sound", "statement": "If a.Assignable(b) then every instance of b is an instance of a.", "quantifier": "all pairs of types and all values", "why_tests_cant": "infinitely many types and values; the relation is defined by mutual recursion over both type expressions", "anchors": ["internal/compare.go: Assignable, Instance", "internal/type.go: CheckAssignableTo", "internal/ternary.go: allOfType.DeepAssignable, anyOfType.DeepAssignable, oneOfType.DeepAssignable", "internal/not.go: notType.Assignable", "internal/array.go: tupleAssignable, sizedArrayType.DeepAssignable", "internal/map.go: sizedMapType.DeepAssignable", "internal/mapstruct.go: structType.DeepAssignable", "internal/string.go: sizedStringType.Assignable", "internal/integer.go: integerType.Assignable"]}
{"id": "C25", "title": "Assignability is reflexive and transitive", "statement": "a.Assignable(a) always holds; a.Assignable(b) and b.Assignable(c) imply a.Assignable(c).", "quantifier": "all triples of types", "why_tests_cant": "infinitely many type triples", "anchors": ["internal/compare.go: Assignable", "internal/type.go: CheckAssignableTo"]}
{"id": "C26", "title": "The type of a value is assignable exactly where the value is an instance", "statement": "a.Assignable(v.Type()) is true exactly when a.Instance(v) is true.", "quantifier": "all types and values", "why_tests_cant": "infinitely many types and values; the two relations are implemented separately", "anchors": ["internal/exact.go: exactType.Assignable", "internal/array.go: exactArrayType.ElementType, tupleAssignable", "README.md: exact types"]}
{"id": "C27", "title": "Ternary types mean boolean combinations", "statement": "v is an instance of AllOf(ts) iff of all ts, of AnyOf(ts) iff of at least one, of OneOf(ts) iff of exactly one, of Not(t) iff not of t; the constructors' simplifications (single operand, double negation) do not change that meaning.", "quantifier": "all lists of operand types and all values", "why_tests_cant": "quantifies over all operands and values", "anchors": ["internal/ternary.go: allOfType.DeepInstance, anyOfType.DeepInstance, oneOfType.DeepInstance, AllOfType, AnyOfType, OneOfType", "internal/not.go: NotType, notType.Instance"]}
{"id": "C28", "title": "Generic widens", "statement": "Every instance of t is an instance of Generic(t), and Generic(Generic(t)) is Generic(t).", "quantifier": "all types and values", "why_tests_cant": "unbounded nesting of types", "anchors": ["internal/type.go: Generic", "internal/ternary.go: commonGeneric", "internal/array.go: exactArrayType.Generic, tupleType.Generic", "internal/map.go: exactMapType.Generic"]}
{"id": "C29", "title": "Integer range types mean intervals", "statement": "A type made by IntegerType(min,max,inclusive) accepts exactly the 64 bit integers in the interval (swapped when min > max), a.Assignable(b) between integer types implies that b's interval is contained in a's, and conversely containment of a non-empty interval implies a.Assignable(b).", "quantifier": "all 64 bit min, max, values and inclusive flags", "why_tests_cant": "2^64 values for each of four parameters, with boundary behaviour at MinInt64/MaxInt64", "anchors": ["internal/integer.go: IntegerType, integerType.Assignable, integerType.IsInstance, defaultIntegerType.Assignable"]}
{"id": "C30", "title": "Sized string types mean length intervals", "statement": "A type made by SizedStringType(min,max) accepts exactly the strings whose byte length lies in the interval, and accepts another string type by Assignable only if all its instances are accepted.", "quantifier": "all bounds, strings and string types", "why_tests_cant": "unbounded strings and bounds", "anchors": ["internal/string.go: SizedStringType, sizedStringType.IsInstance, sizedStringType.Assignable"]}
{"id": "C31", "title": "Tuple types mean positional typing", "statement": "An array is an instance of a (variadic) tuple type exactly when its length fits and each element is an instance of the type at its position (the last type repeated for a variadic tuple).", "quantifier": "all tuple types and arrays", "why_tests_cant": "unbounded lengths and nesting", "anchors": ["internal/array.go: tupleInstance, newTupleType, tupleMin, tupleMax"]}
{"id": "C32", "title": "Struct map types mean keyed typing", "statement": "A map is an instance of a struct map type exactly when every required key is present, the value of every present declared key is an instance of the declared type, and keys that are not declared occur only when additional entries are allowed.", "quantifier": "all struct types and maps", "why_tests_cant": "unbounded numbers of entries in both", "anchors": ["internal/mapstruct.go: structType.DeepInstance, StructMapTypeUnresolved"]}
{"id": "C33", "title": "Validate agrees with Instance", "statement": "For a struct map type t, t.Validate(nil, m) returns no errors exactly when t.Instance(m), and ValidateVerbose returns the same verdict.", "quantifier": "all struct types and values", "why_tests_cant": "two implementations of the same question over an infinite domain", "anchors": ["internal/mapstruct.go: validate, validateVerbose, structType.DeepInstance"]}
{"id": "C34", "title": "New returns an instance of the requested type or panics", "statement": "Whenever New(t, arg) returns a value, that value is an instance of t.", "quantifier": "all types and arguments", "why_tests_cant": "all types and arguments", "anchors": ["internal/value.go: New", "internal/integer.go: newInt", "internal/float.go: newFloat", "internal/boolean.go: newBoolean", "internal/string.go: newString", "internal/sensitive.go: sensitiveType.New", "internal/array.go: newArray", "internal/map.go: newMap"]}
{"id": "C35", "title": "The string reader delivers the text exactly once and in order", "statement": "Repeated Next on a StringReader returns the code points of a valid UTF-8 string in order followed by zeros forever; Peek returns what Next will return and Peek2 what the Next after that will return; Pos, Line and Column count bytes, newlines and characters; Rewind starts over.", "quantifier": "all valid UTF-8 strings and all interleavings of calls", "why_tests_cant": "all strings and call sequences", "anchors": ["util/reader.go: StringReader"]}
{"id": "C36", "title": "A printed string literal is read back as the same string", "statement": "Writing a string of characters without control characters as a quoted literal and running the lexer on it returns a string token with the original contents and consumes exactly the literal.", "quantifier": "all strings over the stated alphabet", "why_tests_cant": "all strings; escapes interact", "anchors": ["parser/lexer.go: ConsumeString, consumeEscape", "stringer/typestring.go"]}
{"id": "C37", "title": "Type expressions survive printing and parsing", "statement": "Parsing the string produced for a type yields an Equal type.", "quantifier": "all types that have a textual syntax", "why_tests_cant": "infinitely many expressions; operator priorities and parentheses interact at every nesting level", "anchors": ["stringer/typestring.go: buildTypeString, writeTernary", "parser/parser.go: Parse, anyOf, oneOf, allOf, unary, typeExpression"]}
{"id": "C38", "title": "Streaming a value to a collector reconstructs it", "statement": "Streaming a value to a data collector yields a value Equal to the original, for every deduplication level, and shared substructures become shared again.", "quantifier": "all finite data values, all sharing patterns, all dedup levels", "why_tests_cant": "reference indexes computed by the streamer must agree with the positions counted by the collector for every value and sharing pattern", "anchors": ["streamer/streamer.go: context.emitData, context.process, context.emitArray, context.emitMap", "streamer/basiccollector.go: BasicCollector.Add, AddArray, AddMap, AddRef"]}
{"id": "C39", "title": "The JSON consumer writes well formed JSON", "statement": "For every value streamed to the JSON consumer the output is a well formed JSON text: commas and colons occur exactly where the grammar demands, for any nesting of arrays and objects.", "quantifier": "all event sequences a streamer can produce", "why_tests_cant": "the delimiter state machine has to be right for all nestings", "anchors": ["streamer/json.go: jsonEncoder.delimit, AddArray, AddMap, Add, AddRef"]}
{"id": "C40", "title": "Rich data survives a JSON round trip", "statement": "UnmarshalJSON(MarshalJSON(v)) is Equal to v for all values that MarshalJSON accepts.", "quantifier": "all data values", "why_tests_cant": "all values and sharing patterns; keys that collide with the reserved ones", "anchors": ["streamer/streamer.go", "streamer/json.go", "streamer/decoder.go: dataDecoder.AddMap, dataDecoder.decode"]}
{"id": "C41", "title": "A sensitive value is never printed", "statement": "The string representation of a value does not depend on the contents of any sensitive inside it.", "quantifier": "all values with sensitives at any depth and all pairs of secrets", "why_tests_cant": "non-interference is a property of pairs of executions", "anchors": ["internal/sensitive.go: sensitive.String", "internal/array.go: array.AppendTo", "internal/map.go: appendMapTo, mapEntry.AppendTo"]}
{"id": "C42", "title": "A loader returns one value per name for ever", "statement": "Under all interleavings of concurrent Get calls, once some call has returned a non-nil value for a name every later Get for that name returns an Equal value, no entry is ever overwritten, and a conflicting finder result panics.", "quantifier": "all schedules of any number of goroutines, all finder results", "why_tests_cant": "schedules cannot be enumerated by testing", "anchors": ["loader/loader.go: loader.Get, loader.add"]}
{"id": "C43", "title": "A loader creates one namespace per name", "statement": "Under all interleavings of concurrent Namespace calls with the same name all successful calls return the same namespace object.", "quantifier": "all schedules of any number of goroutines, all creator results", "why_tests_cant": "schedules cannot be enumerated by testing", "anchors": ["loader/loader.go: loader.Namespace"]}
{"id": "C44", "title": "A child loader consults its parent first", "statement": "Load of a path through a chain of child loaders returns the value of the outermost ancestor that has one, and a path through a missing namespace yields nil.", "quantifier": "all loader hierarchies and paths", "why_tests_cant": "unbounded hierarchies", "anchors": ["loader/loader.go: childLoader.Get, childLoader.Namespace, load"]}
{"id": "C45", "title": "A named type is registered at most once", "statement": "Under all interleavings of concurrent NewNamed calls with one name, exactly one succeeds, all others panic, and Named always returns the successful one.", "quantifier": "all schedules", "why_tests_cant": "schedules cannot be enumerated by testing", "anchors": ["internal/named.go: NewNamedType, NamedType, RemoveNamedType"]}
{"id": "C46", "title": "Concurrent alias additions are not lost", "statement": "When any number of goroutines add aliases to the default alias map concurrently, every added alias is present afterwards and previously added ones are kept.", "quantifier": "all schedules and all sets of aliases", "why_tests_cant": "schedules cannot be enumerated by testing", "anchors": ["internal/alias.go: AddDefaultAliases, AddAliases, aliasMap.Collect, aliasMap.update"]}
{"id": "C47", "title": "Integer conversion preserves the number or refuses", "statement": "Converting a go integer of any width to a dgo Integer preserves its mathematical value or panics.", "quantifier": "all go integers of all widths", "why_tests_cant": "2^64 inputs", "anchors": ["internal/integer.go: ToInt"]}
{"id": "C48", "title": "Binary text form round trips", "statement": "Decoding the text form of a binary with the same encoding flag yields the same bytes.", "quantifier": "all byte sequences", "why_tests_cant": "all byte sequences; padding cases", "anchors": ["internal/binary.go: binary.Encode, BinaryFromEncoded, BinaryFromString, binary.String"]}
{"id": "C49", "title": "Table sizing is a power of two that is big enough", "statement": "The table size computed for a requested capacity is a power of two, at least the capacity (below the maximum), less than twice of it, and every computed bucket index is within the table.", "quantifier": "all capacities and hash codes", "why_tests_cant": "bit smearing over 64 bit integers", "anchors": ["internal/map.go: tableSizeFor, hash"]}
{"id": "C50", "title": "The indenter drops trailing blanks only", "statement": "The string produced by an indenter is the appended text with the blanks before each line end and at the end of the text removed and nothing else changed.", "quantifier": "all texts without invalid UTF-8", "why_tests_cant": "all texts", "anchors": ["util/indenter.go: indenter.String, AppendIndented, NewLine"]}
{"id": "C51", "title": "Function types accept only substitutable functions", "statement": "If function type a is assignable from function type b, a function of type b can be called with every argument tuple acceptable to a and returns results acceptable to a.", "quantifier": "all function types, argument tuples", "why_tests_cant": "all pairs of function types", "anchors": ["internal/function.go: functionTypeAssignable, functionType.DeepAssignable"]}
{"id": "C52", "title": "Iteration methods agree with the list of elements", "statement": "All, Any, One, Each, Find, Map, Select, Reject, Reduce and IndexOf of an array (All*, Any*, Each*, Find of a map) return what the corresponding list function returns over the elements in order.", "quantifier": "all arrays, maps and callbacks", "why_tests_cant": "all callbacks", "anchors": ["internal/array.go: array.All, array.Any, array.One, array.Map, array.Select, array.Reject, array.Reduce, array.IndexOf", "internal/map.go: hashMap.All, hashMap.Any, hashMap.Find"]}
{"id": "C53", "title": "Equal types have the same instances", "statement": "If two types are Equal then exactly the same values are instances of them.", "quantifier": "all pairs of types and all values", "why_tests_cant": "type expressions nest without bound and ternary types compare as multisets", "anchors": ["internal/ternary.go: deepEqual, sameValues", "internal/array.go: tupleEquals", "internal/mapstruct.go: structType.deepEqual", "internal/exact.go: exactType.Equals"]}
{"id": "C54", "title": "Array and map types mean a size interval and element typing", "statement": "A type made by ArrayType(elem,min,max) accepts exactly the arrays whose length lies between the bounds (negative bounds meaning 0, bounds in any order) and whose elements are all instances of elem; MapType(key,value,min,max) likewise for the entries of maps. The simplifications of the constructors (default types, exact types) preserve this.", "quantifier": "all element types, bounds, arrays and maps", "why_tests_cant": "unbounded sizes, element types nest without bound", "anchors": ["internal/array.go: newArrayType, sizedArrayType.DeepInstance", "internal/map.go: newMapType, sizedMapType.DeepInstance"]}
{"id": "C55", "title": "Float range types mean intervals", "statement": "A type made by FloatType(min,max,inclusive) accepts exactly the floats in the interval (swapped when min > max) and no NaN.", "quantifier": "all float64 min, max, values and inclusive flags", "why_tests_cant": "2^64 values for each of three parameters, with signed zeros and infinities", "anchors": ["internal/float.go: FloatType, floatType.IsInstance"]}
{"id": "C56", "title": "Assigning an Integer to a Go variable preserves its value or refuses", "statement": "ReflectTo of an Integer into a variable (or pointer) of any Go integer type stores the mathematically same number, or panics when the variable cannot hold it.", "quantifier": "all 64-bit integers and all ten Go integer kinds", "why_tests_cant": "2^64 values times ten kinds; only the extremes of each kind are ever tried", "anchors": ["internal/integer.go: intVal.ReflectTo, intVal.intPointer"]}
{"id": "C57", "title": "A named type is found by its implementation type", "statement": "NamedTypeFromReflected returns the type that was registered with the given reflected implementation type, in whatever order the registry is visited, and nil only if no type was registered with it.", "quantifier": "all histories of registrations, all visiting orders", "why_tests_cant": "the order of sync.Map.Range is not under the control of a test", "anchors": ["internal/named.go: NamedTypeFromReflected", "loader/loader.go: MutableType, ChildType"]}
{"id": "C58", "title": "Equality of types is an equivalence", "statement": "Equals on types is reflexive, symmetric and transitive.", "quantifier": "all types that do not refer to themselves", "why_tests_cant": "types nest without bound and the alternatives of ternary types are compared in any order; examples cover single nestings", "anchors": ["internal/compare.go: equals", "internal/array.go: tupleEquals", "internal/ternary.go: sameValues, Equals of the ternary types"]}
{"id": "C59", "title": "Instance and Assignable return on types that do not refer to themselves", "statement": "A call of Instance or Assignable on types without aliases ends with a result; it neither recurses forever nor indexes out of range.", "quantifier": "all pairs of types that do not refer to themselves, all values", "why_tests_cant": "termination for all nestings of types is not observable in finitely many runs", "anchors": ["internal/compare.go: Assignable, Instance", "internal/ternary.go: lessRestrictive", "internal/array.go: tupleAssignable, tupleInstance"]}
{"id": "C60", "title": "String ends on values that contain themselves", "statement": "String() of an array or map returns for every finite object graph, cyclic ones included, and for a value that does not contain itself it shows no self reference, however its parts are shared.", "quantifier": "all finite graphs of arrays, maps and sensitive values, all indentations", "why_tests_cant": "cyclic graphs cannot be enumerated and non-termination cannot be observed by a test", "anchors": ["util/erpindenter.go: ToStringERP, AppendValue", "util/indenter.go: ToString, AppendValue", "internal/array.go: array.AppendTo", "internal/map.go: appendMapTo"]}
{"id": "C61", "title": "The lexer ends on every input", "statement": "nextToken returns a token or panics for every byte string; each token other than the end consumes at least one byte, so the sequence of tokens is finite; a token type that carries text is only produced for such text.", "quantifier": "all byte strings, valid UTF-8 or not", "why_tests_cant": "non-termination cannot be observed by a test, and all byte strings cannot be enumerated", "anchors": ["parser/lexer.go: nextToken, buildToken, ConsumeNumber, ConsumeString, ConsumeRegexp, consumeRawString, consumeIdentifier"]}
{"id": "C62", "title": "Integers are read back as printed", "statement": "The decimal text of an int64 is read by the lexer as one integer token, whatever follows that cannot continue a number, and tokenInt gives the integer back; a text that is no int64 is rejected.", "quantifier": "all int64 values and contexts", "why_tests_cant": "2^64 values, and contexts of any length", "anchors": ["parser/lexer.go: ConsumeNumber", "parser/parser.go: tokenInt", "stringer/typestring.go: writeIntRange, writeSizeBoundaries"]}
{"id": "C63", "title": "The parser ends on every input", "statement": "Parse returns a type or panics for every byte string; it never loops or recurses forever.", "quantifier": "all byte strings", "why_tests_cant": "infinitely many inputs, of any nesting depth", "anchors": ["parser/parser.go: Parse, list, params, arrayElement, anyOf, oneOf, allOf, unary, typeExpression"]}
{"id": "C64", "title": "Printed arrays and maps are read back", "statement": "The text that String gives for an array or a map is parsed to the exact type of that value, so that different values are printed differently.", "quantifier": "all finite arrays and maps, nested to any depth and with shared parts", "why_tests_cant": "values nest without bound and strings contain any characters; tests print single examples", "anchors": ["internal/array.go: array.String, array.AppendTo", "internal/map.go: hashMap.String, appendMapTo", "util/erpindenter.go: ToStringERP", "parser/parser.go: Parse, list"]}
{"id": "C65", "title": "Go values survive the conversion to dgo and back", "statement": "A Go value that is converted with Value and assigned to a variable of its own type with ReflectTo is the same Go value again.", "quantifier": "all Go types made of booleans, numbers, strings, times, slices, maps, pointers and interfaces, all values of them, all orders in which map keys are visited and sorted", "why_tests_cant": "types and values nest without bound, and the order of map keys differs from run to run", "anchors": ["internal/value.go: ValueFromReflected, ReflectTo", "internal/array.go: ArrayFromReflected, array.ReflectTo", "internal/map.go: FromReflectedMap, hashMap.ReflectTo", "internal/integer.go: ToInt, intVal.ReflectTo"]}
{"id": "C66", "title": "dgo values survive the conversion to Go and back", "statement": "A dgo value that is assigned to a Go variable with ReflectTo, also to an interface{} where the Go type is found from the value, and converted back with Value equals the original.", "quantifier": "all data values, all Go types of the variable", "why_tests_cant": "values nest without bound and the Go type is computed from all elements", "anchors": ["internal/value.go: ReflectTo, ValueFromReflected", "internal/ternary.go: commonReflectTo", "internal/array.go: array.ReflectTo, exactArrayType.ReflectType", "internal/map.go: hashMap.ReflectTo, exactMapType.ReflectType"]}
{"id": "C67", "title": "Go code cannot change a frozen value", "statement": "The content of a frozen or immutable value stays the same whatever Go code writes to slices and pointers that it passed to the library or received from it, and the cached hash code of a string remains that of its text.", "quantifier": "all sequences of calls and writes", "why_tests_cant": "aliasing shows only in particular sequences of calls and later writes", "anchors": ["internal/array.go: WrapSlice, GoSlice, Freeze, Copy, ReflectTo", "internal/binary.go: Binary, GoBytes, Freeze, Copy, ReflectTo", "internal/string.go: HashCode, ReflectTo", "internal/time.go: ReflectTo"]}
{"id": "C68", "title": "A Go struct behaves like the map of its fields", "statement": "For a Go struct used as a map, Get and ContainsKey agree with the entries and keys, Put changes one field and the value can be read again, a frozen struct rejects changes, copies have the same fields, PutAll of the entries into a new struct rebuilds it, With, Without and Merge agree with Get, Equals is symmetric with maps and agrees with the hash code.", "quantifier": "all structs, keys and values", "why_tests_cant": "struct types and field types are unbounded, embedded fields and types that cannot hold a value give corner cases", "anchors": ["internal/struct.go", "internal/map.go: FromReflectedStruct, mapEqual", "internal/value.go: ValueFromReflected, ReflectTo"]}
{"id": "C69", "title": "The parser of the Puppet type language ends", "statement": "The lexer and the parser of the Puppet type language return or report an error for every text, whatever its bytes.", "quantifier": "all byte strings", "why_tests_cant": "texts are unbounded, and an endless loop shows only on the text that causes it", "anchors": ["streamer/pcore/lexer.go: nextToken, consumeLineComment, consumeIdentifier, consumeTypeName", "streamer/pcore/parser.go: Parse, list, hash, element, name"]}
{"id": "C70", "title": "Puppet literals are read as what they denote", "statement": "A text that spells a literal of the Puppet language (numbers, strings, patterns, words, arrays with entries, hashes), with white space and comments anywhere between the tokens, is read as the value that the literal denotes.", "quantifier": "all literals, all layouts", "why_tests_cant": "literals nest without bound and can be laid out in infinitely many ways", "anchors": ["streamer/pcore/lexer.go", "streamer/pcore/parser.go: list, hash, element, identifier, convertMapEntries"]}
{"id": "C71", "title": "Puppet types mean what they say", "statement": "The dgo type that is read from a Puppet type expression accepts exactly the values that belong to the Puppet type.", "quantifier": "all type expressions, all layouts, all values", "why_tests_cant": "type expressions nest without bound, and each type function has cases for the number and the kinds of its arguments", "anchors": ["streamer/pcore/parser.go: arrayType, binaryType, enumType, floatType, hashType, integerType, numberType, notUndefType, optionalType, sensitiveType, tupleType, patternType, regexpType, stringType, structType, typeType, variantType"]}
{"id": "C72", "title": "Types that refer to themselves accept what belongs to them", "statement": "Instance of a type that refers to itself through an alias returns on every value, also on one that contains itself, and it returns true exactly if the value belongs to the type.", "quantifier": "all graphs of types, all graphs of values", "why_tests_cant": "types and values can refer to themselves in infinitely many ways, and the recursion guard is shared by all alternatives", "anchors": ["internal/compare.go: Instance, RecursionGuard", "internal/array.go: DeepInstance", "internal/map.go: DeepInstance", "internal/mapstruct.go: DeepInstance", "internal/ternary.go: DeepInstance", "internal/not.go: Instance", "internal/sensitive.go: Instance", "internal/alias.go"]}
{"id": "C73", "title": "References to named types are replaced", "statement": "Resolving the aliases that are added returns; afterwards no reference is left in the types, the types mean what they meant when each reference stood for the type of that name, Instance accepts what belongs to them, and types that are in use by others are not changed at any time.", "quantifier": "all heaps of types and values with references, all alias maps, all intermediate states", "why_tests_cant": "types refer to each other and to themselves in infinitely many ways, and are emptied while their references are replaced", "anchors": ["internal/alias.go: Collect, update, GetType, Replace", "internal/array.go: Resolve", "internal/map.go: Resolve", "internal/mapstruct.go: Resolve", "internal/ternary.go: Resolve", "internal/not.go: Resolve", "internal/meta.go: Resolve", "parser/parser.go: DoParse"]}
{"id": "C74", "title": "Assignable on types that refer to themselves", "statement": "Assignable of two types that may refer to themselves returns, accepts what the structure of the two types justifies, also in circles, and accepts nothing else: if a is assignable from b then all that belongs to b belongs to a.", "quantifier": "all graphs of types, all pairs of types in them", "why_tests_cant": "two types can refer to themselves in cycles of any lengths, and the recursion guard looks up the two types separately", "anchors": ["internal/compare.go: Assignable, RecursionGuard", "internal/type.go: CheckAssignableTo", "internal/array.go: DeepAssignable", "internal/map.go: DeepAssignable", "internal/mapstruct.go: DeepAssignable", "internal/ternary.go: DeepAssignable, AssignableTo", "internal/sensitive.go: DeepAssignable"]}
{"id": "C75", "title": "Go types of types and types of Go types agree with the conversion of values", "statement": "The dgo value of a Go value is an instance of TypeFromReflected of its Go type. Every instance of a type can be assigned, with ReflectTo, to a Go variable of the type's ReflectType, and comes back from it as it was. TypeFromReflected of the ReflectType of a type accepts all that the type accepts.", "quantifier": "all Go types of the model, nested to any depth, all Go values of them, all types and all instances of them", "why_tests_cant": "Go types and types nest without limit, and the common Go type of alternatives, tuples and structs depends on all of their parts", "anchors": ["internal/type.go: TypeFromReflected, primitivePTypes", "internal/ternary.go: commonReflectTo, ReflectType", "internal/array.go: tupleType.ElementType, ReflectType", "internal/map.go: ReflectType", "internal/mapstruct.go: ReflectType, KeyType, ValueType", "internal/value.go: FromReflected, ReflectTo", "internal/native.go: IsInstance"]}
{"id": "C76", "title": "Named types: Instance is membership, Assignable is sound, Equals is an equivalence, New returns instances", "statement": "A value is an instance of a named type exactly when its Go type can be assigned to the interface, or else to the Go type, of the definition, or when the checker of the definition accepts its type. If a named type accepts another type, every instance of the other is an instance of it; Assignable is reflexive and transitive. Equals is an equivalence, equal types have the same hash code. New of a named type returns an instance of it, and Generic of a type has the instances of the type.", "quantifier": "all definitions, with any functions and Go types, all parameterized and exact types, all alternatives of them nested to any depth, all values and objects", "why_tests_cant": "the functions, Go types and Equals methods are those of applications, alternatives nest without limit", "anchors": ["internal/named.go: defaultAsgChecker, Assignable, Instance, Equals, HashCode, Generic, New, newNamed", "internal/exact.go: exactType", "internal/ternary.go: AssignableTo", "internal/type.go: CheckAssignableTo"]}
{"id": "C77", "title": "Values with objects of named types are streamed and read back as the same values", "statement": "A value with objects of named types in it, at any depth, streamed as rich data to any consumer at any level of deduplication, is decoded as the same value if New of each named type inverts its extractor. MarshalJSON writes a well formed JSON text of it, and UnmarshalJSON gives the value back.", "quantifier": "all values nested to any depth, all dialects, consumers and levels of deduplication, all extractors and constructors", "why_tests_cant": "values nest without limit, references depend on all strings sent before, the constructors are those of applications", "anchors": ["streamer/streamer.go: emitData, emitNamed, emitMap, emitSensitive, emitBinary, emitTime, emitType, process", "streamer/decoder.go: AddMap, decode", "streamer/basiccollector.go", "streamer/json.go"]}
{"id": "C78", "title": "Calls of Go functions pass what In() accepts and return what Out() promises", "statement": "A Go function called with arguments that are an instance of In() of its type runs, with parameters that have the values of the arguments; another number of arguments is refused. The results are an instance of Out(). Equal functions return the same, and Equals of function types is symmetric.", "quantifier": "all Go functions with parameters and results of any Go types, variadic or not, all arguments nested to any depth", "why_tests_cant": "the types of parameters and the arguments nest without limit, the functions are those of applications", "anchors": ["internal/function.go: Call, In, Out, exactFunctionTuple, exactFunctionType.Equals, functionType.Equals, goFunc.Equals", "internal/type.go: TypeFromReflected", "internal/value.go: ReflectTo, ValueFromReflected"]}
{"id": "C79", "title": "Errors are values", "statement": "vf.Value of a Go error is equal to the errors with the same text; Equals of errors is an equivalence relation and equal errors have equal hash codes. The instances of the error type are the errors, every error is an instance of its type, Assignable among error types is containment of instances, and an error is an instance of a type exactly when its type is assignable to it. errors.Is answers for the value as for the Go error, the value gives back the Go error it was made of and does not change.", "quantifier": "all Go errors with any chain of causes, all errors that dgo makes for all types, all error types, all sequences of conversions", "why_tests_cant": "texts, chains of causes and the types in errors are not bounded", "anchors": ["internal/error.go: errw.Equals, HashCode, ReflectTo, Unwrap, Type, errType, exactErrorType", "internal/typeerror.go: typeError, mapKeyError, sizeError", "internal/exact.go: exactType", "internal/value.go: value"]}
{"id": "C80", "title": "Native values: Equals and HashCode", "statement": "Equals of native values ends and is an equivalence relation: it says yes exactly if the Go values are the same, cycles included. Equal natives have equal hash codes. HashCode ends with a result, and it changes neither hash codes nor what is equal.", "quantifier": "all Go values of structs, pointers, slices, arrays, interfaces, channels, functions and dgo strings in all heaps, cyclic or not, with exported and other fields", "why_tests_cant": "Go values nest without limit and form arbitrary graphs", "anchors": ["internal/native.go: native.Equals, HashCode, structHash, toReflected", "internal/value.go: ValueFromReflected", "internal/array.go: ArrayFromReflected", "internal/string.go: hstring.HashCode"]}
{"id": "C81", "title": "Native types", "statement": "Equals of native types is an equivalence relation, equal types have equal hash codes and the same instances. A native is an instance of exactly the types its type is assignable to; what is assignable to a type has instances of that type only. HashCode and Instance do not panic. A native value can be had back in a variable of its own Go type.", "quantifier": "all Go types with any names, underlying types and methods, all native types", "why_tests_cant": "there is no bound on the Go types of applications", "anchors": ["internal/native.go: nativeType.Assignable, Equals, HashCode, Instance, native.ReflectTo, native.Type"]}
{"id": "C82", "title": "Loaders as values", "statement": "Equals of loaders is an equivalence relation and equal loaders have equal hash codes. Equal loaders load equal values, and Get does not change which loaders are equal. The type of a loader makes of its init argument an equal loader that loads the same and has the same names. The absolute name of a loader leads to it from the root, and different namespaces have different absolute names. A map loader never changes.", "quantifier": "all map loaders, loaders and child loaders with any entries, namespaces, finders and creators, all paths, all histories of Put", "why_tests_cant": "namespaces nest without limit and paths are arbitrary", "anchors": ["loader/loader.go: Equals, HashCode, init, initMap, AbsoluteName, NewChild, New, load"]}
{"id": "C83", "title": "Arguments", "statement": "AssertSize returns exactly if the number of arguments is in the range, and its message names exactly the accepted numbers. Arg returns the argument if it exists and is an instance of the type, and panics otherwise. Arguments behave like an array of their own: what is done to the array they were made of does not change them. Arguments are equal to themselves and to the arrays with the same elements.", "quantifier": "all arguments, ranges and indices, all histories of operations on arrays and arguments", "why_tests_cant": "histories are unbounded", "anchors": ["internal/arguments.go: Arguments, ArgumentsFromArray, AssertSize, Arg", "internal/type.go: illegalArgumentCount", "internal/array.go: array.Equals, deepEqual"]}
{"id": "C84", "title": "What types say about themselves", "statement": "The accessors of types describe their instances: the size of an instance is between Min and Max, Unbounded is true exactly if these say nothing, the instances of integer and float types are the numbers from Min to Max, the i'th element of an instance of a tuple type is an instance of Element(i), elements, keys and values of instances are instances of ElementType, KeyType and ValueType, an exact type has exactly the instances that are Equal to its ExactValue, AsType of a value is exact and ExactValue gives the value back, and every type identifier has a label.", "quantifier": "all types and all values", "why_tests_cant": "types nest without bound, and each of the many kinds of types has its own accessors", "anchors": ["internal/array.go: Min, Max, Unbounded, Element, ElementType", "internal/map.go, internal/mapstruct.go: Min, Max, Unbounded, KeyType, ValueType", "internal/string.go, internal/binary.go: Min, Max, Unbounded", "internal/integer.go, internal/float.go: Min, Max, Inclusive", "internal/type.go: ExactValue, AsType", "dgo/typeidentifier.go: String, IsExact"]}
{"id": "C85", "title": "Function types as text", "statement": "The text of a function type is read back as a function type with equal arguments and results that are variadic alike, two function types with the same text are the same type, and the parser ends on every text of a function type.", "quantifier": "all function types and all texts", "why_tests_cant": "arguments and results are types that nest without bound, and whether the text of one ends where the next begins depends on each of them", "anchors": ["stringer/typestring.go: function, writeTupleArgs", "parser/parser.go: funcExpression, list, makeTupleType", "internal/function.go: FunctionType"]}
{"id": "C86", "title": "What New makes", "statement": "New of a type makes exactly the value that the kind of the type and the arguments call for: booleans from the words true, yes, y, false, no and n and from numbers, integers without the fraction and with radix 2, 8, 10 or 16, binaries from bytes or encoded text, maps from arrays of keys and values; it panics exactly when there is no such value or the value is no instance of the type.", "quantifier": "all types that New accepts and all arguments", "why_tests_cant": "each kind of type is tried with a few arguments only, and a further word, radix or kind of argument that is accepted shows in none of them", "anchors": ["internal/value.go: New", "internal/boolean.go: newBoolean", "internal/integer.go: newInt, intFromConvertible", "internal/float.go: newFloat", "internal/string.go: newString", "internal/binary.go: newBinary", "internal/time.go: newTime", "internal/array.go: newArray", "internal/map.go: newMap"]}
{"id": "C87", "title": "Reading any JSON", "statement": "UnmarshalJSON reads every JSON document, whoever wrote it, as the value that the document says: members keep their order, a repeated member replaces the value of the first, integers that do not fit in 64 bits become floats; and it accepts no text whose brackets do not match.", "quantifier": "all JSON documents and all token sequences", "why_tests_cant": "tests read the few documents that they contain; nesting, repeated members and empty collections combine without bound", "anchors": ["streamer/json.go: UnmarshalJSON, jsonDecoder", "streamer/basiccollector.go", "streamer/decoder.go: AddMap"]}
{"id": "C88", "title": "The tokens of a text", "statement": "The lexer of type expressions finds in a text of Unicode characters exactly the tokens that a grammar on characters gives: white space, words with $ and _, numbers with sign, fraction, exponent or hexadecimal digits, quoted and raw strings, patterns, dots and single characters, each with the conditions on what follows; it panics exactly where the text neither ends nor starts with a token; and there is one way to read a text.", "quantifier": "all texts of Unicode characters other than U+FFFD", "why_tests_cant": "tests lex a few expressions; how each token ends depends on all characters that may follow it", "anchors": ["parser/lexer.go: DefaultLexer, buildToken, ConsumeNumber, consumeExponent, ConsumeString, ConsumeRegexp, consumeRawString", "util/reader.go"]}
{"id": "C89", "title": "Names declared in type expressions", "statement": "A type expression that declares names, as in t={left?:t, right?:t}, is read as the type that it describes: each name stands for one type wherever it is used, before, after or within its declaration; the names come in the order of the text; when the parser returns no reference by name is left, and the types that were there are unchanged. A name that is a word of the language, that is known or that was declared before is rejected.", "quantifier": "all type expressions with integers, ranges and strings, arrays and maps of any sizes, tuples, structs, and, or, one of, not and names; all maps of known names; all texts with these tokens", "why_tests_cant": "tests declare one or two names; how often and from where a name is referred to, and through what other types, is unbounded, and an unresolved reference is only seen when a value reaches it", "anchors": ["parser/parser.go: aliasDeclaration, aliasReference, DoParse, typeExpression, list, arrayElement", "internal/alias.go: aliasAdder, aliasMap.update", "tf/type.go: ParseType"]}
{"id": "C90", "title": "Instance of types that are read from a text", "statement": "The type that the parser makes of a type expression, with declared names that may refer to themselves and to each other, accepts exactly the values that the expression describes: Instance returns for every value that does not contain itself, and is true just when the value belongs to the expression, where each declared name stands for what its declaration says and each known name for what its type accepted before.", "quantifier": "all type expressions with integers, ranges and strings, arrays and maps of any sizes, tuples, structs, and, or, one of, not and names; all texts with these tokens; all heaps of known types; all values without cycles", "why_tests_cant": "it relates the parser, the replacement of names and the guard against recursion of Instance, for expressions and values of any depth; tests check single types with single values", "anchors": ["parser/parser.go: DoParse, aliasDeclaration", "internal/alias.go: aliasMap.update", "internal/array.go, map.go, mapstruct.go, ternary.go: DeepInstance"]}
{"id": "C91", "title": "No data races", "statement": "Goroutines that use the same loaders, default aliases and strings never access the same memory at the same time where one of them writes: Get and Namespace of loaders with their finders and creators, Equals, HashCode and String of loaders, AddDefaultAliases and DefaultAliases, and HashCode of strings that are used as keys.", "quantifier": "all numbers of goroutines; all sequences of calls of each, with finders, creators and adders that call as well; all interleavings of their accesses and lock operations", "why_tests_cant": "the race detector reports only accesses of the interleavings that happen to be executed", "anchors": ["loader/loader.go: loader.Get, loader.add, loader.Namespace, loader.Equals, loader.HashCode, loader.initMap", "internal/alias.go: AddAliases, AddDefaultAliases, DefaultAliases", "internal/string.go: hstring.HashCode", "internal/map.go: hashMap.Get, hashMap.Put, hashMap.resize"]}
{"id": "C92", "title": "No deadlocks", "statement": "As long as a goroutine has not returned from its calls some goroutine can go on: none waits for a lock whose holder waits as well. A goroutine whose calls have returned, or panicked, holds no lock.", "quantifier": "all numbers of goroutines; all sequences of calls of each, with finders, creators and adders that call the same loaders again; all interleavings", "why_tests_cant": "a deadlock needs a particular interleaving of particular calls; tests run few of them", "anchors": ["loader/loader.go: loader.Get, loader.add, loader.Namespace", "internal/alias.go: AddAliases"]}
{"id": "C93", "title": "Two maps never interfere", "statement": "An operation on one map never changes what is observed through another map, and the maps that With, Without, WithoutAll, Merge, Copy and Map return are other maps than the receiver and the argument, so that changes of the one are not seen in the other.", "quantifier": "all histories of operations on any number of maps; all types of keys and values", "why_tests_cant": "sharing shows only when a map is changed later, after some particular history of the maps it came from", "anchors": ["internal/map.go: hashMap.With, hashMap.Without, hashMap.WithoutAll, hashMap.Merge, hashMap.Copy, hashMap.resize"]}
{"id": "C94", "title": "Numbers of times keep the order and name the time", "statement": "SecondsWithFraction of a time is within three microseconds of the time, never decreases from one time to a later one, does not depend on the zone in which the time is written, and the time that New creates from the number is the time.", "quantifier": "all times, nanoseconds and zones", "why_tests_cant": "rounding to 53 bits goes wrong only for particular nanoseconds far from today, and the two branches of the function meet at one instant per zone", "anchors": ["internal/time.go: timeVal.SecondsWithFraction, newTime, timeVal.Equals"]}
{"id": "C95", "title": "Names of Puppet types have names in dgo", "statement": "Every name that the lexer of the Puppet language delivers is translated to a name of dgo without a panic, different names are translated to different ones, and the translation is read by the parser of dgo as a reference to the declared type.", "quantifier": "all texts and all names in them", "why_tests_cant": "there are unboundedly many names; that two of them never collide, and that no text makes the translation slice an empty string, is about all of them", "anchors": ["streamer/pcore/parser.go: toDgoName, aliasDeclaration, namedType", "streamer/pcore/lexer.go: consumeTypeName, buildToken", "parser/lexer.go: consumeIdentifier"]}
{"id": "C96", "title": "A map may be changed while it is iterated", "statement": "A callback of Each, EachEntry, EachKey or EachValue may change the map: every entry that the map had is visited once, in order, with the value that it has at that time, unless it was removed before; the iteration ends, does not panic, and leaves the map that the changes make.", "quantifier": "all maps that any history of operations has made, all callbacks that put and remove depending on what they have seen", "why_tests_cant": "the iteration follows pointers in nodes that the callback relinks, unlinks or leaves behind when the table grows; when that happens depends on capacity and collisions, and a callback may do it at any visit", "anchors": ["internal/map.go: Each, EachEntry, EachKey, EachValue, Put, Remove, resize"]}
{"id": "C97", "title": "An array may be changed while it is iterated", "statement": "A callback of Each, EachWithIndex, All, Any, Find, Map, One, Reduce, Reject or Select may change the array: the iteration ends after one call for each element that the array had, every element that stays in the array is visited once, with the value that it has at that time, and the callback is never given the Go nil.", "quantifier": "all arrays that any history of operations has made, all callbacks that change arrays depending on what they have been given, all ways in which the runtime grows slices", "why_tests_cant": "the iteration holds a slice of a backing array that the callback shifts, overwrites or abandons, depending on the capacity; the sequences of changes are unbounded", "anchors": ["internal/array.go:857-875", "internal/array.go:999-1011", "internal/array.go:1024-1032", "internal/array.go:1118-1123", "internal/array.go:1140-1170", "internal/array.go:1201-1270"]}
{"id": "C98", "title": "Types made of arguments mean what the arguments say", "statement": "tf.Array, tf.Map, tf.String, tf.Binary and tf.Sensitive accept exactly the documented lists of arguments (types, then a minimum, then a maximum; a string for the exact string type) and return a type that accepts exactly the values that the arguments describe. All other arguments panic with an error that names too many arguments or an argument that is illegal.", "quantifier": "all lists of arguments, all element types, all 64-bit bounds in any order, all values", "why_tests_cant": "combinations of kinds of arguments, bounds and values are unbounded; the examples of tf show one call for each form", "anchors": ["internal/array.go:46-127", "internal/map.go:910-1021", "internal/string.go:338-361", "internal/binary.go:37-74", "internal/sensitive.go:23-34", "internal/type.go:85-110"]}
{"id": "C99", "title": "A struct type made from a map means what the map describes", "statement": "StructMapTypeFromMap returns, for every legal description, a struct type that accepts exactly the maps whose entries have the described types, that contain all entries not marked as not required, and that contain no other entries unless additional entries are allowed. A description is refused with an illegal assignment exactly if some entry describes nothing: its key is no string, or it is neither a type, a parsable text, nor a map with such a type and an optional boolean.", "quantifier": "all maps of descriptions of any size and nesting, all parsers, all values, both values of additional", "why_tests_cant": "descriptions, parsers and values are unbounded, and exact and not exact descriptions take different paths", "anchors": ["internal/mapstruct.go:59-66", "internal/mapstruct.go:77-158"]}
{"id": "C100", "title": "Types are streamed with their names, which are declared again when decoded", "statement": "A value that contains types, streamed with an alias map and decoded with an alias adder, is decoded as the same value. The decoder adds exactly the names of the types that occur in it, in order, so that in the collected alias map every type of the value has its name again and every name its type, while other names and types keep theirs.", "quantifier": "all values with types, objects, sensitive values, binaries and times in them, all alias maps, dialects, consumers and levels of deduplication", "why_tests_cant": "the only test streams one array with one named type; deduplication of names and texts, nesting and collisions of names are unbounded", "anchors": ["streamer/streamer.go:178-194", "streamer/decoder.go:43-86", "internal/alias.go:150-200"]}
{"id": "C101", "title": "A key of a map stays what it was when it was put", "statement": "If mutable arrays are used as keys and changed afterwards, Get finds, at any time, the value that was last put under a key that had the looked for content at the time of the Put, unless an entry with that content has been removed since. The same holds for maps made by ToMap.", "quantifier": "all sequences of puts, removals and changes of arrays, all contents, all initial entries, all lawful equalities and hash codes", "why_tests_cant": "the tests put constant keys; interleavings of changes, puts and removals with resizing of the table are unbounded", "anchors": ["internal/map.go:599-638", "internal/map.go:900-905", "internal/array.go:1308-1339"]}
{"id": "C102", "title": "Entries are values: equality, copies and use as keys", "statement": "Equals of entries is an equivalence, equal entries have equal hash codes, the frozen copy of an entry is frozen and equal to it, and a value that is put into a map under an entry is found by that entry.", "quantifier": "all entries and struct entries, nested to any depth, over all values with a lawful equality and copy; all sequences of puts", "why_tests_cant": "the tests compare entries of one kind only; the kinds can be mixed and nested in any way", "anchors": ["internal/map.go:93-149", "internal/mapstruct.go:467-478", "internal/compare.go:98-132"]}

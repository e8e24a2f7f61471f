{"id": "C01", "title": "A successful load conforms to the requested type", "statement": "If Loader.load(value, type_) returns r, then r is an instance of type_: recursively, every element, key, value, field and union member has the type the annotation declares for it. Exception, shown by a counterexample: when the value type V of a Dict[K, V] is met for the first time the code stores its handler in the variable of the keys (dataloader.py line 396), so a key may be loaded by the handler of V; the claim requires, of each Dict reached from the type, that the loader already met V, or that K and V are such that this has no effect (V is not basic, or K is a plain class).", "quantifier": "all values, all supported types (nested to any depth, with forward references), all loader settings, all states a Loader can reach by loading", "why_tests_cant": "The set of values and of nested types is infinite; a test loads one value into one type.", "anchors": ["typedload/dataloader.py: Loader.load, every _*load handler", "typedload/typechecks.py"]}
{"id": "C02", "title": "With basiccast disabled a scalar is never converted", "statement": "With basiccast=False, loading a value into a basic type returns the very same value, and only if the class of the value is exactly that type; any other value raises TypedloadValueError.", "quantifier": "all values, all basic types, all basictypes sets", "why_tests_cant": "Only a universally quantified statement rules out one remaining conversion.", "anchors": ["typedload/dataloader.py: _basicload"]}
{"id": "C03", "title": "With basiccast disabled, JSON data loaded into JSON-shaped types comes back unchanged", "statement": "With basiccast=False, loading a value into a type built from basic types, None, Any, Literal, List, Dict and Union (recursive through forward references too) either fails or returns exactly the value that was passed: nothing is dropped, reordered or converted. Excluded, because the library does convert them (counterexample): a string where a List is expected, a Namespace where a Dict is expected, a tuple or set where a List is expected.", "quantifier": "all data of any depth not of the excluded shapes, all types built from those constructors, all states of the Loader", "why_tests_cant": "Unbounded nesting of values and types.", "anchors": ["typedload/dataloader.py: _basicload, _iterload, _dictload, _unionload, _literalload, _anyload, _noneload"]}
{"id": "C04", "title": "Any and Literal return the value itself", "statement": "load(v, Any) returns v for every v. load(v, Literal[a, b, ...]) returns v itself exactly when v equals one of the listed values and otherwise raises TypedloadValueError.", "quantifier": "all values, all literal lists", "why_tests_cant": "Infinite value domain.", "anchors": ["typedload/dataloader.py: _anyload, _literalload"]}
{"id": "C05", "title": "NoneType accepts only None", "statement": "load(v, type(None)) returns None exactly when v is None, and raises TypedloadValueError otherwise, whatever basiccast is.", "quantifier": "all values and settings", "why_tests_cant": "Infinite value domain; basiccast could make NoneType castable.", "anchors": ["typedload/dataloader.py: _noneload, Loader.__init__ handlers"]}
{"id": "C06", "title": "Missing required fields are always rejected", "statement": "Loading data into a NamedTuple, dataclass, attrs class or TypedDict succeeds only if every field without default (required key) is present in the data under its external name; if one is absent the load raises TypedloadValueError, the same one in any state of the loader, and no object is built.", "quantifier": "all object classes whose annotations can be resolved and whose external names are distinct, all dictionaries (and equivalent Namespaces), all loader settings and states", "why_tests_cant": "All classes and all subsets of missing fields.", "anchors": ["typedload/dataloader.py: _objloader, _namedtupleload, _dataclassload, _attrload, _typeddictload"]}
{"id": "C07", "title": "failonextra never lets an unknown key through", "statement": "With failonextra=True, loading a dictionary into an object type succeeds only if every key of the dictionary names a field of the type (through name mangling); otherwise the load fails, with TypedloadValueError if all keys are strings (with other keys the message cannot be built and an AssertionError escapes: counterexample).", "quantifier": "all object classes, dictionaries, mangling tables, loader states", "why_tests_cant": "All combinations of extra keys and mangling maps.", "anchors": ["typedload/dataloader.py: _objloader, _mangle_names"]}
{"id": "C08", "title": "Without failonextra, extra keys have no influence", "statement": "With failonextra=False, removing from a dictionary the keys which are not fields of the object type, at any position, does not change what load returns, nor the class of the exception it raises.", "quantifier": "all object classes, all dictionaries, all positions of the extra keys", "why_tests_cant": "Metamorphic over all pairs of inputs.", "anchors": ["typedload/dataloader.py: _objloader, _mangle_names"]}
{"id": "C09", "title": "Fixed-size tuples have exactly the declared arity", "statement": "load(v, Tuple[t1..tn]) returns a tuple of exactly n items; it fails with TypedloadValueError if v has fewer than n items; if v has more than n items it fails when failonextra is set and otherwise the result depends only on the first n items.", "quantifier": "all n, all sequences", "why_tests_cant": "Boundary conditions for every length.", "anchors": ["typedload/dataloader.py: _tupleload"]}
{"id": "C10", "title": "Iterables are loaded element by element, in order", "statement": "If load(v, List[t]) or Tuple[t, ...] succeeds, the result has as many items as v and its i-th item is what loading the i-th item of v into t gives (or the item itself when it is already an instance of the basic type t). This needs that loading an item does not raise StopIteration, which ends the iteration silently: for an attrs class with a converter annotated only with its result, load(v, List[A]) returns [] for every list (C10_refuted).", "quantifier": "all sequences of any length, all element types", "why_tests_cant": "Unbounded length; order must hold for every permutation.", "anchors": ["typedload/dataloader.py: _iterload"]}
{"id": "C11", "title": "A dictionary is never loaded as a list, tuple or set", "statement": "Loading a dict into List, Tuple, Set or FrozenSet always raises TypedloadTypeError, regardless of content and settings.", "quantifier": "all dictionaries, all element types, all settings", "why_tests_cant": "Infinite inputs.", "anchors": ["typedload/dataloader.py: _iterload, _tupleload"]}
{"id": "C12", "title": "Unions return a basic value unchanged when its own type is a member", "statement": "If type(v) is a basic type and is one of the types of the union then load(v, Union[...]) returns v unchanged, whatever the other members, their order and the settings are.", "quantifier": "all values, unions, orders, settings including uniondebugconflict", "why_tests_cant": "All unions in all orders.", "anchors": ["typedload/dataloader.py: _unionload"]}
{"id": "C13", "title": "A union result is the result of one member, and non basic members are preferred", "statement": "If load(v, Union[ts]) returns r then r is v itself (its own basic type being a member) or what the handler of some member t of ts returns for v; moreover a basic member is used only if every non basic member rejected v.", "quantifier": "all unions, values, settings, cache states", "why_tests_cant": "All unions and orders.", "anchors": ["typedload/dataloader.py: _unionload"]}
{"id": "C14", "title": "A union accepts whatever one of its members accepts, and otherwise reports one exception per member", "statement": "With uniondebugconflict off, if loading v into at least one member of the union succeeds then loading v into the union succeeds; if none succeeds TypedloadValueError is raised and carries exactly one exception for each member. This needs that no member raises something else than a TypedloadException (a defect: two counterexamples, Tuple from a number and an unhashable discriminator).", "quantifier": "all unions and values, all states of a Loader", "why_tests_cant": "Requires that no member's failure can abort the search, for every member type.", "anchors": ["typedload/dataloader.py: _unionload"]}
{"id": "C15", "title": "uniondebugconflict succeeds exactly when one member matches", "statement": "With uniondebugconflict=True a value whose own type is not a basic member loads iff exactly one member of the union accepts it, and then (for unions which do not contain other unions, see the counterexample) the result is the same as with the option disabled; if two or more accept it TypedloadTypeError is raised.", "quantifier": "all unions, values, states of a Loader", "why_tests_cant": "All unions.", "anchors": ["typedload/dataloader.py: _unionload"]}
{"id": "C16", "title": "Tagged unions select the class whose Literal matches", "statement": "If every member of a union of object types has a common field annotated with Literal, the literals of the members are pairwise distinct and the data has a literal of member T under that field, then the result of a successful load is an instance of T (a dict if T is a TypedDict), and it is what loading into T directly gives.", "quantifier": "all unions of object types, all data, all choices of the discriminator when there are several candidates", "why_tests_cant": "All classes, and hash-randomised choice of the key.", "anchors": ["typedload/dataloader.py: _unionload", "typedload/typechecks.py: discriminatorliterals"]}
{"id": "C17", "title": "Every failure is a TypedloadException", "statement": "Whenever load does not return, it raises TypedloadException or a subclass, provided that while loading none of these known defects is met: a tuple from a value without len(), unhashable loaded keys or elements outside the guarded places, an unhashable discriminator, failonextra with keys that are not strings, an overflow in date/time/timedelta/re.compile, a converter annotated only with its result, a generic without arguments. For each of them a counterexample is proved.", "quantifier": "all values made of hashable keys and elements, all supported types, all settings, all states", "why_tests_cant": "Needs every partial operation on every input to be guarded.", "anchors": ["typedload/dataloader.py: Loader.load, all handlers", "docs/errors.md"]}
{"id": "C18", "title": "The error trace starts at the root and its path leads to the offending value", "statement": "For every failure of load(value, type_) into a supported type, trace[0] is (value, type_, None), and following the annotations of the trace from the root of the data reaches the value which the exception reports, or, for errors caught and raised again, the place where they were raised again; the same holds for the nested exceptions of unions and enums. (For an unsupported type the trace is empty, and inside a Dict a TypedloadAttributeError loses its position: counterexamples.)", "quantifier": "all failing loads, of any nesting, all states", "why_tests_cant": "All failure positions at all depths.", "anchors": ["typedload/exceptions.py: TypedloadException.trace", "typedload/dataloader.py: trace.insert sites"]}
{"id": "C19", "title": "Every exception can be rendered", "statement": "str(e) terminates and returns a string for each TypedloadException e raised by load, provided no Enum with annotations is met (counterexample: such an Enum collects raw exceptions which str cannot render). In general str(e) succeeds exactly when all exceptions nested in e are TypedloadExceptions.", "quantifier": "all failing loads", "why_tests_cant": "All nested exception trees.", "anchors": ["typedload/exceptions.py: TypedloadException.__str__, _subexceptions, _path", "typedload/dataloader.py: _enumload"]}
{"id": "C20", "title": "Loader reuse is transparent", "statement": "The outcome of load on a loader which has already been used for any sequence of other loads is the same as on a fresh loader with the same settings: same result, or same exception with the same trace. Exceptions, each with a counterexample: forward references whose names are registered only by a particular order of loads; the key shortcut of Dict (C01); unions discriminated by a NotRequired[Literal] field of a TypedDict that has been rewritten; unions whose members share a value of their Literal key, or which have several Literal keys (when they are loaded in two orders: to Python Union[A, B] and Union[B, A] are equal, and the loader keeps what it found for the first; the theorem leaves out all such unions).", "quantifier": "all sequences of previous loads (successful or failed), all values, all types whose forward references have the same meaning for both loaders", "why_tests_cant": "All histories of the internal caches.", "anchors": ["typedload/dataloader.py: _indexcache, _objfieldscache, _unionload_discriminatorcache, frefs"]}
{"id": "C21", "title": "Known names are never rebound", "statement": "Once a type name has been registered for forward references or given by the user in frefs, no sequence of loads changes the type it resolves to; a resolved handler for a type never changes either.", "quantifier": "all sequences of loads", "why_tests_cant": "All histories.", "anchors": ["typedload/dataloader.py: Loader.load frefs"]}
{"id": "C22", "title": "Loading terminates for every value when the type is not recursive", "statement": "load terminates on every value whenever the type is not recursive, with a recursion depth bounded by the type and independent of the data.", "quantifier": "all values of any size, all non recursive types", "why_tests_cant": "Termination on infinite domain.", "anchors": ["typedload/dataloader.py: Loader.load"]}
{"id": "C23", "title": "Loading into recursive object types terminates", "statement": "load terminates on every value for recursive types whose recursion goes through the fields of objects or the keys or values of a Dict (linked lists, trees, mutually recursive classes); recursion through List/Union only can instead diverge on a string (counterexample).", "quantifier": "all values, all class tables, all loader states", "why_tests_cant": "Termination on infinite domain, self-referential types.", "anchors": ["typedload/dataloader.py: _forwardrefload, _iterload, _objloader"]}
{"id": "C24", "title": "Name mangling maps external names to fields", "statement": "For dataclass and attrs, the data under the external name of a field (metadata[mangle_key]) is what the field gets, for any renaming, including permutations of the field names; data under the python name of a renamed field is ignored, or refused when failonextra is set.", "quantifier": "all renaming tables, all dictionaries", "why_tests_cant": "All renamings including swaps and cycles.", "anchors": ["typedload/dataloader.py: _mangle_names, _dataclassload, _attrload"]}
{"id": "C25", "title": "dump produces only basic types, lists and dictionaries", "statement": "If dump(v) returns d then d is composed only of values of the basic types, lists, and dictionaries whose keys and values are so composed; provided the content of each dataclass or attrs field annotated List[basic] and the like is what the annotation says, and patterns are of str (counterexamples for both).", "quantifier": "all values a python program can build", "why_tests_cant": "Infinite domain.", "anchors": ["typedload/datadumper.py: Dumper.dump, all handlers"]}
{"id": "C26", "title": "hidedefault hides exactly the fields which equal their default", "statement": "Dumping a NamedTuple, dataclass or attrs object gives a dictionary with exactly the (dumpable) fields, in their order, under their external names, each with the dump of its value, except with hidedefault those fields whose value equals the default; with hidedefault=False all fields are present.", "quantifier": "all object classes and instances, all states of the Dumper", "why_tests_cant": "All classes and values.", "anchors": ["typedload/datadumper.py: _namedtupledump, _dataclassdump, _attrdump"]}
{"id": "C27", "title": "load is a left inverse of dump", "statement": "If v is a value of type T in the serialisable fragment (basic values, None, Any with JSON data, Literals, lists, tuples, sets, dicts, NewTypes, unions whose other members reject the dumped data, enums, dates and times, paths and the like, NamedTuples, dataclasses and attrs objects with renamed fields) then dump(v) succeeds and load(dump(v), T) is exactly v, with hidedefault on or off when the hidden values are exactly the defaults. Outside the fragment four counterexamples are proved.", "quantifier": "all values and types in the fragment, of any depth, all states of loader and dumper", "why_tests_cant": "Unbounded values and types.", "anchors": ["typedload/dataloader.py", "typedload/datadumper.py"]}
{"id": "C28", "title": "dump terminates on every value", "statement": "dump terminates on every value a python program can build (finite, acyclic), with recursion depth bounded by the depth of the value.", "quantifier": "all values, all states of the Dumper", "why_tests_cant": "Infinite domain.", "anchors": ["typedload/datadumper.py: Dumper.dump"]}
{"id": "C29", "title": "Dumper reuse is transparent", "statement": "The result of dump does not depend on what was dumped before with the same Dumper.", "quantifier": "all histories of dumps, all values", "why_tests_cant": "All histories of the handler and dataclass caches.", "anchors": ["typedload/datadumper.py: _handlerscache, _dataclasscache"]}
{"id": "C30", "title": "dump is the identity on JSON-like data", "statement": "dump(v) is v for every v made only of basic types, lists and dictionaries; so dump is idempotent.", "quantifier": "all JSON-like values of any depth", "why_tests_cant": "Infinite domain.", "anchors": ["typedload/datadumper.py: _identitydump, _iteratordump, dict handler"]}
{"id": "C31", "title": "Values without a matching handler are refused", "statement": "dump of a value for which no condition matches raises TypedloadValueError; load into a type for which no condition matches raises TypedloadTypeError; neither returns a value.", "quantifier": "all values, types, handler lists", "why_tests_cant": "All handler lists.", "anchors": ["typedload/dataloader.py: Loader.index, Loader.load", "typedload/datadumper.py: Dumper.index"]}
{"id": "C32", "title": "The first matching handler wins", "statement": "index(type_) is the least position whose condition holds; a handler inserted before it takes over exactly the types it matches and all other types keep their handler; appending handlers never changes the treatment of already supported types.", "quantifier": "all handler lists, all insert positions, all types", "why_tests_cant": "All handler lists.", "anchors": ["typedload/dataloader.py: Loader.index", "typedload/datadumper.py: Dumper.index"]}
{"id": "C33", "title": "raiseconditionerrors=False turns condition errors into non matches", "statement": "With raiseconditionerrors=False a condition which raises is equivalent to one which returns False and index never propagates its error; with True the error propagates.", "quantifier": "all handler lists and types", "why_tests_cant": "All handler lists.", "anchors": ["typedload/dataloader.py: Loader.index"]}
{"id": "C34", "title": "Enums load by value", "statement": "load(v, E) returns a member of E; it is the member whose value equals v if there is one, and otherwise a member whose value equals what the first successful type hint of E loads from v; if neither exists TypedloadValueError is raised.", "quantifier": "all enum classes, all values, all states", "why_tests_cant": "All enums.", "anchors": ["typedload/dataloader.py: _enumload"]}
{"id": "C35", "title": "NewType is transparent", "statement": "load(v, NewType('N', T)) returns the same as load(v, T), and fails with the same kind of exception and value.", "quantifier": "all v, T, nested NewTypes", "why_tests_cant": "All types.", "anchors": ["typedload/dataloader.py: _newtypeload"]}
{"id": "C36", "title": "Repeated TypedDict loads agree", "statement": "Loading a TypedDict with NotRequired keys, which rewrites the annotations of the class, does not change the result of any later load into it; the outcome of the required-key check is the same the first and every later time.", "quantifier": "all TypedDict classes, all histories", "why_tests_cant": "All histories of a process-wide mutation.", "anchors": ["typedload/dataloader.py: _typeddictload", "typedload/typechecks.py: is_notrequired, notrequiredtype"]}
{"id": "C37", "title": "argparse.Namespace loads like the equivalent dictionary", "statement": "With dictequivalence enabled loading a Namespace into a Dict type, or into an object type without renamed fields, gives the same result as loading the dictionary of its attributes; with it disabled it raises TypedloadAttributeError. With renamed fields it always raises TypedloadAttributeError (a defect, counterexample).", "quantifier": "all namespaces, object types, settings, states", "why_tests_cant": "All classes.", "anchors": ["typedload/dataloader.py: _dictequivalence, _objloader, _dictload"]}
{"id": "C38", "title": "Set loading keeps exactly the distinct loaded elements", "statement": "load(v, Set[t]) / FrozenSet[t] returns a set whose members are, up to equality, exactly the loaded elements of v, without duplicates, whatever the order of v. (As in C10, loading an element must not raise StopIteration.)", "quantifier": "all sequences, all element types", "why_tests_cant": "Unbounded.", "anchors": ["typedload/dataloader.py: _iterload"]}
{"id": "C39", "title": "Dict loading keeps the keys and the last value of each loaded key", "statement": "If load(v, Dict[K, V]) succeeds each item of the result comes from an item of v, each item of v has its loaded key in the result, and for keys which become equal after conversion the last one wins.", "quantifier": "all dictionaries, all K and V", "why_tests_cant": "Unbounded.", "anchors": ["typedload/dataloader.py: _dictload"]}
{"id": "C40", "title": "Path strings have the documented form", "statement": "The Path shown by str(e) is '.' for an error at the root, and otherwise '.' followed by the dot-separated annotations of the trace, with list positions written as [n].", "quantifier": "all traces", "why_tests_cant": "All traces of all lengths.", "anchors": ["typedload/exceptions.py: TypedloadException._path"]}
{"id": "C41", "title": "Results do not depend on the recursion budget", "statement": "Whenever two runs with different recursion limits both complete, they give the same result, exception and loader state.", "quantifier": "all recursion limits, all inputs", "why_tests_cant": "All depths.", "anchors": ["typedload/dataloader.py: Loader.load"]}
{"id": "C42", "title": "Each supported kind of type is recognised by exactly one check", "statement": "For every type built by the typing constructors, the default type checks select the loader for its own kind, whatever its arguments are.", "quantifier": "all types", "why_tests_cant": "All types.", "anchors": ["typedload/typechecks.py", "typedload/dataloader.py: Loader.__init__ handlers"]}
{"id": "C43", "title": "Every loaded value is a reading of the data by the rules of its type", "statement": "There is a description of what each kind of type means (one rule per kind: NoneType, basic types with or without cast, Any, Literal, List/Set/FrozenSet/Tuple[t, ...], fixed tuples, Dict, NamedTuple/dataclass/attrs/TypedDict, Enum by value or through an annotation, dates and times, timedelta, Pattern, classes built from strings, NewType, forward references, Union) that knows nothing of loaders, caches, order of trials, recursion or exceptions. Whenever load(v, t) returns r on a Loader with the default handlers, whatever it loaded before, r is one of the readings of v as t by these rules; data without a reading is never accepted. The only thing which depends on the history of the Loader is the defect in line 396 of dataloader.py, which has its own rule and disappears once the type of the values of the Dict is known. (As in C10, no type involved raises StopIteration.)", "quantifier": "all type definitions, settings, histories of the Loader, data and types", "why_tests_cant": "the claim relates every accepted input of every type, nested arbitrarily, to a specification; tests compare a few inputs with a few outputs", "anchors": ["typedload/dataloader.py: Loader.load", "typedload/dataloader.py: _dictload", "typedload/dataloader.py: _unionload"]}
{"id": "C44", "title": "When the rules of the types allow one reading, load returns exactly it", "statement": "If, at the Unions, annotated Enums and Dicts met while reading v as t, at most one result is possible, and each trial there ends with a value or a TypedloadException (uniondebugconflict off), then load(v, t) returns r if and only if r is a reading of v as t by the rules of C43; in particular the reading is unique. For types without Unions and annotated Enums there is no condition about choices.", "quantifier": "all type definitions, settings with uniondebugconflict off, histories, data, types and results", "why_tests_cant": "an equivalence between a recursive algorithm with caches and a specification, for every nesting of types", "anchors": ["typedload/dataloader.py: Loader.load", "typedload/dataloader.py: _dictload", "typedload/dataloader.py: _unionload"]}
{"id": "C45", "title": "The order of the members of a Union does not matter when one reading is possible", "statement": "For two Unions with the same members in another order, or with repetitions, and data which has at most one reading (as in C44), load returns the same value for both or for neither.", "quantifier": "all unions, all orders of the members, all data, all histories of the Loader", "why_tests_cant": "quantifies over all unions, permutations and data", "anchors": ["typedload/dataloader.py: Loader.load", "typedload/dataloader.py: _dictload", "typedload/dataloader.py: _unionload"]}
{"id": "C46", "title": "Relaxing the settings does not change what was accepted", "statement": "If a Loader accepts v as t with the value r, then a Loader which differs from it only by failonextra turned off, basiccast turned on or dictequivalence turned on returns the same r, provided the data has one reading with the new settings (as in C44).", "quantifier": "all pairs of settings, all histories of both Loaders, all data and types", "why_tests_cant": "relates two runs with different settings for every input", "anchors": ["typedload/dataloader.py: Loader.load", "typedload/dataloader.py: _dictload", "typedload/dataloader.py: _unionload"]}
{"id": "C47", "title": "A Loader can be shared by threads", "statement": "While one thread runs load(v, t) on a Loader, other threads may run loads on the same Loader: whatever they do to it between any two handler calls of the first, load(v, t) returns or raises exactly what it would have done alone, provided the names which t refers to (forward references) are already known to the Loader. A load that is abandoned at any of its writes leaves a Loader that behaves as before. (The first load of a class that refers to itself by name is not safe: between the caching of the handler and the registration of the name another thread fails to resolve the name.)", "quantifier": "every schedule of other loads interleaved at handler-call boundaries, every history of the loader, every type reachable from the requested one, every value, every setting of a loader with the default handlers", "why_tests_cant": "The schedules are unbounded and not under the control of a test; the failing one needs a preemption between two adjacent statements.", "anchors": ["typedload/dataloader.py: Loader.load", "typedload/dataloader.py: _forwardrefload", "typedload/dataloader.py: _unionload", "typedload/dataloader.py: _objloader"]}
{"id": "C48", "title": "typedload.load and typedload.dump depend on their arguments only", "statement": "typedload.load(v, t, **kwargs) returns or raises what a Loader with the same arguments would, new or already used, whatever has been loaded before in the process, by typedload.load or by any Loader (types that refer by name at most to themselves; the exceptions of C20). typedload.dump(v, **kwargs) gives what a Dumper with the same arguments gives, new or used.", "quantifier": "every history of the process, every history of the Loader or Dumper compared with, every value and type, all settings with the default handlers", "why_tests_cant": "Earlier loads change the process (annotations of TypedDict classes are rewritten in place); no finite set of histories covers all.", "anchors": ["typedload/__init__.py: load", "typedload/__init__.py: dump", "typedload/dataloader.py: _typeddictload"]}
{"id": "C49", "title": "Custom handlers are local", "statement": "Let one Loader have the default handlers and another, with the same settings, a list of handlers which is different in any way (handlers added, removed, reordered, custom). If both select the same handler for every type met while loading t, load(v, t) has the same outcome and the same effect on both. In particular, handlers inserted at any position whose conditions hold for none of the types met while loading t change nothing for t. raiseconditionerrors has no effect on a Loader with the default handlers.", "quantifier": "all lists of handlers, all histories of the loader (including uses of the custom handlers), all values, all types and all types reached from them", "why_tests_cant": "relates two loaders for every input and every possible list of handlers", "anchors": ["typedload/dataloader.py: Loader.handlers", "typedload/dataloader.py: Loader.index", "typedload/dataloader.py: Loader.load"]}
{"id": "C50", "title": "The place an exception points at is where the error is", "statement": "If load(v, t) raises a TypedloadException e, then at each place named by e.trace, and at its end, loading the value found there with the type found there, by the same Loader, raises the same exception with the rest of the trace; and the same holds, recursively, for the exceptions kept in e.exceptions for each alternative of an Union. load(v, t) itself raises e again.", "quantifier": "all values and types, all histories of the loader, all exceptions, all ways of cutting the trace", "why_tests_cant": "it relates every exception to all the loads of parts of the value, at any depth; a wrong index or a wrong type in the trace is only visible for the inputs which reach it", "anchors": ["typedload/dataloader.py: Loader.load", "typedload/exceptions.py: TraceItem", "typedload/exceptions.py: TypedloadException", "typedload/dataloader.py: _iterload", "typedload/dataloader.py: _unionload", "typedload/dataloader.py: _objloader"]}
{"id": "C51", "title": "dump is compositional", "statement": "With the default handlers: a value of a basic type is dumped as itself; a list, tuple, set or frozenset as the list of its dumped items in order, failing with the exception of the first item which fails; a dictionary as the dictionary of the dumped keys and values; a member of an enum as its value; date, time, datetime as the list of their components (NotImplementedError with a timezone) or with isodates their ISO format; a timedelta as its seconds, a regular expression as its pattern, the classes of strconstructed as their string.", "quantifier": "all values, all settings, all histories of the dumper", "why_tests_cant": "collections have any size and nesting and contain anything; the history of the dumper is unbounded", "anchors": ["typedload/datadumper.py: Dumper.dump", "typedload/datadumper.py: _iteratordump", "typedload/datadumper.py: _datetimedump", "typedload/datadumper.py: _timedeltadump", "typedload/datadumper.py: _patterndump"]}
{"id": "C52", "title": "Additional dump handlers are obeyed, local, and do not depend on the history", "statement": "For a Dumper with any handlers, selected by the class of the object: what the selected custom handler returns is what dump returns; the items of a collection are dumped with them one by one, even if annotated as basic types, unless the handler of basic types is the first; the outcome does not depend on what was dumped before; and on objects containing nothing which the additional handlers accept, the dumper behaves as one with the default handlers.", "quantifier": "all lists of handlers, all handlers (any interaction with dumper.dump), all values and annotations, all histories", "why_tests_cant": "handlers are arbitrary functions; values and histories are unbounded", "anchors": ["typedload/datadumper.py: Dumper.handlers", "typedload/datadumper.py: Dumper.index", "typedload/datadumper.py: Dumper.dump", "typedload/datadumper.py: _iteratordump"]}
{"id": "C53", "title": "Settings can be changed between calls", "statement": "After basiccast, failonextra, dictequivalence or uniondebugconflict of a Loader (hidedefault, isodates or mangle_key of a Dumper) are changed, at any moment of its life and any number of times, it behaves as a new Loader (Dumper) with the present settings. This does not hold for mangle_key, pep563, basictypes and handlers of a Loader.", "quantifier": "all sequences of loads (dumps) and changes of settings, all values and types", "why_tests_cant": "histories are unbounded and the settings interact with what was cached for any type met before", "anchors": ["typedload/dataloader.py: Loader.load", "typedload/dataloader.py: _dataclassload", "typedload/dataloader.py: _unionload", "typedload/datadumper.py: Dumper.dump", "typedload/datadumper.py: _dataclassdump"]}
{"id": "C54", "title": "A Dumper can be shared by threads", "statement": "While one thread runs dump(v) on a Dumper, other threads may run dumps on the same Dumper: whatever they do to it between any two handler calls of the first, dump(v) returns or raises exactly what it would have done alone. A dump which is abandoned at any of its writes leaves a Dumper that behaves as before. This holds for the default handlers and for any additional handlers whose conditions depend on the class of the object only.", "quantifier": "every schedule of other dumps interleaved at handler-call boundaries, every history of the dumper, every value, every setting, every list of handlers selected by class", "why_tests_cant": "the schedules are unbounded and not under the control of a test", "anchors": ["typedload/datadumper.py: Dumper.dump", "typedload/datadumper.py: _dataclassdump"]}
{"id": "C55", "title": "Values of a data model always round trip", "statement": "Let v be a value of the annotation T in the sense of a data model: scalars are exactly instances of the declared basic type (in collections also instances of a subclass of it among the basic types, as True in a List[int]), collections, dictionaries with basic keys, TypedDicts, NamedTuples, dataclasses and attrs objects contain values of the declared types, an Enum member has JSON data as value, and a value in a union is an instance of a basic type of the union, or an object of a union discriminated by a Literal field, or its data cannot be taken for data of the other members (missing field, unexpected field, wrong literal, dictionary where a list is wanted...). Then dump(v) succeeds on every Dumper, load(dump(v), T) is exactly v on every Loader which knows the names of the forward references (or a new one, for a recursive class), dumping it again gives the same data, and two different values of T never have the same data. The condition is about the value and the declarations only, not about what the loader does.", "quantifier": "all values of all data models, of any depth, all histories of the loader and of the dumper", "why_tests_cant": "unbounded values, types and histories", "anchors": ["typedload/dataloader.py: Loader.load", "typedload/dataloader.py: _unionload", "typedload/dataloader.py: _objloader", "typedload/datadumper.py: Dumper.dump", "typedload/datadumper.py: _dataclassdump"]}
{"id": "C56", "title": "A failure inside a load or a dump never gives a wrong value", "statement": "While load(v, T) runs, any call of a handler in it may fail for a reason unrelated to the data (RecursionError near the recursion limit, MemoryError, another thread disturbing, anything but StopIteration): if load nevertheless returns a value, it is a reading of the data by the rules of T, and it is the value which load returns without the trouble whenever the data has one reading (in particular when T contains neither unions nor annotated Enums). For every load there is a stack depth from which on the recursion limit has no influence. Later loads are not affected. The same holds for dump, unconditionally. For unions with two readings it is false: near the recursion limit load returns another member (C56_refuted).", "quantifier": "every set of failing calls and exceptions, every interleaving of other threads, every recursion limit, all values, types and histories", "why_tests_cant": "the points of failure and the stack depth of the caller are not under the control of a test", "anchors": ["typedload/dataloader.py: Loader.load", "typedload/dataloader.py: _iterload", "typedload/dataloader.py: _dictload", "typedload/dataloader.py: _unionload", "typedload/datadumper.py: Dumper.dump"]}
{"id": "C57", "title": "dump does not touch the object it dumps, nor share its mutable parts with the result", "statement": "dump never changes its argument or any other existing object, whatever the outcome (also when it raises or exhausts the stack on objects which contain each other). The outcome depends only on the contents: an object whose parts are shared gives the same as one whose parts are equal but separate. The result consists of new lists and dictionaries, each appearing once, and of scalars: editing the result never changes an existing object, and editing any existing object never changes the result, provided that dataclass fields annotated with a collection of a basic type contain that (false otherwise: C57_refuted).", "quantifier": "all heaps of objects (with any sharing), objects in them, histories of the Dumper, later edits of the heap", "why_tests_cant": "tests compare the result with the expected value; sharing between the argument and the result, or between two parts of the result, shows only when one of them is edited later", "anchors": ["typedload/datadumper.py: Dumper.dump", "typedload/datadumper.py: _attrdump", "typedload/datadumper.py: _namedtupledump", "typedload/datadumper.py: _dataclassdump", "typedload/datadumper.py: _iteratordump", "typedload/datadumper.py: _identitydump"]}
{"id": "C58", "title": "Results do not depend on the hash seed", "statement": "The outcome of load, and its effect on the Loader, is the same in two processes with different hash seeds (PYTHONHASHSEED), whatever each of the two Loaders has loaded before, when the members of each union in the type share at most one key annotated with a Literal and the fields of each dataclass have different external names; and, for any unions, when the data has one reading. dump gives the same data in both processes, except for the order of the keys of the dictionaries. For unions whose members share several Literal keys it is false: what load returns can change from run to run (C58_refuted); likewise for a dataclass two fields of which have the same external name (C58_refuted_names).", "quantifier": "all pairs of hash seeds, data, types, histories of the two objects", "why_tests_cant": "a test runs in one process, with one seed", "anchors": ["typedload/dataloader.py: _unionload", "typedload/dataloader.py: _unionload: keys.pop()", "typedload/datadumper.py: _dataclassdump"]}
{"id": "C59", "title": "load does not touch the data it loads, nor share its mutable parts with the result", "statement": "load never changes its argument or any other existing object, whatever the outcome (also when it raises or exhausts the stack on objects which contain each other). The outcome and the effect on the loader depend only on the contents: data whose parts are shared gives the same as data whose parts are equal but separate. The result consists of new objects, each appearing once, of parts of the argument, of objects which belong to the classes (enum members, default values) and of scalars: nothing in it comes from an earlier load. No new object is a member of an enum: the members in the result, at any depth, are the objects of the enum class (load(x, Color) is Color.RED). If the argument is data (lists, tuples, sets, dictionaries, scalars) and the type reaches no Any and no container as a basic type or inside Literal, the result has no part of the argument either: editing the result never changes the data, editing the data never changes the result, and the results of two loads share nothing. With Any they do share (C59_refuted), and mutable default values are shared between results (C59_refuted_default).", "quantifier": "all heaps of objects (with any sharing), objects in them, types, settings, histories of the Loader, later edits of the heap", "why_tests_cant": "tests compare the result with the expected value; sharing between the argument and the result, or between two results, shows only when one of them is edited later", "anchors": ["typedload/dataloader.py: Loader.load", "typedload/dataloader.py: _anyload", "typedload/dataloader.py: _iterload", "typedload/dataloader.py: _dictload", "typedload/dataloader.py: _mangle_names", "typedload/dataloader.py: _objloader", "typedload/dataloader.py: _dataclassload", "typedload/dataloader.py: _enumload"]}
{"id": "C60", "title": "the work of a load is proportional to the size of the data, unless the type recurses through a Dict or two members of a Union", "statement": "For every type whose definition does not lead back to itself there is a constant K such that any load into it, of any value, by a Loader in any state, whether it succeeds or fails, calls at most K times (number of objects and characters in the value) handler functions. The same holds for recursive types whose recursion goes through the fields of objects and not through a Dict, the values of an Enum or two members of one Union, like trees and linked lists. For the other recursive types this fails: with a class Tree whose field is Dict[str, Tree], a document of size 13*d+1 which is refused takes at least 2^d calls, because the loading of a dictionary is repeated when an item fails, at every level (C60_refuted); with classes A and B which both have a field of the type Union[A, B, None], a document of size 6*d+1 which is accepted takes at least 2^d calls, because the member which is tried first is refused late at every level (C60_refuted_union).", "quantifier": "all types which are not recursive or recursive as described, all values, all states of the Loader, all settings with the default handlers, both outcomes", "why_tests_cant": "performance tests measure a few documents which are loaded successfully; a bound for every document, including refused ones, needs a count of the calls along every execution", "anchors": ["/repo/typedload/dataloader.py: Loader.load, _dictload (lines 406-420), _unionload, _enumload, _iterload, _tupleload, _objloader"]}
{"id": "C61", "title": "the work of a dump is proportional to the size of the value", "statement": "dump calls at most one handler function for each object contained in the dumped value (an object which is at two places counts twice), whether the value is dumped or refused, for every Dumper with the default handlers, every history of that Dumper, every annotated type and every setting; in particular there is no exponential behaviour as there is for load (C60).", "quantifier": "all classes with distinct field names, all sets of basic types and strconstructed types, all settings of the Dumper, all sequences of previous dumps, all Python values of any depth and all annotations", "why_tests_cant": "a test measures the number of calls for some values; that no value, nesting of classes, or state of the caches makes some part be dumped twice (or an exponential number of times) needs induction over all values", "anchors": ["typedload/datadumper.py: Dumper.dump", "typedload/datadumper.py: _attrdump, _namedtupledump, _dataclassdump, _iteratordump", "typedload/datadumper.py: Dumper.__init__ (handlers for Enum and dict)"]}
{"id": "C62", "title": "The text of an exception shows every nested exception and where it is", "statement": "str(e) consists of the message and the path of e, followed, in order and indented by their depth, by the message and the path of every exception nested in it (the alternatives tried by a Union or an Enum); white space at the very end is removed. The paths of the exceptions nested directly in e start at the root of the loaded data. For every nested exception, at any depth, the traces do say where it is: following them from the root, through an alternative where a type has some, leads to the value and type it reports. (The text does not: from the second level on, the path it shows starts at the enclosing alternative instead of the root.)", "quantifier": "all exceptions with any nesting; for the places all standard Loaders in any state, all values, types and failing loads", "why_tests_cant": "The nesting of exceptions follows the nesting of unions in the type and of values in the data, both unbounded; tests look at one level.", "anchors": ["typedload/exceptions.py: TypedloadException._path, _subexceptions, _firstline, __str__", "typedload/dataloader.py: _unionload, _enumload", "docs/errors.md"]}
{"id": "C63", "title": "Fields with a default can be added to the classes", "statement": "A new version of a program adds fields with a default to its dataclasses and attrs classes. Data which the old version accepted, and which do not use the names of the new fields as keys, are still accepted by the new version, for every type in which the changed classes occur, at any depth. The result is the same as before, except that the objects of the changed classes have the new fields, with their defaults. (Namespaces are excluded when a new field has a name in its metadata, because those are never accepted, see C37; with unions it is required that the new classes still leave no choice, see C44.)", "quantifier": "all programs and sets of added fields, all values and types, all standard Loaders with any settings and history, before and after", "why_tests_cant": "The classes, the fields which are added and the places where the classes occur in types are arbitrary; a test has two versions of one class.", "anchors": ["typedload/dataloader.py: _objloader, _dataclassload, _attrload, _unionload", "docs/examples.md (Optional values, Unions)"]}
{"id": "C64", "title": "What has been loaded can be dumped and loaded again", "statement": "A data model is a type whose classes are declared in the usual way: the defaults of the fields are values of their types, constructors, converters and __post_init__ do not change the fields, the loader and the dumper use the same names, Enums have JSON values, the objects of the standard library can be written and read, and the data of the members of each union are told apart, by a discriminator which is always written or because they have different forms. This is a condition on the declarations only. Then every JSON document which load accepts for the type gives a value which dump accepts, on any Dumper, with only one result; and loading that result gives the same value again, on the same Loader and on any other which knows the names. (If the discriminator has a default, which the dumper omits, the value comes back as an object of another class, without an error.)", "quantifier": "all programs, data models and JSON documents; all standard Loaders and Dumpers with any history", "why_tests_cant": "The data model and the document are arbitrary, both of any size and depth; the claim is about everything which load accepts, including defaults, conversions and choices in unions which nobody wrote as an expected value.", "anchors": ["typedload/dataloader.py: Loader.load, _unionload, _objloader, _iterload, _dictload, _enumload", "typedload/datadumper.py: Dumper.dump, _dataclassdump, _attrdump, _namedtupledump", "docs/origin_story.md", "docs/examples.md"]}
{"id": "C65", "title": "Annotations can be widened", "statement": "A new version of a program replaces annotations by wider ones: X becomes Optional[X] or a Union with X, a Union gets more members, a Literal gets more values, X becomes Any where nothing was converted, also inside List, Set, Dict, Tuple and NewType; and required fields get a default. Data which the old version accepted are accepted by the new one, with the same result, if the new unions leave no choice and no member of them raises something else than a TypedloadException. (Values of a basic type which becomes a member of the union must not have been converted before: None was accepted by str, as \"None\"; True was kept in List[int], and is 1 in List[Optional[int]].)", "quantifier": "all programs, widenings of them, types and data; all standard Loaders with any history and equal settings", "why_tests_cant": "Compatibility with all the data which were ever accepted cannot be tested: the program, the widening and the data are arbitrary.", "anchors": ["typedload/dataloader.py: Loader.load, _unionload, _literalload, _objloader, _iterload, _dictload", "docs/examples.md"]}
{"id": "C66", "title": "Optional[T] is T or None", "statement": "Loading None into Optional[T] gives None. Loading any other value into Optional[T] gives what loading it into T gives, whatever the order of T and None in the union and whether or not uniondebugconflict is set; what T refuses, Optional[T] refuses, with a TypedloadValueError with the reasons of both members. (T must raise only TypedloadExceptions.)", "quantifier": "all programs, types T, values and standard Loaders with any history", "why_tests_cant": "Optional goes through the machinery for unions: sorting of the members, pass-through of basic types, discriminators, uniondebugconflict. That none of them matters for Optional is a claim about all types and data.", "anchors": ["typedload/dataloader.py: _unionload", "typedload/typechecks.py: is_union, uniontypes"]}
{"id": "C67", "title": "Old versions read what new versions read", "statement": "A new version of a program has more fields in some of its dataclasses and attrs classes, with or without defaults. Data which the new version accepts are accepted by the old one, if failonextra is not set, and the result is the same object without the new fields, at every depth. The items of sets and the keys of dictionaries must not be objects with new fields (without them two of them can be equal), and unions must leave no choice to the old version.", "quantifier": "all programs, older versions of them, types and data; all standard Loaders with any history and equal settings", "why_tests_cant": "A rollback meets all the data which were written in the meantime: the program, its fields and the data are arbitrary.", "anchors": ["typedload/dataloader.py: _objloader, _dataclassload, _attrload, _namedtupleload, Loader.failonextra", "docs/examples.md"]}
{"id": "C68", "title": "The order of the keys in the data does not matter", "statement": "Two pieces of data which differ only in the order of the items of their dictionaries (or the attributes of their Namespaces), at any depth, are both accepted or both rejected, and the results are equal: they differ at most in the order of the keys of the resulting dictionaries. The conditions: no dictionary is passed to a constructor which shows the order (a cast to str), and different keys of a dictionary are read as different keys (of \"1\" and 1, read as int, the last one counts).", "quantifier": "all programs, types, data and reorderings of them at any depth; all standard Loaders with any history", "why_tests_cant": "The members of a JSON object have no order, so another serializer may write them in any of the n! orders, at every level of the data.", "anchors": ["typedload/dataloader.py: _dictload, _objloader, _namedtupleload, _dataclassload, _typeddictload, _unionload", "docs/comparisons.md"]}
{"id": "C69", "title": "Loading again changes nothing", "statement": "What load returned can be loaded again into the same type, by this or another Loader with the same settings, and the result is the same value: load is idempotent, so data can be validated twice. This holds for the types without dates and without dataclasses, attrs classes and NamedTuples, at any depth (load refuses instances of those).", "quantifier": "all programs, data, and types without dates and object classes (TypedDict are allowed); all standard Loaders with any history", "why_tests_cant": "It is about the composition of two loads for all types and data, including casts, sets and dictionaries with equal items, Enums and unions.", "anchors": ["typedload/dataloader.py: _basicload, _iterload, _tupleload, _dictload, _enumload, _unionload, _typeddictload, _strconstructload"]}
{"id": "C70", "title": "What an error says is true", "statement": "The description of every exception of a load, and of the exceptions inside of it at any depth, is a true statement about the value and the type which the exception carries: the fields it calls missing are all the required fields which the data do not have, the keys it calls unrecognized are all the unknown keys, the value is really too short or too long, not one of the literals, not a value of the Enum (and then the values listed are all the values), of the wrong type, not None, not loadable by name because the name is unknown, and so on. The class of the exception (ValueError, TypeError) is the one which belongs to the description.", "quantifier": "all programs, values and types, all standard Loaders with any settings and history, all nested exceptions, all ways in which Python prints values, types and the order of sets", "why_tests_cant": "Tests compare the text of the errors of some wrong values; that the text is never misleading is about every error of every load, including the nested ones, and about orders of sets which differ between runs.", "anchors": ["typedload/helpers.py: tname", "typedload/exceptions.py: TypedloadException", "typedload/dataloader.py: load, _forwardrefload, _literalload, _basicload, _dictload, _tupleload, _mangle_names, _objloader, _unionload, _enumload, _noneload, _iterload"]}
{"id": "C71", "title": "Unrelated classes have no influence", "statement": "The outcome of load(v, t) depends only on the classes which t mentions, directly or through their fields: every other class of the program can be added, removed or changed (fields, defaults, annotations, enum members, constructors) without changing the result, the exception, or what the Loader remembers. The outcome of dump(v) depends only on the classes of the objects inside v, whatever was dumped before.", "quantifier": "all pairs of programs which agree about the types met, all values and types, all standard Loaders and Dumpers with any settings and histories", "why_tests_cant": "A test runs in one program; that nothing outside of the types involved matters is about all the programs which contain them.", "anchors": ["typedload/dataloader.py: load, index, _unionload, _objloader, _dataclassload, _typeddictload, _enumload", "typedload/datadumper.py: dump, index, _dataclassdump, _attrdump"]}
{"id": "C72", "title": "New fields which have their default do not appear in the dump", "statement": "With hidedefault (the default), when fields with constant defaults are added to dataclasses and attrs classes, the objects in which the new fields have the default are dumped as they were before the change, whatever surrounds them and whatever was dumped before: a new version of the program still writes data which the old version reads.", "quantifier": "all pairs of programs of which one has additional fields with defaults in any classes, all values of the old program, all standard Dumpers with the same settings and hidedefault, and any histories", "why_tests_cant": "The claim relates two programs and ranges over all the class tables and all the nested values.", "anchors": ["typedload/datadumper.py: _dataclassdump, _attrdump, _namedtupledump, _iteratordump, dump"]}
{"id": "C73", "title": "Custom handlers can use the Loader and the Dumper", "statement": "load(v, t) for a type with a custom handler gives exactly what the handler makes of v and t: each load the handler asks for behaves as the same load called from outside at that moment, with the given annotation in the trace of the exceptions, which the handler can catch; an exception which the handler lets through gets the position of the handler in front; exceptions which are not from the library become AssertionErrors. Likewise for dump.", "quantifier": "all custom handlers, whatever sequence of loads or dumps they ask for and however they react to the outcomes, at any place of the handlers list, all settings, values, types and histories", "why_tests_cant": "Handlers are arbitrary programs supplied by the user; a test contains one of them.", "anchors": ["typedload/dataloader.py: load, handlers, index", "typedload/datadumper.py: dump, handlers, index", "typedload/exceptions.py: TraceItem, Annotation"]}
{"id": "C74", "title": "The annotation of an attrs field with a converter is ignored", "statement": "A field of an attrs class which has a converter is loaded with the type of the parameter of the converter (Any when the converter has no type hints): two programs which differ only in the annotations of such fields load every document with the same outcome and the same effect on the Loader, and dump every value identically. Exception: Literal annotations still order the alternatives of a Union.", "quantifier": "all pairs of programs which differ in the annotations of fields with converters in any classes, all types, values, settings and histories", "why_tests_cant": "The claim relates two programs for all annotations, class tables, documents and histories; and the annotation is present in several places of a class from which a code path could read it.", "anchors": ["typedload/dataloader.py: _attrload, _get_attr_converter_type, _unionload", "typedload/typechecks.py: discriminatorliterals", "typedload/datadumper.py: _attrdump"]}
{"id": "C75", "title": "The first error is the one reported", "statement": "When loading a List, Tuple, Set, FrozenSet, a tuple of fixed size, a Dict or an object (dataclass, attrs, NamedTuple, TypedDict) fails, the exception is the exception of the first item (for a Dict: of the first pair, the key before the value; for objects: of the first field in the order of the data, not of the class) which cannot be loaded, with its position in the trace; everything before it loads; and the load fails with that exception whenever there is such an item. The constructor of an object is called only when all the fields are loaded. Exceptions: a TypedloadAttributeError inside a Dict loses its position.", "quantifier": "all item types, all lists of items and all dictionaries of fields of any size, all positions of the first bad item, all class tables, settings and histories", "why_tests_cant": "The claim is an equivalence about all lists and all positions of the first bad item, with arbitrary bad items after it, for all types and classes.", "anchors": ["typedload/dataloader.py: _iterload, _dictload, _tupleload, _objloader, _namedtupleload, _typeddictload, _attrload, _dataclassload"]}

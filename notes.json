{
 "C01": {
  "note": "C01_conforms proves the claim with the exception stated in it (line 396); C01_refuted is the counterexample which makes the exception necessary. Forward names must have one meaning."
 },
 "C02": {
  "note": "Full equivalence, for any used loader."
 },
 "C03": {
  "note": "Identity for every value outside the three excluded shapes; C03_documents is the case of JSON documents; C03_refuted shows that strings are converted by List."
 },
 "C04": {
  "note": "Equivalences for any used loader. `in` is modelled with == only (no object has a custom __eq__)."
 },
 "C05": {
  "note": "Full equivalence."
 },
 "C06": {
  "note": "Needs resolvable annotations and distinct external names, as the claim says. C06_refuted_classvar: ClassVar annotations count as fields."
 },
 "C07": {
  "note": "C07_refuted: keys which are not strings. C07_refuted_classvar."
 },
 "C08": {
  "note": "C08_given is stronger: only what is under the external names matters, in any position."
 },
 "C09": {
  "note": "Equivalence for a steady loader (see steady in DESIGN.md); C09_wrong_length for any used loader."
 },
 "C10": {
  "note": "Equivalences for a steady loader, plus the positional form, for item types which never raise StopIteration (never_stops); C10_refuted: without that, items are dropped silently."
 },
 "C11": {
  "note": "Any used loader, any arguments, Tuple[()] included."
 },
 "C12": {
  "note": "Full equivalence, any used loader."
 },
 "C13": {
  "note": "Steady loader. The preference for non basic members needs that basic types have no annotations of their own (true of all builtins)."
 },
 "C14": {
  "note": "Under the hypothesis that each member ends with a value or a TypedloadException; two counterexamples show it is needed."
 },
 "C15": {
  "note": "Same hypothesis as C14; C15_refuted for nested unions."
 },
 "C16": {
  "note": "C16_tagged: what a successful load is; C16_iff: it succeeds exactly when loading into the selected class does (uniondebugconflict off, members as in C14)."
 },
 "C17": {
  "note": "The hazards of Vocab.v are excluded; C17_refuted shows each kind of hazard does raise something else."
 },
 "C18": {
  "note": "Full for supported types; C18_refuted, C18_refuted_dict are the two exceptions stated in the claim; C18_refuted_key shows that the trace does not tell under which key of a Dict the wrong value is."
 },
 "C19": {
  "note": "C19_exact is the exact condition; C19_refuted the Enum counterexample."
 },
 "C20": {
  "note": "Four counterexamples correspond to the hypotheses. The cache of discriminators compares unions as Python does, whatever the order of the members; plain_tags excludes the unions for which the order matters."
 },
 "C21": {
  "note": "Any list of handlers, custom ones included."
 },
 "C22": {
  "note": "Non recursive type: reachability from it is well founded."
 },
 "C23": {
  "note": "Recursion through fields and Dict; C23_refuted: recursion through List/Union only, on a string."
 },
 "C24": {
  "note": "Needs distinct external names."
 },
 "C25": {
  "note": "C25_refuted for the two hypotheses."
 },
 "C26": {
  "note": "C26_refuted: a takes_self factory makes the dump crash."
 },
 "C27": {
  "note": "Fragment defined in Vocab.v (ser); C27_refuted gives the four counterexamples outside of it. C27_refuted_classvar."
 },
 "C28": {
  "note": "Depth of the value bounds the recursion."
 },
 "C29": {
  "note": "Any history of dumps with the same settings."
 },
 "C30": {
  "note": "Identity and idempotence."
 },
 "C31": {
  "note": "Any list of handlers. The class of the exception of dump is as stated for every value which is not a tuple of length other than one; for those tuples the value is refused too, but with a bare TypeError (C31_refuted)."
 },
 "C32": {
  "note": "Any list of handlers, custom handlers included."
 },
 "C33": {
  "note": "C33_default (Properties11.v): no default condition raises, so the option has no effect on the default handlers."
 },
 "C34": {
  "note": "Any used loader when a member has the value, steady loader for the hints."
 },
 "C35": {
  "note": "C35_newtype also says which exception is raised."
 },
 "C36": {
  "note": "TypedDict classes already rewritten by the process are part of the state (st_stripped)."
 },
 "C37": {
  "note": "C37_renamed / C37_refuted: with renamed fields a Namespace is always refused."
 },
 "C38": {
  "note": "Sets are lists without duplicates; the order of iteration of a set is not modelled. Item types never raise StopIteration (see C10_refuted)."
 },
 "C39": {
  "note": "Keys of the data must be hashable; in C39_items the part about the last value is for keys without NaN and objects (plain_key)."
 },
 "C40": {
  "note": "The text is that of _path, for every trace."
 },
 "C41": {
  "note": "Also for custom handlers which call load."
 },
 "C42": {
  "note": "For classes which are of one sort only."
 },
 "C43": {
  "note": "The reference semantics `gives` is in Reference.v; it uses neither the handlers nor the state. gv_dict_396 is the rule of the defect, dropped for a steady loader (C43_steady). The types involved never raise StopIteration (never_stops, see C10_refuted)."
 },
 "C44": {
  "note": "Completeness under the condition clear (one reading at each choice); without it load commits to one of the readings."
 },
 "C45": {
  "note": "Corollary of C43/C44."
 },
 "C46": {
  "note": "Corollary of C43/C44 and monotonicity of the rules."
 },
 "C47": {
  "note": "Threads interleave at handler-call boundaries; dictionary operations are atomic. C47_refuted: the race between lines 290 and 296."
 },
 "C48": {
  "note": "The functions of typedload/__init__.py, with the state of the process."
 },
 "C49": {
  "note": "Any list of handlers on one side, the default ones on the other."
 },
 "C50": {
  "note": "C50_blame: any used loader, the state after the load; C50_same/C50_path: a steady loader, its own state. Excluded: Dict value types affected by the defect of line 396 (C01_refuted)."
 },
 "C51": {
  "note": "Dataclass, attrs, NamedTuple objects: C26. Unsupported objects: C31_dump."
 },
 "C52": {
  "note": "C52_refuted: a condition which looks at more than the class of the object is evaluated only for the first object of the class (cache of datadumper.py 189-192)."
 },
 "C53": {
  "note": "All other theorems on used loaders/dumpers also include such changes in the history (used_set, dhistory_set). C53_refuted: mangle_key and handlers of a Loader."
 },
 "C54": {
  "note": "Threads interleave at handler-call boundaries; dictionary operations are atomic. Any handlers selected by the class of the object (C54_threads_any)."
 },
 "C55": {
  "note": "typed (Schema.v) mentions neither states nor the loader. Assumes uniondebugconflict = False (with it on, C27 applies). The class of a forward reference is given by env."
 },
 "C56": {
  "note": "Failures are failures of whole handler calls; Python functions called inside a handler (isinstance, constructors) do not fail on their own. For dumps any handlers selected by class which do not catch (C56_dump_any). The injected exceptions are not StopIteration, which ends iterations silently (C10_refuted)."
 },
 "C58": {
  "note": "The seed decides set.pop() of the discriminator keys and the iteration of the set of field names of a loaded (line 511) and of a dumped dataclass. C58_load and C58_processes need different names outside for the fields of each dataclass (C58_refuted_names: without that it is false). The order of the elements of Python sets in the data is part of the value."
 },
 "C57": {
  "note": "The heap model of the default handlers (HDumper.v) is proved to compute what the tree model of Dumper.v computes, with the same caches. argparse.Namespace and user handlers are not in the heap model; objects of the str-constructed classes and dates are scalars."
 },
 "C59": {
  "note": "The heap model of the default handlers (HLoader.v) is proved to compute what the tree model of Loader.v computes, with the same caches. Conditions and comparisons read the whole object; results of library functions, factories and converters are new objects except for enum members (fields which a converter leaves equal are the same objects). distinct_arguments: the arguments of the constructor of each class have different names. User handlers are not in the heap model."
 },
 "C60": {
  "note": "Calls are counted by an instrumented copy of the interpreter which marks the state at every call; C60_counted: a load ends with r iff the instrumented one does, and the number of calls is unique. The time of one call outside of other handlers (hashing, constructors, building messages) is not counted. C60_linear covers types which are not recursive, C60_linear_recursive those which recurse through objects only; for the rest the property is false of the code: C60_refuted, C60_refuted_union."
 },
 "C61": {
  "note": "C61_counted: counting the calls changes nothing and every dump which ends has exactly one number of calls. C61_linear: with the default handlers every dump ends, with at most one call per object of the value. Calls of handlers are the measure: the work inside of one call (copying a list of basic types, comparing with a default) is not counted, and an object shared by two places counts twice."
 },
 "C62": {
  "note": "C62_lines: the lines of the text, for every nesting. C62_text: with one level the paths start at the root. C62_single: an exception without nested ones. C62_places: the places in the data of nested exceptions, at any depth. C62_refuted: the path at the second level in the text is not the path from the root."
 },
 "C63": {
  "note": "C63_upgrade for all types; C63_plain when there is nothing to try (no unions, no annotated Enum); C63_ex: recursive class, attrs class and factories."
 },
 "C64": {
  "note": "C64_typed: what is loaded from a document is a value of the data model (`typed`, the condition of C55), C64_again: dump and load again; C64_forms and C64_tags: the condition on unions follows from the declarations of the members; C64_refuted_tag: a discriminator with a default. C64_ex: a data model with 18 kinds of annotations."
 },
 "C65": {
  "note": "C65_wider; C65_optionals: without conditions about choices when all the unions are Optionals; C65_rule_optional: when X can become Optional[X]; C65_refuted: the conditions are needed. C65_ex: a recursive class whose two annotations are widened."
 },
 "C66": {
  "note": "C66_none, C66_value (equivalence), C66_refused; C66_ex with a recursive class; C66_ex_raw shows that other exceptions get through."
 },
 "C67": {
  "note": "C67_rollback; C67_plain: without conditions about choices when there are no unions. C67_ex: a recursive class; C67_ex_plain: a dictionary of objects; C67_refuted_extra and C67_refuted_set: the conditions are needed."
 },
 "C68": {
  "note": "C68_key_order; C68_accepted: the same for acceptance, in both directions; C68_json: with conditions which are easy to check for JSON data. C68_ex: a dictionary of objects, loaders with different histories; C68_refuted_keys and C68_refuted_cast: the conditions are needed."
 },
 "C69": {
  "note": "C69_again; C69_plain: without conditions about choices when there are no unions. C69_ex: a tuple of a dictionary of lists of TypedDict, a set and an Enum; C69_refuted_object and C69_refuted_date: the conditions are needed."
 },
 "C70": {
  "note": "C70_true: all the exceptions; C70_missing: which data give the text about missing fields, and with which names. C70_ex, C70_missing_ex: concrete errors. C70_refuted_names: the text about missing fields names the attributes and not the names which the data must have, and following it does not help; C70_refuted_key: a member of a Union is called a key."
 },
 "C71": {
  "note": "C71_load: the same state in the two programs, outcome and new state; C71_loaders: Loaders with different histories; C71_dump. C71_ex, C71_dump_ex: two programs which differ for other classes. Hypotheses: the programs agree which objects are hashable and which are instances of basic types; no other class with the same name as a ForwardRef is registered (C20_refuted_names)."
 },
 "C72": {
  "note": "C72_dump; C72_ex on values with a dataclass and an attrs class which get fields. C72_refuted_shown: without hidedefault the new fields appear. Hypotheses: field names, and external names, are distinct (otherwise two fields overwrite each other); the annotation List[basic] of a field holds (the shortcut of _iteratordump); new fields are not given by a NamedTuple (its fields are positional)."
 },
 "C73": {
  "note": "C73_callback: load with a custom handler is equivalent to the run of its program, stated with ends (= load called from outside); C73_delegate: outcome and exact trace of a handler which asks for another load; C73_dump for dumpers whose handlers select by class (C52). C73_ex: a handler for a dataclass which loads a pair, with an annotation. Handlers are modelled as finite programs of load calls with arbitrary continuations; they do not change the Loader themselves."
 },
 "C74": {
  "note": "C74_load (outcome and state), C74_dump; C74_ex: List of a class whose annotations become a recursive type and an unknown name. C74_refuted_literal: an annotation Literal of a field with a converter still decides which alternative of a Union is taken, although the documentation says that it is completely ignored. Hypotheses: the class is not the type of the keys of a Dict (line 396); forward references as in C71."
 },
 "C75": {
  "note": "C75_list, C75_tuple, C75_set (with the results which are not hashable), C75_fixed, C75_object, C75_dict: equivalences between the exception of the whole and the exception of the first bad part. C75_rest, C75_rest_object: nothing about what comes after the bad item or field matters, it may not even end loading (C75_ex_rest). C75_ex: a list with two bad items; C75_ex_object: two bad fields with mangled names, in the other order than those of the class. Hypotheses: loading an item ends, and fails with nothing but a TypedloadException (C17, C22); for objects no required field is missing and no key is unknown (C06, C07); C75_dict: the first pair in the order of the data, the key before the value; the position of a TypedloadAttributeError inside a dictionary is lost (C18_refuted_dict), C75_ex_dict."
 }
}
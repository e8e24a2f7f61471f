{
 "claims": [
  {
   "property": "C01",
   "status": "proved",
   "theorems": [
    "C01_conforms",
    "C01_refuted"
   ],
   "note": "C01_conforms proves the claim with the exception stated in it (line 396); C01_refuted is the counterexample which makes the exception necessary. Forward names must have one meaning."
  },
  {
   "property": "C02",
   "status": "proved",
   "theorems": [
    "C02_no_cast"
   ],
   "note": "Full equivalence, for any used loader."
  },
  {
   "property": "C03",
   "status": "proved",
   "theorems": [
    "C03_identity",
    "C03_documents",
    "C03_refuted"
   ],
   "note": "Identity for every value outside the three excluded shapes; C03_documents is the case of JSON documents; C03_refuted shows that strings are converted by List."
  },
  {
   "property": "C04",
   "status": "proved",
   "theorems": [
    "C04_any",
    "C04_literal"
   ],
   "note": "Equivalences for any used loader. `in` is modelled with == only (no object has a custom __eq__)."
  },
  {
   "property": "C05",
   "status": "proved",
   "theorems": [
    "C05_none"
   ],
   "note": "Full equivalence."
  },
  {
   "property": "C06",
   "status": "proved",
   "theorems": [
    "C06_refuted_classvar",
    "C06_missing",
    "C06_present"
   ],
   "note": "Needs resolvable annotations and distinct external names, as the claim says. C06_refuted_classvar: ClassVar annotations count as fields."
  },
  {
   "property": "C07",
   "status": "proved",
   "theorems": [
    "C07_refuted_classvar",
    "C07_extra",
    "C07_refuted"
   ],
   "note": "C07_refuted: keys which are not strings. C07_refuted_classvar."
  },
  {
   "property": "C08",
   "status": "proved",
   "theorems": [
    "C08_drop",
    "C08_given"
   ],
   "note": "C08_given is stronger: only what is under the external names matters, in any position."
  },
  {
   "property": "C09",
   "status": "proved",
   "theorems": [
    "C09_fixed_tuple",
    "C09_arity",
    "C09_wrong_length"
   ],
   "note": "Equivalence for a steady loader (see steady in DESIGN.md); C09_wrong_length for any used loader."
  },
  {
   "property": "C10",
   "status": "proved",
   "theorems": [
    "C10_list",
    "C10_tuple",
    "C10_positions",
    "C10_refuted"
   ],
   "note": "Equivalences for a steady loader, plus the positional form, for item types which never raise StopIteration (never_stops); C10_refuted: without that, items are dropped silently."
  },
  {
   "property": "C11",
   "status": "proved",
   "theorems": [
    "C11_dict_not_iterable"
   ],
   "note": "Any used loader, any arguments, Tuple[()] included."
  },
  {
   "property": "C12",
   "status": "proved",
   "theorems": [
    "C12_union_passthrough"
   ],
   "note": "Full equivalence, any used loader."
  },
  {
   "property": "C13",
   "status": "proved",
   "theorems": [
    "C13_member"
   ],
   "note": "Steady loader. The preference for non basic members needs that basic types have no annotations of their own (true of all builtins)."
  },
  {
   "property": "C14",
   "status": "proved",
   "theorems": [
    "C14_accepts",
    "C14_refuses",
    "C14_refuted",
    "C14_refuted_tag"
   ],
   "note": "Under the hypothesis that each member ends with a value or a TypedloadException; two counterexamples show it is needed."
  },
  {
   "property": "C15",
   "status": "proved",
   "theorems": [
    "C15_one",
    "C15_two",
    "C15_same",
    "C15_refuted"
   ],
   "note": "Same hypothesis as C14; C15_refuted for nested unions."
  },
  {
   "property": "C16",
   "status": "proved",
   "theorems": [
    "C16_tagged",
    "C16_iff"
   ],
   "note": "C16_tagged: what a successful load is; C16_iff: it succeeds exactly when loading into the selected class does (uniondebugconflict off, members as in C14)."
  },
  {
   "property": "C17",
   "status": "proved",
   "theorems": [
    "C17_typed",
    "C17_refuted"
   ],
   "note": "The hazards of Vocab.v are excluded; C17_refuted shows each kind of hazard does raise something else."
  },
  {
   "property": "C18",
   "status": "proved",
   "theorems": [
    "C18_trace",
    "C18_path",
    "C18_refuted",
    "C18_refuted_dict",
    "C18_refuted_key"
   ],
   "note": "Full for supported types; C18_refuted, C18_refuted_dict are the two exceptions stated in the claim; C18_refuted_key shows that the trace does not tell under which key of a Dict the wrong value is."
  },
  {
   "property": "C19",
   "status": "proved",
   "theorems": [
    "C19_renders",
    "C19_exact",
    "C19_refuted"
   ],
   "note": "C19_exact is the exact condition; C19_refuted the Enum counterexample."
  },
  {
   "property": "C20",
   "status": "proved",
   "theorems": [
    "C20_any_two_loaders",
    "C20_as_fresh",
    "C20_later",
    "C20_refuted_dict",
    "C20_refuted_names",
    "C20_refuted_tag",
    "C20_refuted_order"
   ],
   "note": "Four counterexamples correspond to the hypotheses. The cache of discriminators compares unions as Python does, whatever the order of the members; plain_tags excludes the unions for which the order matters."
  },
  {
   "property": "C21",
   "status": "proved",
   "theorems": [
    "C21_names",
    "C21_names_unique",
    "C21_handlers",
    "C21_disabled"
   ],
   "note": "Any list of handlers, custom ones included."
  },
  {
   "property": "C22",
   "status": "proved",
   "theorems": [
    "C22_terminates"
   ],
   "note": "Non recursive type: reachability from it is well founded."
  },
  {
   "property": "C23",
   "status": "proved",
   "theorems": [
    "C23_terminates",
    "C23_refuted"
   ],
   "note": "Recursion through fields and Dict; C23_refuted: recursion through List/Union only, on a string."
  },
  {
   "property": "C24",
   "status": "proved",
   "theorems": [
    "C24_fields",
    "C24_loads_iff",
    "C24_python_name_ignored",
    "C24_python_name_refused"
   ],
   "note": "Needs distinct external names."
  },
  {
   "property": "C25",
   "status": "proved",
   "theorems": [
    "C25_shape",
    "C25_refuted"
   ],
   "note": "C25_refuted for the two hypotheses."
  },
  {
   "property": "C26",
   "status": "proved",
   "theorems": [
    "C26_fields",
    "C26_order",
    "C26_all",
    "C26_refuted"
   ],
   "note": "C26_refuted: a takes_self factory makes the dump crash."
  },
  {
   "property": "C27",
   "status": "proved",
   "theorems": [
    "C27_refuted_classvar",
    "C27_round_trip",
    "C27_any_loader",
    "C27_refuted"
   ],
   "note": "Fragment defined in Vocab.v (ser); C27_refuted gives the four counterexamples outside of it. C27_refuted_classvar."
  },
  {
   "property": "C28",
   "status": "proved",
   "theorems": [
    "C28_terminates"
   ],
   "note": "Depth of the value bounds the recursion."
  },
  {
   "property": "C29",
   "status": "proved",
   "theorems": [
    "C29_reuse"
   ],
   "note": "Any history of dumps with the same settings."
  },
  {
   "property": "C30",
   "status": "proved",
   "theorems": [
    "C30_identity",
    "C30_idempotent"
   ],
   "note": "Identity and idempotence."
  },
  {
   "property": "C31",
   "status": "proved",
   "theorems": [
    "C31_load",
    "C31_dump",
    "C31_dump_any",
    "C31_refuted"
   ],
   "note": "Any list of handlers. The class of the exception of dump is as stated for every value which is not a tuple of length other than one; for those tuples the value is refused too, but with a bare TypeError (C31_refuted)."
  },
  {
   "property": "C32",
   "status": "proved",
   "theorems": [
    "C32_index",
    "C32_dump_index",
    "C32_insert_other",
    "C32_insert_match",
    "C32_append",
    "C32_used",
    "C32_custom"
   ],
   "note": "Any list of handlers, custom handlers included."
  },
  {
   "property": "C33",
   "status": "proved",
   "theorems": [
    "C33_quiet",
    "C33_never_raises",
    "C33_loud",
    "C33_default"
   ],
   "note": "C33_default (Properties11.v): no default condition raises, so the option has no effect on the default handlers."
  },
  {
   "property": "C34",
   "status": "proved",
   "theorems": [
    "C34_value",
    "C34_hint",
    "C34_refuse",
    "C34_result"
   ],
   "note": "Any used loader when a member has the value, steady loader for the hints."
  },
  {
   "property": "C35",
   "status": "proved",
   "theorems": [
    "C35_newtype",
    "C35_value"
   ],
   "note": "C35_newtype also says which exception is raised."
  },
  {
   "property": "C36",
   "status": "proved",
   "theorems": [
    "C36_typeddict",
    "C36_required"
   ],
   "note": "TypedDict classes already rewritten by the process are part of the state (st_stripped)."
  },
  {
   "property": "C37",
   "status": "proved",
   "theorems": [
    "C37_object",
    "C37_object_off",
    "C37_renamed",
    "C37_dict",
    "C37_dict_off",
    "C37_refuted"
   ],
   "note": "C37_renamed / C37_refuted: with renamed fields a Namespace is always refused."
  },
  {
   "property": "C38",
   "status": "proved",
   "theorems": [
    "C38_set",
    "C38_distinct"
   ],
   "note": "Sets are lists without duplicates; the order of iteration of a set is not modelled. Item types never raise StopIteration (see C10_refuted)."
  },
  {
   "property": "C39",
   "status": "proved",
   "theorems": [
    "C39_dict",
    "C39_items"
   ],
   "note": "Keys of the data must be hashable; in C39_items the part about the last value is for keys without NaN and objects (plain_key)."
  },
  {
   "property": "C40",
   "status": "proved",
   "theorems": [
    "C40_path",
    "C40_items",
    "C40_text"
   ],
   "note": "The text is that of _path, for every trace."
  },
  {
   "property": "C41",
   "status": "proved",
   "theorems": [
    "C41_load",
    "C41_dump"
   ],
   "note": "Also for custom handlers which call load."
  },
  {
   "property": "C42",
   "status": "proved",
   "theorems": [
    "C42_generic",
    "C42_class",
    "C42_special",
    "C42_none",
    "C42_selected"
   ],
   "note": "For classes which are of one sort only."
  },
  {
   "property": "C43",
   "status": "proved",
   "theorems": [
    "C43_sound",
    "C43_steady",
    "C43_mismatch"
   ],
   "note": "The reference semantics `gives` is in Reference.v; it uses neither the handlers nor the state. gv_dict_396 is the rule of the defect, dropped for a steady loader (C43_steady). The types involved never raise StopIteration (never_stops, see C10_refuted)."
  },
  {
   "property": "C44",
   "status": "proved",
   "theorems": [
    "C44_exact",
    "C44_one_reading"
   ],
   "note": "Completeness under the condition clear (one reading at each choice); without it load commits to one of the readings."
  },
  {
   "property": "C45",
   "status": "proved",
   "theorems": [
    "C45_order"
   ],
   "note": "Corollary of C43/C44."
  },
  {
   "property": "C46",
   "status": "proved",
   "theorems": [
    "C46_relaxed"
   ],
   "note": "Corollary of C43/C44 and monotonicity of the rules."
  },
  {
   "property": "C47",
   "status": "proved",
   "theorems": [
    "C47_threads",
    "C47_guarantee",
    "C47_abandoned",
    "C47_refuted"
   ],
   "note": "Threads interleave at handler-call boundaries; dictionary operations are atomic. C47_refuted: the race between lines 290 and 296."
  },
  {
   "property": "C48",
   "status": "proved",
   "theorems": [
    "C48_load",
    "C48_function",
    "C48_process",
    "C48_dump"
   ],
   "note": "The functions of typedload/__init__.py, with the state of the process."
  },
  {
   "property": "C49",
   "status": "proved",
   "theorems": [
    "C49_local",
    "C49_inserted"
   ],
   "note": "Any list of handlers on one side, the default ones on the other."
  },
  {
   "property": "C50",
   "status": "proved",
   "theorems": [
    "C50_blame",
    "C50_same",
    "C50_path"
   ],
   "note": "C50_blame: any used loader, the state after the load; C50_same/C50_path: a steady loader, its own state. Excluded: Dict value types affected by the defect of line 396 (C01_refuted)."
  },
  {
   "property": "C51",
   "status": "proved",
   "theorems": [
    "C51_basic",
    "C51_items",
    "C51_items_fail",
    "C51_dict",
    "C51_enum",
    "C51_iso",
    "C51_date",
    "C51_time",
    "C51_timedelta",
    "C51_pattern",
    "C51_str"
   ],
   "note": "Dataclass, attrs, NamedTuple objects: C26. Unsupported objects: C31_dump."
  },
  {
   "property": "C52",
   "status": "proved",
   "theorems": [
    "C52_reuse",
    "C52_custom",
    "C52_items",
    "C52_local",
    "C52_inserted",
    "C52_refuted"
   ],
   "note": "C52_refuted: a condition which looks at more than the class of the object is evaluated only for the first object of the class (cache of datadumper.py 189-192)."
  },
  {
   "property": "C53",
   "status": "proved",
   "theorems": [
    "C53_load",
    "C53_dump",
    "C53_refuted"
   ],
   "note": "All other theorems on used loaders/dumpers also include such changes in the history (used_set, dhistory_set). C53_refuted: mangle_key and handlers of a Loader."
  },
  {
   "property": "C54",
   "status": "proved",
   "theorems": [
    "C54_threads",
    "C54_threads_any",
    "C54_guarantee",
    "C54_abandoned"
   ],
   "note": "Threads interleave at handler-call boundaries; dictionary operations are atomic. Any handlers selected by the class of the object (C54_threads_any)."
  },
  {
   "property": "C55",
   "status": "proved",
   "theorems": [
    "C55_round_trip",
    "C55_exchange",
    "C55_no_collision"
   ],
   "note": "typed (Schema.v) mentions neither states nor the loader. Assumes uniondebugconflict = False (with it on, C27 applies). The class of a forward reference is given by env."
  },
  {
   "property": "C56",
   "status": "proved",
   "theorems": [
    "C56_reading",
    "C56_exact",
    "C56_plain",
    "C56_after",
    "C56_limit",
    "C56_dump",
    "C56_dump_any",
    "C56_dump_after",
    "C56_refuted"
   ],
   "note": "Failures are failures of whole handler calls; Python functions called inside a handler (isinstance, constructors) do not fail on their own. For dumps any handlers selected by class which do not catch (C56_dump_any). The injected exceptions are not StopIteration, which ends iterations silently (C10_refuted)."
  },
  {
   "property": "C57",
   "status": "proved",
   "theorems": [
    "C57_unchanged",
    "C57_result",
    "C57_finishes",
    "C57_new",
    "C57_independent",
    "C57_refuted"
   ],
   "note": "The heap model of the default handlers (HDumper.v) is proved to compute what the tree model of Dumper.v computes, with the same caches. argparse.Namespace and user handlers are not in the heap model; objects of the str-constructed classes and dates are scalars."
  },
  {
   "property": "C58",
   "status": "proved",
   "theorems": [
    "C58_load",
    "C58_processes",
    "C58_exact",
    "C58_dump",
    "C58_refuted",
    "C58_refuted_names"
   ],
   "note": "The seed decides set.pop() of the discriminator keys and the iteration of the set of field names of a loaded (line 511) and of a dumped dataclass. C58_load and C58_processes need different names outside for the fields of each dataclass (C58_refuted_names: without that it is false). The order of the elements of Python sets in the data is part of the value."
  },
  {
   "property": "C59",
   "status": "proved",
   "theorems": [
    "C59_unchanged",
    "C59_result",
    "C59_finishes",
    "C59_origin",
    "C59_new",
    "C59_independent",
    "C59_twice",
    "C59_no_copies",
    "C59_members",
    "C59_refuted",
    "C59_refuted_default"
   ],
   "note": "The heap model of the default handlers (HLoader.v) is proved to compute what the tree model of Loader.v computes, with the same caches. Conditions and comparisons read the whole object; results of library functions, factories and converters are new objects except for enum members (fields which a converter leaves equal are the same objects). distinct_arguments: the arguments of the constructor of each class have different names. User handlers are not in the heap model."
  },
  {
   "property": "C60",
   "status": "proved",
   "theorems": [
    "C60_counted",
    "C60_linear",
    "C60_linear_recursive",
    "C60_refuted",
    "C60_refuted_union"
   ],
   "note": "Calls are counted by an instrumented copy of the interpreter which marks the state at every call; C60_counted: a load ends with r iff the instrumented one does, and the number of calls is unique. The time of one call outside of other handlers (hashing, constructors, building messages) is not counted. C60_linear covers types which are not recursive, C60_linear_recursive those which recurse through objects only; for the rest the property is false of the code: C60_refuted, C60_refuted_union."
  },
  {
   "property": "C61",
   "status": "proved",
   "theorems": [
    "C61_counted",
    "C61_linear"
   ],
   "note": "C61_counted: counting the calls changes nothing and every dump which ends has exactly one number of calls. C61_linear: with the default handlers every dump ends, with at most one call per object of the value. Calls of handlers are the measure: the work inside of one call (copying a list of basic types, comparing with a default) is not counted, and an object shared by two places counts twice."
  },
  {
   "property": "C62",
   "status": "proved",
   "theorems": [
    "C62_lines",
    "C62_text",
    "C62_single",
    "C62_places",
    "C62_refuted"
   ],
   "note": "C62_lines: the lines of the text, for every nesting. C62_text: with one level the paths start at the root. C62_single: an exception without nested ones. C62_places: the places in the data of nested exceptions, at any depth. C62_refuted: the path at the second level in the text is not the path from the root."
  },
  {
   "property": "C63",
   "status": "proved",
   "theorems": [
    "C63_upgrade",
    "C63_plain"
   ],
   "note": "C63_upgrade for all types; C63_plain when there is nothing to try (no unions, no annotated Enum); C63_ex: recursive class, attrs class and factories."
  },
  {
   "property": "C64",
   "status": "proved",
   "theorems": [
    "C64_typed",
    "C64_again",
    "C64_forms",
    "C64_tags",
    "C64_refuted_tag"
   ],
   "note": "C64_typed: what is loaded from a document is a value of the data model (`typed`, the condition of C55), C64_again: dump and load again; C64_forms and C64_tags: the condition on unions follows from the declarations of the members; C64_refuted_tag: a discriminator with a default. C64_ex: a data model with 18 kinds of annotations."
  },
  {
   "property": "C65",
   "status": "proved",
   "theorems": [
    "C65_wider",
    "C65_optionals",
    "C65_rule_optional",
    "C65_refuted"
   ],
   "note": "C65_wider; C65_optionals: without conditions about choices when all the unions are Optionals; C65_rule_optional: when X can become Optional[X]; C65_refuted: the conditions are needed. C65_ex: a recursive class whose two annotations are widened."
  },
  {
   "property": "C66",
   "status": "proved",
   "theorems": [
    "C66_none",
    "C66_value",
    "C66_refused"
   ],
   "note": "C66_none, C66_value (equivalence), C66_refused; C66_ex with a recursive class; C66_ex_raw shows that other exceptions get through."
  },
  {
   "property": "C67",
   "status": "proved",
   "theorems": [
    "C67_rollback",
    "C67_plain"
   ],
   "note": "C67_rollback; C67_plain: without conditions about choices when there are no unions. C67_ex: a recursive class; C67_ex_plain: a dictionary of objects; C67_refuted_extra and C67_refuted_set: the conditions are needed."
  },
  {
   "property": "C68",
   "status": "proved",
   "theorems": [
    "C68_key_order",
    "C68_accepted",
    "C68_json"
   ],
   "note": "C68_key_order; C68_accepted: the same for acceptance, in both directions; C68_json: with conditions which are easy to check for JSON data. C68_ex: a dictionary of objects, loaders with different histories; C68_refuted_keys and C68_refuted_cast: the conditions are needed."
  },
  {
   "property": "C69",
   "status": "proved",
   "theorems": [
    "C69_again",
    "C69_plain"
   ],
   "note": "C69_again; C69_plain: without conditions about choices when there are no unions. C69_ex: a tuple of a dictionary of lists of TypedDict, a set and an Enum; C69_refuted_object and C69_refuted_date: the conditions are needed."
  },
  {
   "property": "C70",
   "status": "proved",
   "theorems": [
    "C70_true",
    "C70_missing",
    "C70_refuted_names",
    "C70_refuted_key"
   ],
   "note": "C70_true: all the exceptions; C70_missing: which data give the text about missing fields, and with which names. C70_ex, C70_missing_ex: concrete errors. C70_refuted_names: the text about missing fields names the attributes and not the names which the data must have, and following it does not help; C70_refuted_key: a member of a Union is called a key."
  },
  {
   "property": "C71",
   "status": "proved",
   "theorems": [
    "C71_load",
    "C71_loaders",
    "C71_dump"
   ],
   "note": "C71_load: the same state in the two programs, outcome and new state; C71_loaders: Loaders with different histories; C71_dump. C71_ex, C71_dump_ex: two programs which differ for other classes. Hypotheses: the programs agree which objects are hashable and which are instances of basic types; no other class with the same name as a ForwardRef is registered (C20_refuted_names)."
  },
  {
   "property": "C72",
   "status": "proved",
   "theorems": [
    "C72_dump",
    "C72_refuted_shown"
   ],
   "note": "C72_dump; C72_ex on values with a dataclass and an attrs class which get fields. C72_refuted_shown: without hidedefault the new fields appear. Hypotheses: field names, and external names, are distinct (otherwise two fields overwrite each other); the annotation List[basic] of a field holds (the shortcut of _iteratordump); new fields are not given by a NamedTuple (its fields are positional)."
  },
  {
   "property": "C73",
   "status": "proved",
   "theorems": [
    "C73_callback",
    "C73_delegate",
    "C73_dump"
   ],
   "note": "C73_callback: load with a custom handler is equivalent to the run of its program, stated with ends (= load called from outside); C73_delegate: outcome and exact trace of a handler which asks for another load; C73_dump for dumpers whose handlers select by class (C52). C73_ex: a handler for a dataclass which loads a pair, with an annotation. Handlers are modelled as finite programs of load calls with arbitrary continuations; they do not change the Loader themselves."
  },
  {
   "property": "C74",
   "status": "proved",
   "theorems": [
    "C74_load",
    "C74_dump",
    "C74_refuted_literal"
   ],
   "note": "C74_load (outcome and state), C74_dump; C74_ex: List of a class whose annotations become a recursive type and an unknown name. C74_refuted_literal: an annotation Literal of a field with a converter still decides which alternative of a Union is taken, although the documentation says that it is completely ignored. Hypotheses: the class is not the type of the keys of a Dict (line 396); forward references as in C71."
  },
  {
   "property": "C75",
   "status": "proved",
   "theorems": [
    "C75_list",
    "C75_tuple",
    "C75_set",
    "C75_rest",
    "C75_fixed",
    "C75_object",
    "C75_rest_object",
    "C75_dict"
   ],
   "note": "C75_list, C75_tuple, C75_set (with the results which are not hashable), C75_fixed, C75_object, C75_dict: equivalences between the exception of the whole and the exception of the first bad part. C75_rest, C75_rest_object: nothing about what comes after the bad item or field matters, it may not even end loading (C75_ex_rest). C75_ex: a list with two bad items; C75_ex_object: two bad fields with mangled names, in the other order than those of the class. Hypotheses: loading an item ends, and fails with nothing but a TypedloadException (C17, C22); for objects no required field is missing and no key is unknown (C06, C07); C75_dict: the first pair in the order of the data, the key before the value; the position of a TypedloadAttributeError inside a dictionary is lost (C18_refuted_dict), C75_ex_dict."
  }
 ]
}
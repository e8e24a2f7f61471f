# Formal model of typedload in Coq (Rocq) 8.16

The properties are in `properties.jsonl` (C01...).  The model is executable
Gallina, written by reading /repo function by function; every definition cites
the lines it models.  Nothing in /repo was run.

## Files (rocq/theories)

Model:

| file | content |
|---|---|
| Py.v | the part of Python which typedload observes: objects, annotations, `==`, hash, dict, set, class table, calling a class with keywords. Not typedload code. |
| Loader.v | dataloader.py, typechecks.py and the exception objects of exceptions.py |
| Dumper.v | datadumper.py |
| Render.v | `TypedloadException.__str__` and the path (exceptions.py) |
| Quick.v | the functions of `typedload/__init__.py` and the state of the process |
| Threads.v | a Loader shared by threads |

Vocabulary of the statements (none of it uses the handlers of the model):

| file | content |
|---|---|
| Spec.v | conformance of a value to a type, components and reachability of types, what is assumed of the Python world |
| Vocab.v | `plain_tags`, `used`, `loads`, `ends`, `later`, `steady`, required / extra / renamed fields, where a trace leads, hazards, the round trip fragment |
| Reference.v | the reference semantics: one rule for each kind of type |

Theorems:

| file | properties |
|---|---|
| Properties1.v | C02 C04 C05 C11 C12 C21 C31 C32 C33 C41 C42 |
| Properties2.v | C01 C09 C10 C20 C35 C36 C38 C39 |
| Properties3.v | C06 C07 C08 C13 C14 C15 C16 C24 C34 C37 |
| Properties4.v | C17 C18 C19 C40 |
| Properties5.v | C25 C26 C28 C29 C30 |
| Properties6.v, 7, 8 | C03; C22 C23; C27 |
| Properties9.v | C43 C44 C45 C46 (reference semantics) |
| Properties10.v | C47 (threads) C48 (module functions) |
| Properties11.v | C49, C33_default |
| Blame.v, Properties12.v | C50 |
| DumpAny.v, Properties13.v | C51, C52 |
| Properties14.v | C53 |
| DThreads.v, Properties15.v | C54 (threads, Dumper); the counterexamples with ClassVar for C06 C07 C27 |
| Schema.v (definitions: `typed`, `wrong_data`), Plain.v, Plain2.v, Plain3.v (proofs), Properties16.v | C55 |
| Faults.v, DFaults.v, Properties17.v | C56 (failures inside a load or a dump, recursion limit) |
| Seed.v, Properties18.v | C58 (hash seed) |
| HDumper.v, HDump.v, Properties19.v | C57 (identity of objects: the Dumper on a heap) |
| HLoader.v, HLoad.v, HLoad2.v, HLoad3.v, HLoad4.v, Properties20.v | C59 (identity of objects: the Loader on a heap) |
| Cost.v, Cost3.v, Properties21.v | C60 (number of handler calls) |
| Cost2.v, Properties22.v | C61 (number of handler calls of a dump) |
| Texts.v, Properties23.v | text of exceptions: C62 |
| Evolve.v, Properties24.v | new versions of the classes: C63 |
| Model.v, Model2.v, Model3.v, Properties25.v | declarations of data models, what is loaded is a value of them: C64 |
| Wider.v, Properties26.v | wider annotations, Optional: C65, C66 |
| Rollback.v, Properties27.v | old versions of the classes: C67 |
| KeyOrder.v, Properties28.v | the order of the keys in the data: C68 |
| Again.v, Properties29.v | loading again: C69 |
| Messages.v, Says.v, Properties30.v | the texts of the errors: C70 |
| Apart.v, Properties31.v | two programs which differ in other classes: C71 |
| GrowDump.v, Properties32.v | dump after fields with defaults were added: C72 |
| Callback.v, Properties33.v | custom handlers which call load or dump: C73 |
| Properties34.v | annotations of attrs fields with a converter: C74 |
| Properties35.v | the first error is the one reported: C75 |

`Properties*.v` contain the statement, a proof which is mostly `exact lemma`,
`Print Assumptions` and, beside it, an `Example` which shows that a concrete
case, on a loader with a history, meets the hypotheses.  Examples.v is the
Python world used for that (dataclasses, attrs, NamedTuple, TypedDict, enums,
recursive classes, renamed fields...), with documented behaviours replayed by
computation.  The other files are lemmas.

## How to read a statement

* `is_std w basic strcons cfg`: a Loader with the default handlers; all the
  other settings are arbitrary.  `w : world` is an arbitrary Python world.
* `used w cfg s`: `s` is the state of such a Loader after any sequence of loads
  (successful, failed, or interrupted by a RecursionError) and of changes of
  basiccast, failonextra, dictequivalence, uniondebugconflict, starting with any
  frefs, in a process which already rewrote any TypedDict annotations.  `dhistory`
  is the same for a Dumper (hidedefault, isodates, mangle_key can change).
* `loads w cfg s v t r`: `load(v, t)` in that state ends with the outcome `r`
  (`Ok value` or `Exc exception`).  `ends` also gives the final state.  The fuel
  is hidden: C41 proves that it does not matter.
* `steady w basic cfg env s v t`: for loading `v` into `t` the state of the
  caches does not matter: forward names reached from `t` are known, and the
  known defects about caches (C20_refuted_*) do not apply.  Used where a theorem
  compares the load of a whole with the loads of its parts in the same state.
* `never_stops w pep env t`: no type met while loading `t` raises StopIteration
  (`calm`): not the library functions, `__post_init__`, validators and hints, and no
  attrs converter is annotated only with its result.  Needed wherever all the
  items of a list must be loaded, see defect 27; part of `well_formed`.
* `wf_reflect`, `wf_world`: facts about Python, not typedload: a TypedDict is not
  an attrs class, NotRequired is not nested and such a key is not in
  `__required_keys__`; `int(x)` returns an int, and so on.
* `..._refuted`: the unchanged code violates the unrestricted property, and this
  is the witness.  The positive theorem then has the corresponding hypothesis.

## Trusted base

* Coq 8.16.1 kernel (with `vm_compute`), and the reading of /repo into the model
  files above.
* No axiom is declared and none is used: `Print Assumptions` is run under every
  property theorem and answers `Closed under the global context` for all of them.
  The only axioms present in the environment are those of the ssreflect plugin
  of Coq's standard library, which some standard library file loads, and no
  theorem depends on them: `Coq.ssr.ssrunder.Under_rel.{Under_rel, Under_rel_from_rel,
  Under_relE, Over_rel, over_rel, over_rel_done, under_rel_done}`.
* The functions of the Python runtime which typedload calls but does not define
  are fields of the record `world` (Py.v): `type_(value)`, `fromisoformat`,
  `date(*value)`, `timedelta(0, value)`, `re.compile`, `__name__`, which element
  `set.pop()` returns, `str`, `isoformat`, `total_seconds`, and the class table
  (annotations, hints, enum members, fields, defaults, `__post_init__`).  All
  theorems hold for every `world`; what a theorem needs to know about it is a
  hypothesis.

## What is modelled

* `Loader.__init__` (settings, default handlers list), `index`, `load`, the
  caches `_indexcache`, `_objfieldscache`, `_unionload_discriminatorcache`,
  `frefs`, and all the handlers `_noneload` ... `_newtypeload`, `_iterload`,
  `_mangle_names`, `_dictequivalence`, `_objloader`, with their exceptions;
  custom handlers as programs which can call back `load`; the process-wide
  rewriting of the `__annotations__` of a TypedDict.
* typechecks.py: all `is_*`, `discriminatorliterals`, `notrequiredtype`.
* `Dumper`: settings, handlers, `index`, `dump`, caches, all dump handlers,
  custom handlers.
* exceptions.py: the exception object, trace, `_path`, `_firstline`,
  `_subexceptions`, `__str__`.
* `typedload.load` and `typedload.dump`: a new Loader / Dumper for each call, in a
  process whose TypedDict annotations previous calls may have rewritten.
* Threads: what the other threads do to the shared Loader is any sequence of the
  writes which loads perform, at each boundary of a handler call of the load
  which is followed.  What they do is a function of the call and of the state;
  the dictionary operations between two handler calls are atomic.

## What is not modelled

* Object identity in the properties other than C57 and C59, which have their own
  models with a heap (HDumper.v, HLoader.v, with cyclic objects; only the default
  handlers), mutation of the data by the caller during a load, generators and other one-shot iterators, subclasses of the built-in
  containers, objects with custom `__eq__`/`__hash__`/`__str__`, enums mixing in
  a data type, `_missing_`, strings with code points above 255, signed zero.
* Python's recursion limit is not in `loads`: recursion is on fuel, with a distinct
  outcome `OOF` that no handler can catch.  C41: the fuel does not influence
  results; C22, C23, C28: when enough fuel exists.  What happens at the limit,
  where the `except Exception` clauses (lines 300, 413, 459, 784, 943) do catch
  the RecursionError, is C56 (`limited_load`), for failures at calls of handlers.
* Equality of types is structural, except in the dictionary of discriminators,
  where `Union[A, B] == Union[B, A]` (`same_type`; its comment says why comparing
  the members structurally is enough there).  For the dictionary of handlers this
  differs from CPython only when the caller adds a handler whose condition tells
  two orders of the same union apart.
* `x in list` uses `==` only (Python tries identity first: relevant for NaN).
* Error message texts are constructors (`msg`) in the model of the loader; the formatted
  texts are in Messages.v (C70), with repr, str and the order of sets as parameters.
* Default factories are constants; fields of a dataclass have the order of their
  definition.  ClassVar and InitVar entries of `__dataclass_fields__` are fields
  whose type is a `TObj` without handler (Properties15.v); that the constructor
  does not take them does not matter, because their load fails before.
* Python -O (which removes the assert in `Loader.load`).
* The iteration order of Python sets is arbitrary: `w_pick` (for `keys.pop()`),
  `w_setorder` (for the set of the fields of a dataclass in `_dataclassdump` and in `_dataclassload`, line 511), and
  for sets which are data the list inside `VSet`/`VFrozen` is the order.  In error
  messages (constructors) sets of names are lists in definition order.
* Changing the handlers, basictypes, frefs, raiseconditionerrors, mangle_key or
  pep563 of a Loader, or the handlers of a Dumper, after its first use (except for
  the counterexamples C53_refuted); other settings can change, see C53.
* Warnings (datadumper.py: deprecated handlers).

## Defects of the code found while proving (see the `_refuted` theorems)

1. Line 396 stores the handler of the values of a Dict in the variable of the
   keys: C01_refuted, C20_refuted_dict.
2. `_tupleload` calls `len(value)` outside of the try: C14_refuted, C17_refuted.
3. An unhashable discriminator raises TypeError: C14_refuted_tag, C17_refuted.
4. `', '.join(extra)` with keys which are not strings: C07_refuted, C17_refuted.
5. Dict with unhashable loaded keys: C17_refuted; a TypedloadAttributeError
   inside a Dict loses its position: C18_refuted_dict.
6. `_enumload` collects raw exceptions, and `str(e)` then crashes: C19_refuted.
7. OverflowError of timedelta / date / re.compile: C17_refuted.
8. Handlers cached by a shortcut do not register names: C20_refuted_names; the
   same lines make the first load of a recursive class unsafe with threads:
   C47_refuted.
9. An unsupported type gives an exception without trace: C18_refuted.
10. A converter annotated only with its result: C17_refuted; private attrs fields
    are not loadable under the name with which they are dumped: C27_refuted.
11. Namespace with renamed fields: C37_refuted.
12. `_typeddictload` rewrites NotRequired annotations for the whole process:
    C20_refuted_tag.
13. Recursion through List and Union only diverges on strings: C23_refuted.
14. `_iteratordump` trusts the annotation: C25_refuted; a takes_self factory
    crashes with hidedefault: C26_refuted; hidedefault compares with `==`:
    C27_refuted.
15. uniondebugconflict changes results with nested unions: C15_refuted.
16. A string is loaded as a list of characters even with basiccast off:
    C03_refuted.
17. The handler of a Dumper is cached by the class of the object: a condition of a
    custom handler which looks at the object itself is evaluated only once per
    class: C52_refuted.
18. `__dataclass_fields__` contains ClassVar and InitVar: a ClassVar without value
    is required, so that nothing can be loaded; failonextra does not know it as an
    extra key; dump with hidedefault=False writes it and the result is refused by
    load: C06_refuted_classvar, C07_refuted_classvar, C27_refuted_classvar.
19. Line 943 converts a RecursionError (or MemoryError) into a TypedloadTypeError,
    and a union then goes on with the next member: near the recursion limit load
    returns another value: C56_refuted.
20. `Dumper.index` builds its message with `'Unable to dump %s' % value`: for a tuple
    without handler the formatting itself raises TypeError: C31_refuted.
21. The discriminator of a union is `keys.pop()` of a set of strings (line 693): when
    the members share more than one Literal key, it depends on the hash seed of the
    process, and with it the member which is returned: C58_refuted.
22. The items of a dataclass field annotated with a collection of a basic type are
    not dumped (line 294: `value.copy()`); if they are not what the annotation says,
    for example lists, the result shares them with the object: C57_refuted.
23. The dictionary of discriminators is keyed by types, and Union[A, B] equals
    Union[B, A] although the loader prefers the last member with a given tag: after
    Union[B, A] the loader reads data for Union[A, B] as if it were Union[B, A]:
    C20_refuted_order.
24. With `Any` the result contains the mutable objects of the data themselves, not
    copies (line 327), and so do Literals and basic types which are containers:
    C59_refuted.  (Documented nowhere; for the other types the result is new.)
25. `_dictload` loads the items a second time, to build the error, when the first
    attempt fails (lines 406-420). With recursive types this doubles at every level:
    a document of a few hundred bytes takes 2^d calls of handlers before it is refused
    (C60_refuted), so whoever can send data which is loaded into such a type can keep the
    process busy.
26. An untagged Union of two recursive classes is loaded by trying the members, and
    the trial of the wrong class loads its common fields before it is refused: a
    document of depth d takes 2^d calls although it is accepted (C60_refuted_union).
27. Line 935 gives `map(handler, ...)` to list(), tuple(), set() or frozenset(): a
    StopIteration which a handler raises is the end of the iteration for them, and
    the rest of the items is dropped without an error. The handler of attrs classes
    raises it (line 853, `next(iter(...))`) when a converter is annotated only with its
    result: `load([{...}, {...}], List[A])` is `[]` for every list (C10_refuted).
    Lists of basic types and of unions of basic types go through a generator
    expression instead, where PEP 479 turns it into an error.
28. `_subexceptions` receives the path of the enclosing exception (`trace`) but does not
    use it: from the second level of nested unions on, the path in the text starts with
    the name of the type of the alternative, not at the root: C62_refuted.
29. The trace item for a value of a Dict is `Annotation(VALUE, value)` (line 421): neither
    the trace nor the path says under which key the wrong value is: C18_refuted_key.
30. A discriminator with a default (`type: Literal['b'] = 'b'`) is not written by a
    Dumper with hidedefault, which is the default; the data is then loaded as the first
    class of the union, without an error: C64_refuted_tag.
31. The text about missing fields lists the names of the attributes, and not the names
    given to them in the metadata, which the data must have; data with the listed name
    are refused because of that name: C70_refuted_names.  Line 725 calls the member of a
    Union a key: C70_refuted_key.
32. The annotation of an attrs field with a converter is not "completely ignored"
    (docs/supported_types.md): if it is a Literal, it still decides which alternative
    of a Union is tried first, and so which object is made (C74_refuted_literal).
33. Two fields of one dataclass with the same name outside (nothing refuses this):
    `_dataclassload` iterates over a set (line 511), so which of the two fields takes the
    value depends on the hash seed of the process: C58_refuted_names.

## Plan per property

Reachability (`reach`), i.e. the types met while loading a type, replaces
recursion over types, because classes and ForwardRef make them cyclic.

| id | modelled as | proof |
|---|---|---|
| C01 | `conforms` (inductive, Spec.v) of the result | invariant on the caches + induction on fuel |
| C02 C04 C05 C11 C12 | equations on `load` | case analysis on `load`, for every state |
| C03 | result = value, for JSON types | induction on fuel over the closed set of JSON types |
| C06 C07 C08 C24 C37 | statements on loading a dict into an object class | lemmas on `objloader`/`mangle` |
| C09 C10 C38 C39 | relation between items of the value and of the result | induction on the items |
| C13-C16 | relation with the loads into each member | induction on the members |
| C17 C18 C19 C40 | predicate on the exception | Hoare triples for each handler, induction on fuel |
| C20 C36 | two runs from two coherent states give the same outcome | relational induction on fuel |
| C21 | order on states | induction on fuel, any handlers |
| C22 C23 | existence of fuel | well-founded induction on types / data size |
| C25-C30 | as above, for dump | induction on fuel / values |
| C27 | `ser`: the serialisable fragment | total correctness logic, induction on `ser` |
| C31-C35 C42 | facts about `index` and single handlers | list induction |
| C41 | `run n` and `run m` agree when both finish | monotonicity of `body` |
| C43 | `gives` (Reference.v), without loader, caches, order, exceptions | Hoare triples for each handler, induction on fuel |
| C44 | converse, when at each choice one reading is possible | induction on `gives` |
| C45 C46 | consequences of C43 and C44 | monotonicity of `gives` |
| C47 | `disturbed` calls: arbitrary `writes` before and after each handler call | relational induction with interference; guarantee by induction |
| C48 | `process`: sequence of calls of the package functions | reduction to C20 / C29 |
| C49 | two loaders with different handler lists run in lockstep | relational induction on fuel |
| C50 | the loader model with `trace`; every place on the trace is loaded again | trace invariant with a predicate for "was raised there", then replay: outcomes do not change in later states (C20) |
| C51 | the dumper model, default handlers | the cache-free semantics of Dumps.v (`dval`), by cases on the selected handler |
| C52 | the dumper model, any list of handlers; custom handlers are trees of calls of dumper.dump | a cache-free semantics for any handlers (`gdump`), the caches are coherent with it if the handler is selected by the class; locality by induction on the depth of the value |
| C53 | `used`, `later`, `dhistory` with a rule for changing settings | what the caches hold does not depend on these settings (`coh_adjusted`, `dcoh_adjusted`) |
| C54 | `ddisturbed` dumps: arbitrary `dwrites` before and after each handler call | rely-guarantee induction on fuel over the cache-free semantics of DumpAny.v |
| C55 | `typed v t`: inductive definition over values, annotations and class declarations only | induction on `typed`: the dumped data `x` exists, and loading it gives `v` from every state in which the names are known (`LT`); the members of a union which cannot be meant fail in every such state (`RJ`, by induction on `wrong_data`) |
| C56 | `troubled` loads: any handler call may be replaced by any exception except StopIteration (after any `writes`), plus the disturbances of C47; `limited n`: RecursionError beyond depth n | the soundness proof of C43 for a body whose calls are troubled; exactness by C44; `limited n` agrees with the run with fuel n unless that is out of fuel |
| C58 | `reseed w pick order`: the same world with another choice of `set.pop()` and another set order | lock step of the two runs (Local.v) with equal discriminators; reference semantics without the choices; dumps: permutation of the items of each dictionary |
| C57 | a second model of the Dumper on a heap of objects, whose handlers allocate their results and write to them | simulation by the tree model under an invariant of the dictionary being filled (contents of the heap without its place); footprint of the result |
| C59 | a second model of the Loader on a heap of objects, whose handlers allocate their results and fill them; enum members and default values are objects of the heap | simulation by the tree model under invariants of the object being filled; footprint of the result (parts of the argument may be kept, or not: two instances of one proof); no copies of enum members: an invariant of the whole heap with the finished new objects and the dictionaries being filled |
| C60 | Cost.v counts the calls of handlers with marks in the state which nothing looks at (C60_counted: same outcomes, number unique). C60_linear by induction on the type: each handler passes each part of the data to a bounded number of calls. C60_linear_recursive (Cost3.v): by induction on the value, with a constant per value for the types which lead back to themselves. C60_refuted: a lower bound of 2^d calls for Dict[str, Tree], by induction on the depth; C60_refuted_union: the same for an accepted document and a Union of two recursive classes |
| C61 | `Cost2.v`: calls counted with marks in the state which the code never reads (`dcounted_dumps`: same results); invariant of the caches (`dcoh`) plus a bound on the marks by the number of objects of the children, for every handler, induction on the recursion budget; termination from C28 |
| C62 | The lines of a text as a recursive specification (`report`), equal to what the code builds up to white space at the end; places by induction on the nesting, from C18. |
| C63 | Relation `upgrade` between two worlds and a map `grow` on values; preservation of Python's equality; induction on the derivation of the reference semantics (Reference.v), which C43/C44 connect with the loader in both worlds. |
| C64 | `data_model`: conditions on the annotations and classes reached from the type; induction on the derivation of the reference semantics (Reference.v, connected with the loader by C43) shows that the result is `typed`; then C55. The forms of dumped data, for unions, follow from C26/C51. |
| C65 | `wider` and `widened`: relations between the types and the class tables of the two programs; every reading (Reference.v) in the old program is a reading in the new one, by induction on its derivation; C43 and C44 connect the readings with the loaders. |
| C66 | Consequence of C05, C12, C13, C14 and C15. |
| C67 | `older` and `shrink`: every reading (Reference.v) in the new program, with the new fields removed, is a reading in the old one, by induction on its derivation (Rollback.v); C43 and C44 connect the readings with the loaders. |
| C68 | `reordered`: every reading (Reference.v) of the data has a reading of the reordered data with a reordered result, by induction on its derivation; equality is a congruence for `reordered` (KeyOrder.v); C43 and C44 connect the readings with the loaders. |
| C69 | A reading (Reference.v) of any data as r is also a reading of r as r, by induction on its derivation (Again.v); C43 and C44 connect the readings with the loaders. |
| C70 | The texts are modelled (Messages.v) next to the constructors of the messages; honest (Says.v) says for each text when it is true. Proof: a Hoare logic over all handlers (hl, Inv.v) with the invariant that raised exceptions carry messages which fit their value and type. |
| C71 | Lock step of the two interpreters in equal states (Apart.v, as in Local.v), with the class table, constructors and names equal on the reachable types; for dump the pure evaluator dval of Dumps.v. |
| C72 | The pure evaluator dval of Dumps.v on the two programs, structural induction on the value with grow (Evolve.v); pdc_adds of Seed.v for the order of the set of fields. |
| C73 | Fuel monotonicity (Fuel.v) to join the budgets of the nested loads; induction on the program of the handler; the equality load_noted about the annotation. |
| C74 | Lock step of the two programs (Apart.v, generalised from C71): the classes met are equal up to `converted`. |
| C75 | The loops run the items in order and stop at the first exception (First.v, FirstDict.v, FirstRest.v), by induction over the items. |

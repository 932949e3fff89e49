# Formal model of RAttab/reflect in Rocq (Coq 8.16.1)

## 1. Layout (rocq/theories)

* `Base.v`, `Dec.v` - byte strings, outcomes, association lists, decimal numerals (helpers, no repo code).
* `Model*.v` - the model. Definitions only, each with a comment naming the file and lines of /repo it
  models and any simplification made there.
* `Spec*.v` - small independent specifications used in theorem statements (inductive relations, grammars,
  tables); they never call the model's functions, except that they use its data types.
* `Proof*.v`, `ExCore.v` - lemmas and example objects.
* `Prop*.v` - one file per area: the theorems `cNN_...` that are claimed, `Print Assumptions` of each, and
  `Example`s showing that the hypotheses are met by concrete non trivial cases.
* `../tools/gen_manifest.py` - writes MANIFEST.json from the theorem names and `tools/notes.json`.
* `../seeded/LOG.jsonl` - the wrong programs the theorems were tried against.

## 2. Trusted base

* The kernel of Coq 8.16.1 (`vm_compute` is used for closed examples and finite case sweeps, so the
  VM's conversion is included). `native_compute` is not used; no kernel check is switched off.
* Axioms: `Print Assumptions` answers `Closed under the global context` for every theorem in every
  `Prop*.v` file. No axiom, Parameter, section-less Variable, Admitted or obligation; no functor or module
  type of our own. (The checker that lists `Coq.ssr.ssrunder.Under_rel.*` sees the fields of a module type
  of Coq's standard library, loaded with ssreflect; no theorem depends on them.)
* The reading of the C++ below: that each `Model*.v` definition says what the cited lines do. The code was
  read as text, never run. The C++ standard library, libc and the compiler are represented by their
  documented contracts where the model mentions them.
* That the English of `properties.jsonl` is what the theorem statements say; statements use the `Spec*.v`
  vocabulary to make this checkable by eye.

## 3. Modelling conventions

* `reflectError` is the outcome `Abort` (the default build aborts; with exceptions it throws - in both
  cases no result is produced). Foreign exceptions (`std::out_of_range`, ...) are `Throw`, undefined
  behaviour is `UB`, running out of an explicit recursion bound is `OutOfFuel`. Where a default bound is
  used (e.g. `fuel_of H`), a theorem proves it is never reached on well-formed input.
* `std::string` is a list of bytes (`list N`, each < 256 where it matters).
* `const Type*`, `Scope*`, objects are indices in a list (heap), compared by index (pointer identity).
* `std::unordered_map` is an association list with unique keys; iteration order is unspecified in C++, so
  statements about listings hold for every order or after the sort the code performs.
* Registration histories are lists of operations; a rejected operation leaves the state untouched
  where the code does so.

## 4. What is modelled, file by file (paths relative to /repo/src)

| source | model | not modelled |
|---|---|---|
| ref_type.h, argument.{h,cpp,tcc}, function_type.h | ModelCore, ModelClean and ModelSig (type expressions) | default-constructed Argument's indeterminate refType; volatile |
| type.{h,cpp,tcc} | ModelCore, ModelValue and ModelCall (construct, call), PropParent (parent), ModelDump (print) | alloc is Type::call of "new" |
| function.{h,cpp,tcc}, value_function.* | ModelCore (signature tests, printed signature), ModelFnOwn (ownership), ModelValue (calls) | template dispatch on callable kinds; more than one thread calling |
| overloads.* | ModelCore, ModelValue (call), ModelDump (print), ModelMembers (traits) | |
| field.*, traits.* | ModelCore, ModelTraits, ModelMembers (traits of fields, members handed out for change) | retCast in getValue |
| value.*, cast.* | ModelValue (which object a handle designates), ModelCall (call by name, assign, convert, typed field), ModelValOwn (lifetime of stored objects) | print() |
| registry.*, dsl/template.h | ModelRegistry (with interleavings), ModelLoad (nested loads of whole bodies) | data races inside one table access; empty std::function loaders |
| scope.* | ModelScope, ModelDump (print) | traits of scopes (a parameter of ModelDump) |
| clean_type.h, types/pointer.h (id) | ModelClean | volatile, member pointers, array bounds |
| dsl/plumbing.h, dsl/operators.h, dsl/function.h (constructors), types/pointer.h, types/primitives.tcc, types/std/* | ModelPlumb (registration sequences), ModelCont (bodies of vector.h and map.h), ModelPtr (bodies of pointer.h and smart_ptr.h), ModelPlain (bodies of primitives.tcc, string.cpp, plumbing.h), ModelOps (typed calls, Value operators) | bodies of the other lambdas |
| error.{h,cpp} | ModelError | expansion of printf conversions |
| utils/json/{reader,token,parser.tcc}.* | ModelJson, ModelJsonMsg | streams other than string streams; locales |
| utils/json/{writer,format,printer.tcc}.* | ModelJsonW, ModelDouble (formatFloat, stod on real doubles) | locales and rounding modes other than the default |
| utils/json/printer.tcc, parser.tcc with callbacks, traits.cpp | ModelJsonG | allocator of the callbacks (std::function) |
| utils/json/{parser.cpp,printer.cpp,traits.*} | ModelJsonT, ModelUMap, ModelJsonH (graphs of objects), ModelJsonL (their lifetimes), ModelCodec (getParser, getPrinter, init) | custom parsers/printers are arbitrary functions (ModelCodec only) |
| utils/config/{path,node}.* | ModelConfig, ModelPath (has, get, set of a path in a Value; `Value::get<Value>(name)` and `Value::set`, which no longer exist, read as field access and assignment) | path call; dangling Values after a vector was resized |
| utils/config/{config,json}.* | ModelConfigStore (Config, parseKey), ModelCfgJson (loadJson, over the tokens of a document: json.cpp refers to a token API that no longer exists; none of it is part of the build) | saveJson (it always fails); token positions in messages |
| types/primitives.cpp, primitive_*.cpp, reflect/*.cpp (registration) | ModelInit | other platforms' typedefs |
| dsl/scope.h, dsl/scope.tcc | ModelGlobal | scope traits |
| dsl/{basics,type,field}.h macros | ModelLoad (lines of a reflect body), ModelInit (static loaders) | reflectOpCast: it expands to the calls modelled above |


## 5. Per property: what is modelled and how it is proved

C01 `Type::isChildOf` as a fuelled recursion over the type heap (ModelCore); spec = the inductive reachability
    relation (SpecCore); soundness and completeness by induction on fuel / derivation, termination from a rank
    function; order laws from the relation.
C02-C04 `Argument::isConvertibleTo` over any heap; spec = declarative grade table; case analysis plus C01.
C05 `combine`, `testArguments`: list induction; spec = minimum over the zipped list.
C06, C08, C09 `Overloads::call/test/get` as folds; spec through filters; induction on the overload list; C08 by
    permutation invariance of the filters.
C07, C10 history invariants of `Overloads::add`, `addField`, `addFunction` (any sequence, rejected calls skipped).
C11, C12 lookup along the parent chain (spec: nearest declaring ancestor), listing = sort+unique of collected names.
C13 `isCopiable/isMovable` through the overload tests.
C14, C15, C52-C55 `Value`, `cast`, `Function::call` on handles (ModelValue); objects are addresses in an abstract
    environment `cpp` (constructors, callables, field offsets are arbitrary functions), so the theorems hold for
    every such environment; proof by case analysis over the grade table and the nine ref combinations.
C16 ownership state machine of `Function` (ModelFnOwn); invariant over operation traces.
C17-C20, C22, C50 registry as a state machine; loaders are finite programs of registry operations; termination by
    the measure "total size of loaders not yet run"; C21 small-step interleaving semantics with the real lock scope.
C23, C24 `head/tail/join` as scanners on byte strings; spec = component grammar. C25-C28 scope tree (C25: histories of registrations and lookups; the first lookup after a registration); spec = set of
    registered component lists.
C29-C33, C35-C38, C42 tokenizer and formatter on byte lists with the istream flags; specs: UTF-8 grammar, JSON token
    grammar, inductive document texts. C42's columns (SpecJsonPos) by an invariant on where the reader is.
C34, C39-C41, C49 typed parser/printer over a type environment (recursive types allowed), all options; specs:
    documents, denotation of a document in a type; induction over document derivations, measures on the input.
C43 buffer model of `verrorFormat`. C44, C45, C51 config paths; C46 link trie with set-of-pairs spec.
C47 C++ type expressions. C48 traits map.
C56-C58 a reflect body is the list of its registrations (ModelPlumb), run by `register`; spec = reading that list
    (SpecPlumb). Proof: a syntactic separation condition on pairs of registrations implies that no check can reject,
    by induction on the list with the heap invariant; constructor and assignment choice by case analysis.

C59-C61 C++ type expressions and function kinds to Arguments (ModelSig on top of ModelClean); C60's spec is the C++
    reference binding rule over type expressions; case analysis plus C04's table; C61 `testReturn` against C04's table.

C62, C63 converse direction of C35-C41: from a run of skip or of the typed parsers that reports no error to the
    grammar (SpecJsonA: tokens with optional digits, maximal munch). Inversion lemmas of every reader function
    (ProofJsonA1-A6); unambiguity of the grammar by prefix freeness (A7); `reads` is functional (A8); every document of the grammar
    and every text that ends early is skipped without an error (A9), and is parsed into every target that can take it (B1-B3).

C64 ownership state machine of Value (blocks, owners, frees, accesses); invariant over operation histories.

C65, C66 an explicit memory (objects, buffers, map nodes); the lambdas of vector.h and map.h as functions on it
    (ModelCont.vec_body, map_body); `mcall` is the reflected call of ModelValue with that memory. Spec: lists and
    association lists up to permutation (SpecCont), with what references designate. Proof: the overload, test and
    marshalling lemmas of C14 and C56 reduce a call to its body; then frame reasoning; histories by induction.

C67 the call path value.call / type.call / construct / assign / convert (ModelCall) on top of ModelValue; spec
    SpecCall.Fits (result and arguments graded, weakest one counts) with the resolution relation of C06 and the
    marshalling relations of C52. Proof: composition of the exactness lemmas of those.

C68 signature printing (function.cpp, argument.cpp) as byte strings; injectivity by peeling suffixes off.

C69 reflectParent (dsl/basics.h) as an update of the class graph (PropParent.type_parent); wf_heap preserved,
    queries compared before and after.

C70 whole reflect bodies (parents, fields, functions, traits, pointers) run on demand through nested type<T>() calls
    (ModelLoad); spec SpecLoad reads the text of the bodies only (needs = reachability, holds = exactly what is
    declared). Proof: invariant over the nested loads (a loaded or loading type equals a prefix of its body), a measure
    (types not yet begun) for termination; every heap met on the way is a stage, wf, with subtyping below the declared
    one; library bodies via the pairwise conditions of C57 in the heap where all other types are complete.

C71 the lambdas of smart_ptr.h and pointer.h over the memory of C65 with control blocks (ModelPtr); spec SpecPtr says who
    holds what (held_after), which objects go (deletes_exactly) and what a sound set of smart pointers is (managed).
    Proof: a multiset invariant over the shares held (count of a block = number of owners), one lemma per member, then
    induction over the client's steps (T_object, T_call, T_destroy).

C72 the lambdas of primitives.tcc, string.cpp, plumbing.h and reflectAlloc over the same memory (ModelPlain); spec SpecPlain:
    a store from addresses to values (after, made) and integer sums on Z (represents, is_sum). Proof: one lemma per call
    shape over any plumbed body, read/write lemmas, then induction over a client that keeps its own account (knows).

C73 call<Ret> on the object memory and the operators of Value (ModelOps); spec SpecOps: fits/delivered relate what is asked
    for to the untyped result, library lists the operators of each type. Proof: resolution does not depend on the requested
    result when every overload fits (testReturn is Exact or None), then the cast of the wrapped Value.

C74 the special members of vectors and maps (ModelCont); spec SpecWorld: a world says which objects are containers and what
    each holds, Effect is what a call does to a world, Session a client at work. Proof: each call preserves the invariant that
    containers share neither buffers nor nodes.

C75, C76 callbacks are functions on a state type of any kind (ModelJsonG); spec SpecJsonG: writes/takes say what one callback
    does to one document, prints_items/takes_items run them in order. Induction over these; the conclusion has the same form.

C77 operator| as a function on records; uninitialised members are a parameter.

C78 doubles as sign, mantissa and exponent; snprintf %1.12g and strtod as exact rational arithmetic (ModelDouble); spec
    SpecDouble: nearest among all doubles / all decimals with twelve digits, numeral gives a text its value. Proof: one
    rounding lemma for both bases (a grid of m*b^e has no points between neighbours), uniqueness of the nearest even
    double, and 2^-53 against 10^-12.

C79 the table of codecs and the codec objects with their addresses (ModelCodec); spec SpecCodec: the order of kinds, the
    types reached, which types can have a codec, and when a codec object is the right one. Proof: depth-first search
    with the types in progress as parameter of the invariant; the number of types not in the table bounds the depth.

C80 the initialisers as a list of registrations run from the empty registry (ModelInit); spec SpecInit: when a set of
    initialisers is sound, and the C++ names of the integer types. Proof: the state after any order is characterised by
    the set of initialisers; a relation on registry states (same tables as functions, same scope tree up to the
    numbering of its nodes) is preserved by every registry operation, loads included.

C81 the macros of dsl/scope.h as updates of the scope heap (ModelGlobal) and their lambdas as bodies over the object
    memory of C57/C67; spec SpecGlobal: which functions stand for a variable, a client that knows values of objects and
    the steps it may take. Proof: registration via C51/C07, calls via the resolution table (C04, C28), invariant
    gknows over all histories.

C82 the typed parser with the map insertion as a parameter (ModelUMap); spec SpecUMap: values alike up to the order of
    map pairs, lawful insertions. Proof: simulation of two runs with different insertions (the loops of parse_object and
    parse_array generically), instance std::map = sorted insertion, and C40 through the value with its maps sorted.

C83 the five print functions as byte strings, with the orders of the unordered tables and of std::sort as parameters
    (ModelDump); spec SpecDump: what is said (names instead of pointers) and a layout of lines at depths. Proof: the text is
    the layout of what is said (induction over the hierarchy / the scope tree), the layout can be read back (kinds of lines
    told apart by depth, first and last character).

C84 the parsers and printers of C40 on a memory of objects with addresses and in-place updates through handles (object,
    path of member names) (ModelJsonH); spec SpecJsonH: sees (the value an object stands for, with the list of objects met),
    tree, closed sets. Proof: for trees a simulation with ModelJsonT, by induction on the steps, with a footprint and frame
    argument; for arbitrary graphs an invariant of closed sets; printing by equality of the two printers.

C85 ModelLoad with an ending (type, exception) instead of an abort, in ModelLoadX; the spec is SpecLoad's holds, on a prefix
    of the declared body. Proof: an invariant of the registry and the log of requests; the requests that end well are those
    of ModelLoad; termination by the number of types not yet begun.

C86 skip and the typed parsers with two bounds, nested calls and loop rounds, in ModelJsonS; the spec (SpecJsonS) is the
    nesting of a JSON value and the number of opening brackets of a text. Proof: brackets left in the input decrease at every
    nested call; equality with the unlimited parsers by comparing the two recursions; the exact part on token sequences.

C87 the parsers of ModelJsonH with lifetimes in ModelJsonL: a memory whose cells can be destroyed, smart and plain pointers,
    release of what lost its last owner. Spec (SpecJsonL): dangling, ownership, chains of pointers, and agreement with the
    memory of ModelJsonH. Proof: a frame around the object read into (what changes is below it or new, nothing below leads
    back to it), kept by writing, making, moving and releasing objects; simulation with parse_h on top.

C88 the calls of Reader::error with their formats and arguments, printf's %s %c %x, Token::print and verrorFormat (ModelJsonMsg).
    Spec (SpecJsonMsg): the description of each cause. Proof: an invariant of the tokenizer (the buffer is no longer than the
    text read; a quoted byte is the last one read), lengths of the expansions, C43 and C42.

C89 the members of Config over the tree of C46, generic in what is done to the values (ModelConfigStore).
    Spec (SpecConfigStore): a history of definitions and, inductively, what a name stands for. Proof: the links waiting at a node form a
    forest (functional, no cycle below an undefined name), the set of a name exhausts its tree (induction on the height), and an
    invariant of the history: keys are the resolved names, waiting links lie on chains, chains to an undefined name are complete.
C90 parseKey. Spec: the forms of a key. Proof: std::string::find and substr on lists.

C91 has, get, details::set and set over the typed trees of ModelJsonT, each giving the whole object afterwards (ModelPath). Spec
    (SpecPath): part of an object at a path, inductively; paths that part ways; whole objects. Proof: get leaves every list on the way
    ending at the index, an invariant under which it is the identity; get of p ++ q is get of q in what get of p gives; set is get followed
    by assignment; frame by induction on where the paths part. The layer of C89 is instantiated with these functions.

C92 the loader of json.cpp over the tokens of SpecJson, one recursive function over its five loops (ModelCfgJson), on the Config of C89 and
    the store of C91. Spec (SpecCfgJson): what a document tree says, in its order, and the calls that stands for; what a name stands for in
    a list of entries; what a document makes of an object of a type (fills). Proof: induction on the tree (the loader does what it says) and on the fuel (only documents are read); for names the
    invariant of C89, extended by the memory, and by induction on the elements of a list.

C93 the non-const lookups, reflectFieldTrait and reflectFnTrait (ModelMembers), on the types of ModelCore; the traits of
    Overloads objects are a table beside the types. Specification (in PropMembers): the type whose
    declaration is the one found from a type (declarer). Proof: induction on the fuel of the lookup and on the path to the declarer.

Properties whose text says "False of the code" have a guarded theorem and `_refuted` theorems: a concrete witness,
computed by the model, that the unguarded claim fails. A `_refuted` theorem is a fact about the code, not a gap.

## 6. Defects and surprises found in the code while modelling

Each is either a `_refuted` theorem or a remark in the model comment that cites the lines.

* Registry: `std::lock_guard<...>(lock)` builds a temporary, the mutex is not held (C21). A failing loader leaves a
  half built type (C22). Cyclic parents make isChildOf diverge; with pointer types in
  a hierarchy the relation is neither antisymmetric nor transitive (C01).
* Overloads: interchangeability is tested in one direction only, so whether a set is accepted depends on order (C08);
  the overload chosen depends on the order when several match exactly (C08); get() and call() may differ (C09).
* Calls: `T&&` parameters receive a temporary moved from the argument; `Value&` kinds of parameters, nested Value
  handles, by-value move-only parameters or results, and types with two converters pass test() and then abort (C14,
  C52). cast to `T&&` accepts lvalue and const handles, as<T>() ignores const (C15). copy() of an rvalue view moves;
  a failed move() empties the handle (C54). Function's move assignment leaks (C16).
* Value lifetime: field() and results by reference do not keep the storage alive, so a field of a temporary dangles; a
  moved-from Value keeps its type and pointer with isStored() false and dangles once the new owner goes (C64).
* Containers: operator[] is unchecked (C65); the index must be exactly a size_t, an int is refused; a const list or map
  has no operator[] through a Value, only at (C65, C66).
* reflectParent(T) inside T's own reflection passes its static_assert (is_base_of<T,T>) and makes a cycle: lookups of
  unknown names on T never return (C69).
* Overloads are compared with the classes as loaded so far: the same program is refused or accepted depending on which
  type is asked for first, and accepted sets may hold interchangeable pairs (C70).
* Pointers: operator* does not check for null; a second owner made from a raw pointer already owned is accepted and
  deletes it again; a constant T* handle dereferences to a constant object, unlike C++ (C71).
* reflectAlloc registers new T, not new T(): a reflected new of a number gives an uninitialised object; signed overflow in
  the reflected operator+ is undefined; numbers of different types never add (C72).
* Values holding numbers, bool included, strings, vectors, maps or plain classes have no truth value and no comparison
  operators; raw pointers cannot be compared either (C73).
* Ids ending in " const" or "&", or holding commas, make different signatures print alike (C68).
* Types: const of pointees is lost: type<const T*> is type<T*>, so a const T* is accepted for a T* (C47, C59).
* Results: asking for Value& from a by-value function passes the test (C61).
* Operators: reflectOperators() registers operator* twice, so it aborts for every class that has one (C58).
* Errors: messages of 1023 bytes and more are reproduced with an indeterminate byte or overrun (C43).
* JSON reader: unterminated string under validation computes clz(0) (C38); byte 0xFF is undefined behaviour (C31);
  newline after `//` comment not counted (C42); an opening bracket at the end of input is silently accepted (C39); a
  number at end of input stays as look-ahead (C37); numbers may lack their digits (`-`, `1.`, `-.5`, `1e`) and `[1` at
  the end of input is an empty list without an error (C62, C63); surrogates are encoded one by one (C32).
* JSON writer: characters above U+FFFF print as 5-6 digit escapes (C29); escape mode accepts overlong forms (C31);
  pretty printing reads past the indent buffer when nested deeply (C40).
* JSON typed layer: integral types other than int64 and float types other than double abort (C40); an integral double
  prints as an integer and does not parse back as a double (C41); null for a raw pointer replaces the handle (C41);
  two fields with one alias print the same value twice (C49); print(ostream) calls parse.
* JSON numbers: formatFloat writes 12 digits, so most doubles do not come back; whole doubles below 10^12 are written as
  integers, on which parseFloat aborts; tiny ones throw std::out_of_range; inf and nan are not JSON (C78).
* JSON codecs: in the build with exceptions a failed initialisation leaves its unfinished codec in the table, and the
  next parse or print of that type uses it (C79).
* JSON callbacks: an error in the last element still writes the closing bracket and an error elsewhere leaves the
  indentation raised (C75); without the colon parseObject calls back with the text of the next token as key, and the key
  reference changes while the callback reads (C76); Traits() leaves skipEmpty uninitialised (C77).
* Static initialisation: reflecting a class and a class nested in it aborts or not depending on the link order; so does
  a reflectScope whose functions use types of other source files (C80).
* reflectGlobalFn and reflectGlobalVar ignore the scope they are written in: inside reflectScope(a) the variable v is
  registered in the global scope as v (C81). Calling through a scope creates the scopes of a misspelled path (C51).
* Equal objects with unordered maps may print different JSON texts (C82).
* Type::print does not show that a field is const; Scope::print leaves the empty line after a nested scope unindented;
  Type::print of a type that is its own ancestor does not return (C83).
* Two members that point to one object are read one after the other into it: the second overwrites the first; printing
  then reading turns one shared object into two; printing an object that reaches itself recurses without end (C84).
* With exceptions, Registry::load erases the loader and enters the new Type before it runs the body; when the body raises,
  the half-loaded Type stays and is handed out as if nothing had happened (C85). The CMake option for it calls
  add_definition, which does not exist (add_definitions does).
* A member the class does not have is skipped recursively, so a document from an untrusted source can overflow the stack of
  a program that reads it into a flat class (C86).
* A document can make the parser use a destroyed object when the object graph has a plain pointer back to the owner or beside
  the smart pointer: the member reached through it resets the pointer that keeps the object being read into alive (C87).
* A rejected document can make the reader read past its message buffer: the unexpected token is quoted whole in a message that
  is formatted into 1024 bytes (C88).
* Config::set of a name that is there, or that is linked twice, reads past the end of a path; links to parts get the whole, or never
  end; a link with a type is made under another name (C89, C90).
* Reading through a path changes the object: lists are resized to index + 1, which deletes the elements after it (path.cpp 187; the same
  in path.tcc 22), map keys are made; const Values do not prevent it behind a smart pointer, and cannot read elements at all (C91).
* loadJson: initArray sets the name a second time when it has a type (json.cpp 97, 182), which is undefined; parseKey's substr takes the type
  into the name of a link; empty arrays and objects do not define their name (C92).
* Type::field and Type::function find inherited members only on a const Type: which overload is called depends on the constness of the pointer,
  so reflectFieldTrait in a derived class cannot give a trait to a field of its parent (C93).
* Config (the whole directory is commented out of CMakeLists.txt; path, node, config and parseKey are modelled as text): index components of 2^64 or more throw (C51); subtree
  with a separator inside a component (C46).

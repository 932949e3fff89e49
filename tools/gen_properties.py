import json
P=[]
def p(title, statement, quantifier, why, anchors):
    P.append(dict(id="C%02d"%(len(P)+1), title=title, statement=statement, quantifier=quantifier, why_tests_cant=why, anchors=anchors))

# ---------------- A. types, matching, overloads
p("Subtyping is declared ancestry",
  "t->isChildOf(u) (and u->isParentOf(t)) returns true exactly when u is reachable from t through declared parents, where two pointer-like types of the same pointer kind are instead compared through their pointees. On every hierarchy whose parent/pointee links are acyclic the query returns (no divergence), the relation is reflexive and antisymmetric, and it is transitive as long as pointer types have no declared parent.",
  "every type graph (any number of types, any depth of inheritance, any pointer nesting) and every pair of types in it",
  "The set of type graphs is infinite; transitivity/antisymmetry/termination are statements about all graphs, tests only exercise a few three-level hierarchies.",
  ["src/type.cpp: Type::isChildOf, Type::isParentOf, Type::isPointer, Type::pointer, Type::pointee", "src/type.h: Type::parent"])
p("Argument matching never drops const",
  "If an argument that refers to a const object is accepted (Exact or Partial) for a parameter that is a reference (T& or T&&), then that parameter is itself const, unless one of the two types is reflect::Value or a user-registered converter is used.",
  "every type graph, every argument (type, ref kind, constness) and every parameter",
  "Universally quantified over the type graph, inheritance depth and registered converters.",
  ["src/argument.cpp: Argument::isConvertibleTo", "src/ref_type.h: testConstConversion"])
p("Argument matching respects value categories",
  "Leaving aside reflect::Value and converters: a temporary or by-value argument is never accepted for a non-const T& parameter, an lvalue or by-value argument is never accepted for a T&& parameter (other than by exact equality), and accepted reference bindings always go from a type to itself or one of its ancestors.",
  "every type graph, every argument and every parameter",
  "Universally quantified over type graphs and argument triples; a missing case silently binds a dangling or moved-from reference.",
  ["src/argument.cpp: Argument::isConvertibleTo, isTemporary, isLValueRef"])
p("Match grades follow the documented decision table",
  "For every pair (argument, parameter) the grade returned (None / Partial / Exact) equals that of an independently written declarative table: identical triples are Exact; exactly one side reflect::Value is Exact; a registered converter gives Partial for anything but a T& parameter and None there; otherwise None unless the binding is legal and the types are related by ancestry, in which case it is Exact if categories agree or a temporary initialises a by-value parameter, and Partial otherwise.",
  "every type graph, every argument, every parameter",
  "The table has infinitely many instances through the type graph; tests sample literals.",
  ["src/argument.cpp: Argument::isConvertibleTo", "src/type.cpp: Type::hasConverter"])
p("A call is only as good as its weakest argument",
  "Matching an argument list against a parameter list gives None when the counts differ, and otherwise exactly the weakest of the per-argument grades (Exact for the empty list); the result does not change when argument/parameter pairs are permuted together; grade combination is associative, commutative, idempotent with Exact neutral and None absorbing.",
  "all argument lists and parameter lists of any length",
  "Quantifies over lists of any length and any type graph.",
  ["src/function.cpp: Function::testArguments, Function::test", "src/argument.cpp: combine"])
p("Overload resolution outcome",
  "Calling an overload set with given arguments and wanted return type picks the first overload (in registration order) that matches Exactly if there is one; otherwise the only overload that matches Partially; otherwise it reports an ambiguity error when two or more match Partially and a no-overload error when none matches. Exactly one of these cases applies.",
  "every overload set of any size and every call signature",
  "Quantifies over overload sets of any length and order; the scan keeps state (best, ambiguous flag) that tests exercise only for 2-3 overloads.",
  ["src/overloads.tcc: Overloads::call"])
p("Registered overload sets have no interchangeable pair",
  "However a set of overloads is built through registration, no later overload is an Exact match for the signature of an earlier one; in particular no two overloads in a set have the same return and parameter types. An attempt to register such a function is rejected and leaves the existing overloads unchanged.",
  "every sequence of registrations",
  "An invariant over all registration histories.",
  ["src/overloads.cpp: Overloads::add"])
p("Overload choice does not depend on registration order",
  "Reordering the registration of the same overloads does not change which overload a call selects, nor whether registration succeeds. (False of the code: two overloads can both match Exactly and then the first registered wins; and registration checks only one direction. Proved: the choice is order independent whenever at most one overload matches Exactly, and success/failure of the call never depends on order except through that choice.)",
  "every overload set, every permutation of it, every call",
  "Quantifies over all permutations of sets of any size.",
  ["src/overloads.tcc: Overloads::call", "src/overloads.cpp: Overloads::add"])
p("test(), get() and call() agree",
  "get() succeeds exactly when test() is true, call() succeeds only when test() is true, and when exactly one overload is viable get() and call() designate the same function. In general they may differ: get() returns the first viable overload while call() prefers an Exact one.",
  "every overload set and every signature",
  "Agreement of three independently written scans on all overload sets.",
  ["src/overloads.cpp: Overloads::test, Overloads::get", "src/overloads.tcc: Overloads::call"])
p("A member name is either a field or a function",
  "After any sequence of addField/addFunction calls on a type (rejected calls leaving it untouched), no name is both an immediate field and an immediate function of that type, each field name is registered at most once and keeps its first definition, and every accepted function stays registered.",
  "every history of registrations on a type",
  "Invariant over all histories.",
  ["src/type.cpp: Type::addFunction, Type::addField"])
p("Member lookup finds the nearest definition",
  "hasFunction/hasField is true exactly when the type or one of its ancestors declares the name; function()/field() then succeeds and returns the declaration of the nearest such ancestor, and fails with an error otherwise.",
  "every acyclic type graph, every type, every name",
  "Quantifies over inheritance chains of any length.",
  ["src/type.cpp: Type::hasFunction, Type::function, Type::hasField, Type::field"])
p("Member listings are sorted, duplicate free and complete",
  "functions() and fields() return a strictly increasing (lexicographic) list containing exactly the names for which hasFunction/hasField is true, independently of the iteration order of the underlying hash maps.",
  "every acyclic type graph, every type, every hash-map iteration order",
  "Quantifies over chains and over the unspecified iteration order of unordered_map.",
  ["src/type.cpp: Type::functions, Type::fields"])
p("Copiable types are movable",
  "Whenever isCopiable() holds for a type, isMovable() holds too; a type whose only unary constructor from itself takes T&& is movable and not copiable; a type with a T const& constructor is copiable.",
  "every type graph and every set of registered constructors (any number of overloads)",
  "Quantifies over all constructor overload sets.",
  ["src/type.cpp: Type::isCopiable, Type::isMovable", "src/dsl/plumbing.h: reflectCopyConstructor, reflectMoveConstructor"])
p("An accepted call marshals its arguments",
  "If a function accepts an argument list then converting the arguments to its parameters does not fail. (False of the code for by-value parameters of move-only types, for T&& parameters of non movable types and for user converters registered more than once. Proved under the guard that by-value parameter types are copiable, T&& parameter types are movable and no converter is involved.)",
  "every type graph, every function signature, every accepted argument list",
  "Quantifies over type graphs, signatures and argument lists of any length.",
  ["src/cast.cpp: lref, rref, copy, cast, isCastable", "src/function.tcc: Function::call", "src/value_function.h: ValueFunctionImpl::call"])
p("Const is never lost through value views",
  "Starting from a Value that designates a const object, no sequence of copying the handle, rvalue(), toConst() and field access yields a handle that is non-const; toConst() always yields const; and lvalue-casting such a handle to T& is rejected. (Casting a const handle to T&& is accepted by the code - recorded as refuted.)",
  "every chain of view operations of any length on any type graph",
  "Quantifies over arbitrarily long chains of operations.",
  ["src/value.cpp: toConst, rvalue", "src/value.tcc: Value::field", "src/cast.cpp: lref, rref"])
p("Function objects release their target exactly once",
  "Over any sequence of creating, move-constructing, move-assigning and destroying reflected functions, a wrapped callable is never freed twice and never used after being freed, and every callable is freed by the time all functions are destroyed. (The last part is false: move-assignment over a live function leaks the overwritten callable. Proved without move-assignment over a live target.)",
  "every sequence of operations on any number of function objects",
  "Memory-ownership invariant over all histories.",
  ["src/function.cpp: Function::Function(Function&&), operator=(Function&&), ~Function", "src/value_function.cpp: freeValueFunction"])
# ---------------- B. registry
p("One type object per id",
  "In any history of add / alias / get, including lookups made recursively by loaders, two lookups that resolve to the same id return the same type object, that object's id is the requested (alias-resolved) id, distinct ids get distinct objects, and a type once returned is returned by every later lookup of that id as long as the id has not itself been redefined as an alias.",
  "every history of registry operations and every set of (recursive) loaders",
  "Invariant over all histories and loader programs.",
  ["src/registry.cpp: Registry::get, load, add, alias"])
p("A loader runs at most once",
  "Across any history, the loader of an id is invoked at most once until a new loader is registered for it, at most one type object is ever created per id, and when several loaders are registered for an id before its first lookup the first one wins.",
  "every history of registry operations",
  "Invariant over all histories.",
  ["src/registry.cpp: Registry::load, Registry::add"])
p("Recursive type definitions load without looping",
  "A lookup terminates for every finite set of loaders, however their lookups refer to each other (including self reference and mutual recursion); an id whose loader is running resolves to the (partially loaded) object being built.",
  "every finite loader environment, every id",
  "Termination for all mutually recursive environments.",
  ["src/registry.cpp: Registry::get, Registry::load"])
p("Aliases resolve one level and are never overwritten",
  "After alias(id, a) succeeds, get(a) behaves as get(id) provided id is not itself an alias; a second alias with the same name is an error and leaves the first in place; empty names are rejected; aliases of aliases are not followed.",
  "every registry state and every pair of names",
  "Quantifies over all registry histories.",
  ["src/registry.cpp: Registry::alias, Registry::get"])
p("Concurrent lookups are serialised",
  "Concurrent get() calls from several threads behave as some serial order of those calls. (False of the code: the guard object is a temporary destroyed at the end of its own statement, so the registry mutex protects nothing; two concurrent first lookups of the same registered id can make one thread fail with 'no loader found'. Proved: with the lock held for the whole lookup every interleaving of top-level lookups of registered ids succeeds.)",
  "every number of threads and every interleaving of their atomic steps",
  "Schedules cannot be enumerated by tests.",
  ["src/registry.cpp:56, 112, 127 std::lock_guard<std::mutex>(registry.lock)"])
p("Failed lookups are side-effect free",
  "Looking up an id that has neither a type nor a loader (directly or through one alias) fails with an error and leaves types, aliases and loaders unchanged; conversely a lookup at the top level fails only in that case or when a loader it runs fails.",
  "every registry state and every id",
  "Quantifies over all registry states.",
  ["src/registry.cpp: Registry::get, Registry::load"])
# ---------------- C. scopes
p("Qualified names split and join inversely",
  "For every name whose template brackets are balanced and whose top-level colons are paired, splitting off the first component and joining it back yields the same name, likewise for the last component; '::' inside template brackets never splits; joining two non-empty well-formed parts and splitting off the head (resp. tail) of a single component returns those parts.",
  "every byte string",
  "Quantifies over all names of any length and any template nesting depth.",
  ["src/scope.cpp: Scope::head, Scope::tail, Scope::join"])
p("Name splitting rejects exactly the malformed names",
  "head()/tail() report an error exactly when the scanned part of the name has a single top-level colon or unbalanced brackets up to the split point, and otherwise succeed; splitting off head components repeatedly always terminates.",
  "every byte string",
  "Quantifies over all strings.",
  ["src/scope.cpp: Scope::head, Scope::tail"])
p("Scopes behave as a set of qualified type names",
  "After any sequence of type registrations, hasType(n) is true exactly for the registered qualified names, type lookups of any other name fail, and registering one name does not affect the presence of any other.",
  "every sequence of registrations and every queried name",
  "Refinement of a recursive tree to a flat set for all histories.",
  ["src/scope.cpp: Scope::addType, Scope::hasType, Scope::type"])
p("Recursive type listing is complete",
  "types(true) lists exactly the qualified names that were registered, each once; types(false) exactly the immediate ones.",
  "every sequence of registrations",
  "Quantifies over trees of any depth.",
  ["src/scope.cpp: Scope::types"])
p("Scope function registration and lookup",
  "After addFunction(n, f), hasFunction(n) is true and function(n) returns an overload set containing f and all previously registered overloads of n and no others; functions registered under other names are unaffected.",
  "every scope tree and every well-formed name",
  "Quantifies over trees and names.",
  ["src/scope.cpp: Scope::addFunction, Scope::hasFunction, Scope::function"])
p("A scope's id is the path that reaches it",
  "For every well-formed qualified name with non-empty components, scope(name)->id() == name, requesting the same name twice returns the same scope, and hasScope(name) is true afterwards and false before it was created.",
  "every scope tree and every well-formed name",
  "Quantifies over trees and names of any depth.",
  ["src/scope.cpp: Scope::scope, Scope::id, Scope::hasScope"])
# ---------------- D. JSON text layer
p("Strings survive escaped printing and parsing",
  "Printing any valid UTF-8 string with default writer options and reading it back with default reader options yields the same string. (False for characters above U+FFFF, which are printed as a 5-6 digit \\u escape. Proved for every valid UTF-8 string all of whose characters are in the basic multilingual plane.)",
  "every valid UTF-8 string of any length",
  "Quantifies over all strings; the failure needs characters outside the BMP that no test uses.",
  ["src/utils/json/format.cpp: formatString, escapeUnicode", "src/utils/json/token.cpp: readString, unescapeUnicode"])
p("Strings survive raw printing and parsing",
  "With escaping disabled on the writer, every string the writer accepts without error is read back unchanged by a reader with default options or with validation disabled; without validation on both sides every byte string is read back unchanged.",
  "every byte string",
  "Quantifies over all byte strings.",
  ["src/utils/json/format.cpp: formatString, readUnicode", "src/utils/json/token.cpp: readString, validateUnicode"])
p("The UTF-8 validators accept exactly shortest-form UTF-8",
  "With validation on, the reader and the writer accept a raw multi-byte sequence exactly when it is a well formed 2-, 3- or 4-byte sequence in shortest form with correct continuation bytes (surrogates and code points above U+10FFFF up to 0x1FFFFF are not rejected); truncated sequences, stray continuation bytes, 5/6-byte forms and overlong forms are reported as errors.",
  "every byte sequence",
  "Quantifies over all lead/continuation combinations followed by arbitrary context.",
  ["src/utils/json/token.cpp: validateUnicode", "src/utils/json/format.cpp: readUnicode"])
p("Unicode escapes decode to the right bytes",
  "A \\uXXXX escape read with unescaping on yields the UTF-8 encoding (1, 2 or 3 bytes) of that code for all 65536 values in either hex case, and an escape with a non-hex digit is reported as an error.",
  "all four-digit escapes, any continuation of the input",
  "All 65536 values and all malformed digits.",
  ["src/utils/json/token.cpp: unescapeUnicode"])
p("Integers round trip",
  "Every signed 64-bit integer printed by the writer is read back by the reader as an integer token with the same value, whatever legal delimiter follows it.",
  "all 2^64 values, all following delimiters",
  "2^64 values.",
  ["src/utils/json/format.cpp: formatInt", "src/utils/json/token.cpp: readNumber, Token::asInt"])
p("Reading always terminates and makes progress",
  "On every finite input, producing a token terminates, consumes at least one byte or reports end of stream/error, and never reads past the end; parsing a whole document therefore terminates.",
  "every byte string, all reader options",
  "Quantifies over all inputs.",
  ["src/utils/json/token.cpp: nextToken", "src/utils/json/reader.cpp"])
p("The first error is sticky",
  "Once a reader has recorded an error it keeps that first error, reports not-ok, and every later operation (peek, next, expect, skip, parseObject, parseArray) neither clears nor replaces it.",
  "every sequence of reader operations",
  "Invariant over all histories.",
  ["src/utils/json/reader.tcc: Reader::error", "src/utils/json/reader.h"])
p("Whitespace and comments are insignificant",
  "Inserting any whitespace between tokens, or // comments when enabled, does not change the sequence of tokens read.",
  "every token sequence and every inserted whitespace/comment string",
  "Quantifies over all paddings.",
  ["src/utils/json/token.cpp: nextChar"])
p("Skipping consumes exactly one value",
  "skip() applied to the text of any JSON value followed by anything consumes exactly that value, whatever its nesting, and leaves the reader positioned at what follows.",
  "every JSON value (any nesting) and every continuation",
  "Quantifies over values of any depth.",
  ["src/utils/json/parser.tcc: skip"])
p("Malformed input is reported, not fatal",
  "Parsing any byte string either succeeds or returns an error object; it never aborts the process, throws a foreign exception or has undefined behaviour. (False of the code in several ways, each witnessed; proved for the token layer without unicode validation.)",
  "every byte string",
  "Quantifies over all inputs including adversarial ones.",
  ["src/utils/json/token.cpp: Token::asInt, nextToken, validateUnicode", "src/utils/json/parser.tcc: parseInt, parseFloat, skip"])
p("Truncated documents are detected",
  "Parsing a proper prefix of a printed array or object reports an error. (False of the code: an input that ends immediately after the opening bracket is accepted as an empty container.)",
  "every document and every proper prefix",
  "Every cut point of every document.",
  ["src/utils/json/parser.tcc: parseObject, parseArray"])
p("Printed documents parse back",
  "For every value built from booleans, 64-bit integers, strings, lists, string-keyed maps and objects, the printed text (compact or pretty) parsed back into the same shape yields the same value, no error is reported and exactly the printed text is consumed.",
  "every value of every shape and depth, compact and pretty modes",
  "Quantifies over trees of any depth.",
  ["src/utils/json/printer.cpp", "src/utils/json/printer.tcc", "src/utils/json/parser.cpp", "src/utils/json/parser.tcc"])
p("Container parsing semantics",
  "Parsing an array into a list appends the elements in order to what the list already contains; parsing an object into a map stores for each key the last occurrence and keeps the other pre-existing keys; parsing into a reflected object assigns exactly the known, non skipped keys (by alias when one is given) and ignores unknown keys without disturbing other fields.",
  "every target value and every document",
  "Quantifies over targets and documents.",
  ["src/utils/json/parser.cpp: ArrayParser, MapParser, ObjectParser"])
p("Position tracking",
  "The line reported by the reader after consuming a prefix of the input equals one plus the number of newlines in it. (False when a // comment was skipped: the newline ending it is not counted. Proved for inputs without comments.)",
  "every input and every prefix",
  "Quantifies over all inputs.",
  ["src/utils/json/token.cpp: nextChar", "src/utils/json/reader.h: newline, pos"])
# ---------------- E. errors
p("Error messages are reproduced safely",
  "For every formatted message the error text equals the message or a prefix of it, and no memory outside the buffer is read. (False for messages of 1023 bytes or more. Proved for messages of at most 1022 bytes.)",
  "every message of any length",
  "Quantifies over all lengths; reachable from untrusted input.",
  ["src/error.cpp: verrorFormat"])
# ---------------- F. config
p("Config paths print and parse inversely",
  "Parsing the printed form of any path whose components are non-empty and contain no separator yields the same path; parsing any text either fails because of an empty component or yields a path whose printed form is the text, up to one trailing separator.",
  "every path and every text",
  "Quantifies over all strings and component lists.",
  ["src/utils/config/path.cpp: Path::Path, Path::parse, Path::toString"])
p("Config paths are totally ordered",
  "Path comparison is a strict total order consistent with equality (so paths are usable as ordered map keys), lexicographic on components with a prefix ordered first.",
  "all paths",
  "Quantifies over all triples of paths.",
  ["src/utils/config/path.cpp: operator<"])
p("The link tree is a set of paths",
  "After any sequence of add/erase on the node tree, has/subtree queries agree with the set of paths currently present; erasing a path removes exactly it and prunes only nodes that became empty.",
  "every history of operations",
  "Refinement for all histories.",
  ["src/utils/config/node.cpp"])
# ---------------- G. misc
p("Type identity ignores const and references",
  "type<T>() is the same object for T, T const, T&, T const&, T&& and, for pointers, for every combination of const on pointers and pointees; stripping is idempotent and pointer depth is preserved.",
  "every type expression built from const, &, && and *",
  "Quantifies over all type expressions of any depth.",
  ["src/clean_type.h: CleanType", "src/registry.h: Registry::get<T>, typeId", "src/types/pointer.h: Reflect<T*>::id"])
p("Traits are write-once",
  "A trait once added keeps its value forever; adding it again is an error that changes nothing; is(t) is true exactly for added traits; a type becomes a pointer at most once.",
  "every history of trait operations",
  "Invariant over all histories.",
  ["src/traits.cpp: Traits::addTrait, Traits::is", "src/type.cpp: Type::setPointer"])
p("Skipped fields and empty values in printing",
  "Printing a reflected object emits exactly the fields that are not marked skip and not (empty when skipEmpty is requested), in sorted key order, each under its alias if it has one.",
  "every object type and every value",
  "Quantifies over all field sets.",
  ["src/utils/json/printer.cpp: ObjectPrinter, isEmpty", "src/utils/json/traits.cpp"])
with open('/verif/properties.jsonl','w') as f:
    for x in P: f.write(json.dumps(x, ensure_ascii=False)+"\n")
print(len(P))

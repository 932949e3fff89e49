{"id": "C01", "title": "Subtyping is declared ancestry", "statement": "t->isChildOf(u) (and u->isParentOf(t)) returns true exactly when u is reachable from t through declared parents, where two pointer-like types of the same pointer kind are instead compared through their pointees. On every hierarchy whose parent/pointee links are acyclic the query returns (no divergence) and the relation is reflexive; as long as pointer types take no part in inheritance it is transitive, and antisymmetric when there is one pointer type per kind and pointee. (False of the code without that proviso: a hierarchy with pointer types as parents on which the relation is neither antisymmetric nor transitive.)", "quantifier": "every type graph (any number of types, any depth of inheritance, any pointer nesting) and every pair of types in it", "why_tests_cant": "The set of type graphs is infinite; transitivity/antisymmetry/termination are statements about all graphs, tests only exercise a few three-level hierarchies.", "anchors": ["src/type.cpp: Type::isChildOf, Type::isParentOf, Type::isPointer, Type::pointer, Type::pointee", "src/type.h: Type::parent"]}
{"id": "C02", "title": "Argument matching never drops const", "statement": "If an argument that refers to a const object is accepted (Exact or Partial) for a parameter that is a reference (T& or T&&), then that parameter is itself const, unless one of the two types is reflect::Value or a user-registered converter is used.", "quantifier": "every type graph, every argument (type, ref kind, constness) and every parameter", "why_tests_cant": "Universally quantified over the type graph, inheritance depth and registered converters.", "anchors": ["src/argument.cpp: Argument::isConvertibleTo", "src/ref_type.h: testConstConversion"]}
{"id": "C03", "title": "Argument matching respects value categories", "statement": "Leaving aside reflect::Value and converters: a temporary or by-value argument is never accepted for a non-const T& parameter, an lvalue or by-value argument is never accepted for a T&& parameter (other than by exact equality), and accepted reference bindings always go from a type to itself or one of its ancestors.", "quantifier": "every type graph, every argument and every parameter", "why_tests_cant": "Universally quantified over type graphs and argument triples; a missing case silently binds a dangling or moved-from reference.", "anchors": ["src/argument.cpp: Argument::isConvertibleTo, isTemporary, isLValueRef"]}
{"id": "C04", "title": "Match grades follow the documented decision table", "statement": "For every pair (argument, parameter) the grade returned (None / Partial / Exact) equals that of an independently written declarative table: identical triples are Exact; exactly one side reflect::Value is Exact; a registered converter gives Partial for anything but a T& parameter and None there; otherwise None unless the binding is legal and the types are related by ancestry, in which case it is Exact if categories agree or a temporary initialises a by-value parameter, and Partial otherwise.", "quantifier": "every type graph, every argument, every parameter", "why_tests_cant": "The table has infinitely many instances through the type graph; tests sample literals.", "anchors": ["src/argument.cpp: Argument::isConvertibleTo", "src/type.cpp: Type::hasConverter"]}
{"id": "C05", "title": "A call is only as good as its weakest argument", "statement": "Matching an argument list against a parameter list gives None when the counts differ, and otherwise exactly the weakest of the per-argument grades (Exact for the empty list); the result does not change when argument/parameter pairs are permuted together; grade combination is associative, commutative, idempotent with Exact neutral and None absorbing.", "quantifier": "all argument lists and parameter lists of any length", "why_tests_cant": "Quantifies over lists of any length and any type graph.", "anchors": ["src/function.cpp: Function::testArguments, Function::test", "src/argument.cpp: combine"]}
{"id": "C06", "title": "Overload resolution outcome", "statement": "Calling an overload set with given arguments and wanted return type picks the first overload (in registration order) that matches Exactly if there is one; otherwise the only overload that matches Partially; otherwise it reports an ambiguity error when two or more match Partially and a no-overload error when none matches. Exactly one of these cases applies.", "quantifier": "every overload set of any size and every call signature", "why_tests_cant": "Quantifies over overload sets of any length and order; the scan keeps state (best, ambiguous flag) that tests exercise only for 2-3 overloads.", "anchors": ["src/overloads.tcc: Overloads::call"]}
{"id": "C07", "title": "Registered overload sets have no interchangeable pair", "statement": "However a set of overloads is built through registration while the classes involved stay as they are, no later overload is an Exact match for the signature of an earlier one; in particular no two overloads in a set have the same return and parameter types. An attempt to register such a function is rejected and leaves the existing overloads unchanged. (False of the code when a class gains its parent after the comparison: C70.)", "quantifier": "every sequence of registrations", "why_tests_cant": "An invariant over all registration histories.", "anchors": ["src/overloads.cpp: Overloads::add"]}
{"id": "C08", "title": "When overload choice does not depend on registration order", "statement": "Reordering the registration of the same overloads never changes whether a call resolves, nor which error it gets; it does not change the overload selected when at most one overload matches the call exactly; and when several do, the first registered of them is selected. Overloads no two of which are interchangeable in either direction can be registered in every order. False of the code without these provisos: two overloads can both match exactly and then the order decides, and registration checks interchangeability in one direction only (witnesses).", "quantifier": "every overload set, every permutation of it, every call", "why_tests_cant": "Quantifies over all permutations of sets of any size.", "anchors": ["src/overloads.tcc: Overloads::call", "src/overloads.cpp: Overloads::add"]}
{"id": "C09", "title": "test(), get() and call() agree", "statement": "get() succeeds exactly when test() is true, call() succeeds only when test() is true, and when exactly one overload is viable get() and call() designate the same function. In general they may differ: get() returns the first viable overload while call() prefers an Exact one.", "quantifier": "every overload set and every signature", "why_tests_cant": "Agreement of three independently written scans on all overload sets.", "anchors": ["src/overloads.cpp: Overloads::test, Overloads::get", "src/overloads.tcc: Overloads::call"]}
{"id": "C10", "title": "A member name is either a field or a function", "statement": "After any sequence of addField/addFunction calls on a type (rejected calls leaving it untouched), no name is both an immediate field and an immediate function of that type, each field name is registered at most once and keeps its first definition, and every accepted function stays registered.", "quantifier": "every history of registrations on a type", "why_tests_cant": "Invariant over all histories.", "anchors": ["src/type.cpp: Type::addFunction, Type::addField"]}
{"id": "C11", "title": "Member lookup finds the nearest definition", "statement": "hasFunction/hasField is true exactly when the type or one of its ancestors declares the name; function()/field() then succeeds and returns the declaration of the nearest such ancestor, and fails with an error otherwise.", "quantifier": "every acyclic type graph, every type, every name", "why_tests_cant": "Quantifies over inheritance chains of any length.", "anchors": ["src/type.cpp: Type::hasFunction, Type::function, Type::hasField, Type::field"]}
{"id": "C12", "title": "Member listings are sorted, duplicate free and complete", "statement": "functions() and fields() return a strictly increasing (lexicographic) list containing exactly the names for which hasFunction/hasField is true, independently of the iteration order of the underlying hash maps.", "quantifier": "every acyclic type graph, every type, every hash-map iteration order", "why_tests_cant": "Quantifies over chains and over the unspecified iteration order of unordered_map.", "anchors": ["src/type.cpp: Type::functions, Type::fields"]}
{"id": "C13", "title": "Copiable types are movable", "statement": "Whenever isCopiable() holds for a type, isMovable() holds too; a type whose only unary constructor from itself takes T&& is movable and not copiable; a type with a T const& constructor is copiable.", "quantifier": "every type graph and every set of registered constructors (any number of overloads)", "why_tests_cant": "Quantifies over all constructor overload sets.", "anchors": ["src/type.cpp: Type::isCopiable, Type::isMovable", "src/dsl/plumbing.h: reflectCopyConstructor, reflectMoveConstructor"]}
{"id": "C14", "title": "An accepted call marshals its arguments", "statement": "If a function's signature accepts a list of call arguments, then converting the arguments to its parameters does not fail and the function is invoked exactly once, with: a reference parameter bound to the very object the argument designates; a T&& parameter initialised by moving from that object; a by-value parameter copied from a fresh T built by a constructor of T (or by the registered conversion) from that object; a by-value Value parameter receiving the handle itself. Temporaries passed at the call site are first stored in a fresh object. A call the signature rejects aborts without invoking anything. Provisos: by-value parameter types are plumbed (one copy constructor; other one-argument constructors do not take the argument's type), T&& parameter types are movable, a user conversion is a single const function, the argument does not designate a Value object, Value parameters are taken by value, temporaries are storable. False of the code without each of these provisos (witnesses: move-only type by value, T&& of a type without reflected move constructor, conversion with two overloads, handle to a Value object, const Value& parameter).", "quantifier": "every type graph, function signature, requested return type, argument list of any length, and initial state", "why_tests_cant": "Quantifies over type graphs, signatures and argument lists of any length.", "anchors": ["src/cast.cpp: lref, rref, copy, cast, isCastable", "src/function.tcc: Function::call", "src/value_function.h: ValueFunctionImpl::call"]}
{"id": "C15", "title": "Const is never lost through value views", "statement": "Starting from a Value that designates a const object, no sequence of copying the handle, rvalue(), toConst(), field access and lvalue casts yields a handle that is non-const or that designates another object; toConst() always yields const; casting any such handle to T& is rejected; and no T& or T&& parameter of a function accepts it. False of the code for two other operations: cast to T&& is accepted and moves from the const object, and as<T>() returns a mutable reference whatever the handle (witnesses). as<T>() and get<T>() give the designated object exactly when its type is T or derived from T; otherwise they are reported.", "quantifier": "every chain of view operations of any length on any type graph", "why_tests_cant": "Quantifies over arbitrarily long chains of operations.", "anchors": ["src/value.cpp: toConst, rvalue", "src/value.tcc: Value::field", "src/cast.cpp: lref, rref"]}
{"id": "C16", "title": "Function objects release their target exactly once", "statement": "Over any sequence of creating, move-constructing, move-assigning, calling and destroying reflected functions, a wrapped callable is never freed twice and never used after being freed; a function that still holds a callable can be called, one that was moved from or destroyed cannot (undefined behaviour); and if no assignment overwrites a function that holds a callable, every callable is freed by the time all functions are destroyed. (False without the proviso: move-assignment over a live function leaks the overwritten callable; releasing it first is enough to repair it.)", "quantifier": "every sequence of operations on any number of function objects", "why_tests_cant": "Memory-ownership invariant over all histories.", "anchors": ["src/function.cpp: Function::Function(Function&&), operator=(Function&&), ~Function", "src/value_function.cpp: freeValueFunction"]}
{"id": "C17", "title": "One type object per id", "statement": "In any history of add / alias / get, including lookups made recursively by loaders, two lookups that resolve to the same id return the same type object, that object's id is the requested (alias-resolved) id, distinct ids get distinct objects, and a type once returned is returned by every later lookup of that id as long as the id has not itself been redefined as an alias.", "quantifier": "every history of registry operations and every set of (recursive) loaders", "why_tests_cant": "Invariant over all histories and loader programs.", "anchors": ["src/registry.cpp: Registry::get, load, add, alias"]}
{"id": "C18", "title": "A loader runs at most once", "statement": "Across any history, the loader of an id is invoked at most once until a new loader is registered for it, at most one type object is ever created per id, and when several loaders are registered for an id before its first lookup the first one wins.", "quantifier": "every history of registry operations", "why_tests_cant": "Invariant over all histories.", "anchors": ["src/registry.cpp: Registry::load, Registry::add"]}
{"id": "C19", "title": "Recursive type definitions load without looping", "statement": "A lookup terminates for every finite set of loaders, however their lookups refer to each other (including self reference and mutual recursion); an id whose loader is running resolves to the (partially loaded) object being built.", "quantifier": "every finite loader environment, every id", "why_tests_cant": "Termination for all mutually recursive environments.", "anchors": ["src/registry.cpp: Registry::get, Registry::load"]}
{"id": "C20", "title": "Aliases resolve one level and are never overwritten", "statement": "After alias(id, a) succeeds, get(a) behaves as get(id) provided id is not itself an alias; a second alias with the same name is an error and leaves the first in place; empty names are rejected; aliases of aliases are not followed.", "quantifier": "every registry state and every pair of names", "why_tests_cant": "Quantifies over all registry histories.", "anchors": ["src/registry.cpp: Registry::alias, Registry::get"]}
{"id": "C21", "title": "Concurrent lookups are serialised", "statement": "Concurrent get() calls from several threads of ids whose types are already loaded behave as a serial order of those calls in every interleaving, and leave the registry unchanged; and if the lock were held for the whole of each outermost lookup, every interleaving of any lookups would be serial. (False of the code without the proviso: the guard object is a temporary destroyed at the end of its own statement, so the registry mutex protects nothing; two concurrent first lookups of the same registered id can make one thread fail, or erase the same loader entry twice; and holding the existing non-recursive mutex would deadlock loaders that make lookups.)", "quantifier": "every number of threads and every interleaving of their atomic steps", "why_tests_cant": "Schedules cannot be enumerated by tests.", "anchors": ["src/registry.cpp:56, 112, 127 std::lock_guard<std::mutex>(registry.lock)"]}
{"id": "C22", "title": "Failed lookups are side-effect free", "statement": "Looking up an id that has neither a type nor a loader (directly or through one alias) fails with an error and leaves the registry unchanged; conversely a lookup at the top level fails only in that case or when a loader it runs fails. (A lookup whose loader fails is not side effect free: the half built type stays registered and is returned by the next lookup.)", "quantifier": "every registry state and every id", "why_tests_cant": "Quantifies over all registry states.", "anchors": ["src/registry.cpp: Registry::get, Registry::load"]}
{"id": "C23", "title": "Qualified names split and join inversely", "statement": "For every name whose template brackets are balanced and whose top-level colons are paired, splitting off the first component and joining it back yields the same name, likewise for the last component; '::' inside template brackets never splits; joining two non-empty well-formed parts and splitting off the head (resp. tail) of a single component returns those parts.", "quantifier": "every byte string", "why_tests_cant": "Quantifies over all names of any length and any template nesting depth.", "anchors": ["src/scope.cpp: Scope::head, Scope::tail, Scope::join"]}
{"id": "C24", "title": "Name splitting rejects exactly the malformed names", "statement": "head()/tail() report an error exactly when the scanned part of the name has a single top-level colon or unbalanced brackets up to the split point, and otherwise succeed; splitting off head components repeatedly always terminates.", "quantifier": "every byte string", "why_tests_cant": "Quantifies over all strings.", "anchors": ["src/scope.cpp: Scope::head, Scope::tail"]}
{"id": "C25", "title": "Scopes behave as a set of qualified type names", "statement": "After any sequence of type registrations, hasType(n) is true exactly for the registered qualified names, type lookups of any other name fail, and registering one name does not affect the presence of any other, for every queried name none of whose inner components is itself a registered type; type(n) of a registered name asks the registry for exactly n the first time and repeats that answer ever after; a query, lookup or registration that goes through a registered type (A::B when A is a type) is a fatal error. (Without that proviso the claim is false of the code: addType(\"A::B\"), addType(\"A\") both succeed and hasType(\"A::B\") then aborts.)", "quantifier": "every sequence of registrations and lookups, every queried name, every behaviour of the registry", "why_tests_cant": "Refinement of a recursive tree to a flat set for all histories.", "anchors": ["src/scope.cpp: Scope::addType, Scope::hasType, Scope::type"]}
{"id": "C26", "title": "Recursive type listing is complete", "statement": "types(true) lists exactly the qualified names that were registered, each once; types(false) exactly the immediate ones.", "quantifier": "every sequence of registrations", "why_tests_cant": "Quantifies over trees of any depth.", "anchors": ["src/scope.cpp: Scope::types"]}
{"id": "C27", "title": "Scope function registration and lookup", "statement": "After addFunction(n, f), hasFunction(n) is true and function(n) returns an overload set containing f and all previously registered overloads of n and no others; functions registered under other names are unaffected.", "quantifier": "every scope tree and every well-formed name", "why_tests_cant": "Quantifies over trees and names.", "anchors": ["src/scope.cpp: Scope::addFunction, Scope::hasFunction, Scope::function"]}
{"id": "C28", "title": "A scope's id is the path that reaches it", "statement": "For every well-formed qualified name with non-empty components, scope(name)->id() == name, requesting the same name twice returns the same scope, and hasScope(name) is true afterwards and false before it was created. scopes() lists exactly the names of the direct child scopes, each once.", "quantifier": "every scope tree and every well-formed name", "why_tests_cant": "Quantifies over trees and names of any depth.", "anchors": ["src/scope.cpp: Scope::scope, Scope::id, Scope::hasScope"]}
{"id": "C29", "title": "Strings survive escaped printing and parsing", "statement": "Printing any valid UTF-8 string with default writer options and reading it back with default reader options yields the same string. (False for characters above U+FFFF, which are printed as a 5-6 digit \\u escape. Proved for every valid UTF-8 string all of whose characters are in the basic multilingual plane.)", "quantifier": "every valid UTF-8 string of any length", "why_tests_cant": "Quantifies over all strings; the failure needs characters outside the BMP that no test uses.", "anchors": ["src/utils/json/format.cpp: formatString, escapeUnicode", "src/utils/json/token.cpp: readString, unescapeUnicode"]}
{"id": "C30", "title": "Strings survive raw printing and parsing", "statement": "With escaping disabled on the writer, every string the writer accepts without error is read back unchanged by a reader with default options, or by one with validation disabled; without validation on both sides the writer accepts every byte string and it is read back unchanged.", "quantifier": "every byte string", "why_tests_cant": "Quantifies over all byte strings.", "anchors": ["src/utils/json/format.cpp: formatString, readUnicode", "src/utils/json/token.cpp: readString, validateUnicode"]}
{"id": "C31", "title": "The UTF-8 validators accept exactly shortest-form UTF-8", "statement": "With validation on, the reader and the writer (when not escaping) accept a raw byte string exactly when it is a sequence of characters in well formed shortest-form UTF-8 of 1 to 4 bytes with correct continuation bytes (surrogates and code points above U+10FFFF up to 0x1FFFFF are not rejected); truncated sequences, stray continuation bytes, 5/6-byte forms and overlong forms are reported as errors. (Proviso: the string contains no byte 0xFF. False of the code without it: 0xFF makes both evaluate clz(0), which is undefined. The escaping writer does not check for the shortest form.)", "quantifier": "every byte sequence", "why_tests_cant": "Quantifies over all lead/continuation combinations followed by arbitrary context.", "anchors": ["src/utils/json/token.cpp: validateUnicode", "src/utils/json/format.cpp: readUnicode"]}
{"id": "C32", "title": "Unicode escapes decode to the right bytes", "statement": "A \\uXXXX escape read with unescaping on yields the UTF-8 encoding (1, 2 or 3 bytes) of that code for all 65536 values in either hex case, and an escape with a non-hex digit is reported as an error.", "quantifier": "all four-digit escapes, any continuation of the input", "why_tests_cant": "All 65536 values and all malformed digits.", "anchors": ["src/utils/json/token.cpp: unescapeUnicode"]}
{"id": "C33", "title": "Integers round trip", "statement": "Every signed 64-bit integer printed by the writer is read back by the reader as an integer token with the same value, whatever legal delimiter follows it.", "quantifier": "all 2^64 values, all following delimiters", "why_tests_cant": "2^64 values.", "anchors": ["src/utils/json/format.cpp: formatInt", "src/utils/json/token.cpp: readNumber, Token::asInt"]}
{"id": "C34", "title": "Reading always terminates and makes progress", "statement": "On every finite input, producing a token terminates, consumes at least one byte or leaves the reader not ok, and only reads bytes of the input; parsing a whole document into any reflected type therefore terminates.", "quantifier": "every byte string, all reader options", "why_tests_cant": "Quantifies over all inputs.", "anchors": ["src/utils/json/token.cpp: nextToken", "src/utils/json/reader.cpp"]}
{"id": "C35", "title": "The first error is sticky", "statement": "Once a reader has recorded an error it keeps that first error, reports not-ok and reads no further byte, whatever sequence of operations (peek, next, expect, error, skip, the parse functions with any callbacks that only use the reader this way) follows.", "quantifier": "every sequence of reader operations", "why_tests_cant": "Invariant over all histories.", "anchors": ["src/utils/json/reader.tcc: Reader::error", "src/utils/json/reader.h"]}
{"id": "C36", "title": "Whitespace and comments are insignificant", "statement": "Inserting any whitespace between tokens, or // comments when enabled, does not change the sequence of tokens read. When they are not enabled, which is the default, a // comment between tokens is reported as an error. In particular a text is the text of at most one document.", "quantifier": "every token sequence and every inserted whitespace/comment string", "why_tests_cant": "Quantifies over all paddings.", "anchors": ["src/utils/json/token.cpp: nextChar"]}
{"id": "C37", "title": "Skipping consumes exactly one value", "statement": "skip() applied to the text of any JSON value followed by anything consumes exactly that value, whatever its nesting, and leaves the reader positioned at what follows. (Proviso: a number is followed by at least one byte. False of the code without it: a number that ends the input is left as the look-ahead token.)", "quantifier": "every JSON value (any nesting) and every continuation", "why_tests_cant": "Quantifies over values of any depth.", "anchors": ["src/utils/json/parser.tcc: skip"]}
{"id": "C38", "title": "Malformed input is reported, not fatal", "statement": "Without unicode validation, taking, peeking at or expecting a token on any byte string always yields a token or an error object: it never aborts the process, throws or has undefined behaviour; with validation, undefined behaviour is the only other outcome, and it is impossible anywhere in a text that ends with a newline and has no byte 0xFF. Under the same conditions reading a whole document, malformed or not, into a value of any type built without classes ends with a value, an error, an exception or an abort, never with undefined behaviour. (That a whole document always ends with a value or an error is false of the code: witnesses show aborts, foreign exceptions and undefined behaviour on malformed documents.)", "quantifier": "every byte string", "why_tests_cant": "Quantifies over all inputs including adversarial ones.", "anchors": ["src/utils/json/token.cpp: Token::asInt, nextToken, validateUnicode", "src/utils/json/parser.tcc: parseInt, parseFloat, skip"]}
{"id": "C39", "title": "Truncated documents are detected", "statement": "Take any document that is not a bare number, any text of it, and any target it can be read into. If parsing a proper prefix of the text into that target finishes without reporting an error, then the prefix stops at the very start of the document: it is an opening bracket alone (with blanks), or an opening square bracket followed by (part of) a number. In particular this holds for every proper prefix of what the printer writes for a list, map or object. (False of the code without the exception: inputs such as '[', '{' or '[ 12' are accepted and leave the container as it was.)", "quantifier": "every document, every spelling of it, every type and target, every cut point, every reader option", "why_tests_cant": "Every cut point of every document.", "anchors": ["src/utils/json/parser.tcc: parseObject, parseArray", "src/utils/json/token.cpp: nextToken, readNumber", "src/utils/json/reader.h: Reader::operator bool"]}
{"id": "C40", "title": "Printed documents parse back", "statement": "For every value built from booleans, 64-bit integers, strings, lists, string-keyed maps and classes of these (no skipped field, value-initialised by their constructor), the printed text (compact or pretty, with any combination of escaping and validation options that can carry the strings of the value: with \\u escaping the strings are UTF-8 up to U+FFFF and the reader unescapes, otherwise UTF-8, or any bytes when neither side validates) parsed back into a value-initialised object of the same type yields the same value, no error is reported and exactly the printed text is consumed; pretty printing is limited to 1024 levels. The same holds for doubles, pointers, skipped fields and other targets provided nothing the printer leaves out is lost. (False of the code without these provisos: other integral types abort, compact printing loses a pointer to an empty object, pretty printing deeper than 1024 levels reads out of bounds.) Printing a value whose type contains, directly or through fields that are not skipped, a dynamically typed one (a reflected Value) is reported as an error, whatever the value.", "quantifier": "every value of every shape and depth, compact and pretty modes", "why_tests_cant": "Quantifies over trees of any depth.", "anchors": ["src/utils/json/printer.cpp", "src/utils/json/printer.tcc", "src/utils/json/parser.cpp", "src/utils/json/parser.tcc"]}
{"id": "C41", "title": "Container parsing semantics", "statement": "Parsing an array into a list appends the elements in order to what the list already contains; parsing an object into a map stores for each key the last occurrence and keeps the other pre-existing keys; parsing into a reflected object assigns exactly the known, non skipped keys (by alias when one is given) and ignores unknown keys without disturbing other fields; in each case exactly the text of the document is consumed. Whatever the text is, well formed or not, a list keeps its elements, a map its keys and an object its skipped fields. (The elements are documents that the element type can read: an integer literal into a double, or null into a raw pointer inside a container, is fatal in the code.) Reading into an object of a type that contains a class two of whose non skipped fields share a name in the text is reported as an error, whatever the text.", "quantifier": "every target value and every document", "why_tests_cant": "Quantifies over targets and documents.", "anchors": ["src/utils/json/parser.cpp: ArrayParser, MapParser, ObjectParser"]}
{"id": "C42", "title": "Position tracking", "statement": "As long as no error was reported, the line of a reader equals one plus the number of newlines in the input it has consumed, and its column one plus the number of bytes consumed since the last newline (or one more, once it has met the end of the input); the line of the first error is one plus the number of newlines before the point of the error (not counting the offending byte), and its column is that of the point of the error, counting the offending byte (one past the end when the error is the end of the input). (Proviso: comments are not enabled. False of the code without it: the newline ending a skipped // comment is not counted.)", "quantifier": "every input and every prefix", "why_tests_cant": "Quantifies over all inputs.", "anchors": ["src/utils/json/token.cpp: nextChar", "src/utils/json/reader.h: newline, pos"]}
{"id": "C43", "title": "Error messages are reproduced safely", "statement": "For every formatted message of at most 1022 bytes the error text equals the message and no memory outside the buffer is read; the raised error is the file, the line and the message and these can be recovered from it. (False for longer messages: with 1023 bytes the last byte is a NUL, with 1024 an uninitialised byte is copied, beyond that the buffer is overrun.)", "quantifier": "every message of any length", "why_tests_cant": "Quantifies over all lengths; reachable from untrusted input.", "anchors": ["src/error.cpp: verrorFormat"]}
{"id": "C44", "title": "Config paths print and parse inversely", "statement": "Parsing the printed form of any path whose components are non-empty and contain no separator yields the same path; parsing any text either fails because of an empty component or yields a path whose printed form is the text, up to one trailing separator.", "quantifier": "every path and every text", "why_tests_cant": "Quantifies over all strings and component lists.", "anchors": ["src/utils/config/path.cpp: Path::Path, Path::parse, Path::toString"]}
{"id": "C45", "title": "Config paths are totally ordered", "statement": "Path comparison is a strict total order consistent with equality (so paths are usable as ordered map keys), lexicographic on components with a prefix ordered first.", "quantifier": "all paths", "why_tests_cant": "Quantifies over all triples of paths.", "anchors": ["src/utils/config/path.cpp: operator<"]}
{"id": "C46", "title": "The link tree is a set of paths", "statement": "After any sequence of add, erase and get on the link tree, has() answers exactly for the paths that have a node: those added or got and their prefixes, minus what erases removed; subtree() lists exactly the (path, link) pairs present, each once, provided no component contains the default separator; erasing a path removes exactly the pairs at or below it and prunes exactly the branches left without any link or node; and a tree built by add and erase alone never keeps an empty branch. (False of subtree() without the proviso: components are parsed again with '.', so a path built with another separator is listed as a different path or reported as an error.)", "quantifier": "every history of operations", "why_tests_cant": "Refinement for all histories.", "anchors": ["src/utils/config/node.cpp"]}
{"id": "C47", "title": "Type identity ignores const and references", "statement": "type<T>() is the same object for T, T const, T&, T const&, T&& and, for pointers, for every combination of const on pointers and pointees: the id looked up, the id registered and the code that builds the type depend only on the named type and the pointer depth, and differ when these differ. (The intermediate type stripping is not idempotent: a const pointer to const needs it twice; and it does not terminate for pointers to functions, which therefore cannot be reflected.)", "quantifier": "every type expression built from const, &, && and *", "why_tests_cant": "Quantifies over all type expressions of any depth.", "anchors": ["src/clean_type.h: CleanType", "src/registry.h: Registry::get<T>, typeId", "src/types/pointer.h: Reflect<T*>::id"]}
{"id": "C48", "title": "Traits are write-once", "statement": "A trait once added keeps its value forever; adding it again is an error that changes nothing; is(t) is true exactly for added traits; a type becomes a pointer at most once.", "quantifier": "every history of trait operations", "why_tests_cant": "Invariant over all histories.", "anchors": ["src/traits.cpp: Traits::addTrait, Traits::is", "src/type.cpp: Type::setPointer"]}
{"id": "C49", "title": "Skipped fields and empty values in printing", "statement": "Printing a reflected object whose non skipped fields have distinct names emits exactly the fields that are not marked skip and not (empty when skipEmpty is requested by the field or compact mode is on), in sorted key order, each under its alias if it has one. (False of the code without the proviso: two fields under one alias are both printed with the value of the second.)", "quantifier": "every object type and every value", "why_tests_cant": "Quantifies over all field sets.", "anchors": ["src/utils/json/printer.cpp: ObjectPrinter, isEmpty", "src/utils/json/traits.cpp"]}
{"id": "C50", "title": "Registered ids are types of the global scope", "statement": "Every id made of non-empty components whose registration with add() succeeded is from then on, whatever happens later, a type of the global scope: it is present in the scope of its path, an unqualified one is listed by types(), and hasType() of its full name answers true unless a prefix of the name is itself a registered type (then hasType() reports an error).", "quantifier": "every registry history before and after the registration, every id", "why_tests_cant": "Invariant over all histories of the registry and all names.", "anchors": ["src/registry.cpp:112-122 Registry::add", "src/scope.cpp: Scope::addType, hasType, types"]}
{"id": "C51", "title": "List indices as path components", "statement": "A path extended with any 64-bit index has a component that is recognised as an index and read back as the same number, and that contains no separator; for a component taken from a path text, isIndex() is true exactly for digit strings, and index() returns their value when it fits in 64 bits. Everything else fails: an empty component or a number of 2^64 or more throws, any other component and an index out of the path are undefined behaviour. (isIndex() does not imply that index() succeeds: a digit string of 2^64 or more throws.)", "quantifier": "every prefix, every 64-bit index, every path text", "why_tests_cant": "Quantifies over all 2^64 indices and all texts.", "anchors": ["src/utils/config/path.cpp:72-103 Path(prefix, index), isIndex, index"]}
{"id": "C52", "title": "The result of an accepted call can be received", "statement": "If a function's signature accepts the requested return type and the arguments (with the provisos of C14), the call completes and yields: nothing when void is requested; the handle when a Value is requested; for a T& / const T& request, a reference to the very object the function returned a reference to; for a by-value request, a copy of a fresh T built from the returned object. Provisos: by-value requested types are plumbed for the returned type (or a single conversion exists), the function does not itself return a Value to be received as something else, and T&& is not requested. False of the code without the first proviso (witness: a move-only type returned by value and requested by value is accepted, then aborts).", "quantifier": "every type graph, function signature, requested return type, argument list and initial state", "why_tests_cant": "Quantifies over all signatures and type graphs.", "anchors": ["src/function.tcc: Function::call", "src/function.cpp: testReturn", "src/cast.h: retCast", "src/value_function.h: ValueFunctionImpl::call"]}
{"id": "C53", "title": "isCastable agrees with cast", "statement": "For a T& or const T& target, isCastable(value, target) answers exactly whether cast(value, target) succeeds, and the cast then yields the same handle. For a by-value target of a plumbed type likewise, the cast yielding a fresh mutable object of the target type; by value of a type that cannot be copied it is always reported, and where the reflected type says it can be but C++ cannot copy it, filling a by-value parameter is (an rvalue one if it can be neither moved nor copied). For a T&& target of a movable type, isCastable implies that cast succeeds. Provisos: no user conversion between the two types, neither is Value. False of the code in the other direction for T&& targets: cast accepts lvalue handles isCastable refuses (witness; the source says so too).", "quantifier": "every type graph, handle and target", "why_tests_cant": "Quantifies over all type graphs, handles and targets.", "anchors": ["src/cast.cpp: isCastable, cast, lref, rref, copy"]}
{"id": "C54", "title": "copy() and move() of a handle", "statement": "On a handle whose type is plumbed, copy() and move() succeed and yield a fresh, owned, non-const object of the same type built by exactly one constructor call. copy() of a handle that is const or not an rvalue view hands the original to the constructor by const reference. move() leaves the handle void; it moves from the original when the handle is not const and the type has a move constructor, and copies when the handle is const. copy() of a non-copiable type and move() of a non-movable type abort, the latter leaving the handle untouched. Not guaranteed by the code: copy() of a non-const rvalue view moves from the original, and a move() that fails in the constructor (const handle on a move-only object) has already emptied the handle (witnesses).", "quantifier": "every type graph, handle and state", "why_tests_cant": "Quantifies over all type graphs and handles.", "anchors": ["src/value.cpp: copy, move, rvalue", "src/type.tcc: construct"]}
{"id": "C55", "title": "Field access designates the right sub-object", "statement": "Following a path of field names from a handle reaches the declared type of the last field (each field looked up in the nearest declaring ancestor), at the original address plus the sum of the field offsets; the resulting handle is const iff the original handle is const or some field on the path is declared const, and it is an lvalue. Accessing a name no ancestor declares aborts. field<T&>(name) gives a reference to that very member when its type is T or a child of T and constness is kept, and stops the program otherwise.", "quantifier": "every type graph, handle, and path of any length", "why_tests_cant": "Quantifies over field paths of arbitrary length.", "anchors": ["src/value.tcc: Value::field", "src/type.cpp: Type::field"]}
{"id": "C56", "title": "reflectPlumbing() registers exactly what the class can do, and the right special member is picked", "statement": "A reflect body consisting of reflectPlumbing() is accepted on every freshly created type (other than reflect::Value, and not named like the assignment operator), changes no other type, and leaves exactly the trait and the functions it registers. Afterwards isMovable() is true iff the class is move constructible and isCopiable() iff it is copy and move constructible; constructing from nothing picks the default constructor, from a non-const rvalue the move constructor, from anything else of that type the copy constructor (or nothing when there is none); assignment needs a non-const lvalue on the left, prefers move assignment for a non-const rvalue and falls back on copy assignment; a class that cannot be moved has no constructor at all (asking for it is an error). Value::copy() then runs the copy constructor on the handled object and Value::move() its move constructor, each once.", "quantifier": "every well-formed set of types, every fresh type and id, every combination of the C++ capabilities, every argument list of that type, every handle", "why_tests_cant": "32 capability combinations times all argument categories times every surrounding type graph", "anchors": ["src/dsl/plumbing.h: reflectPlumbing, reflectDefaultCons, reflectCopyCons, reflectMoveCons, reflectOpCopyAssign, reflectOpMoveAssign", "src/type.cpp: addFunction, addTrait, isCopiable, isMovable", "src/overloads.tcc: call", "src/value.cpp: copy, move"]}
{"id": "C57", "title": "The library's own types always load", "statement": "For every element type, the reflect bodies of raw pointers, arithmetic types, std::string, std::vector, std::map, std::unordered_map, std::shared_ptr and std::unique_ptr are accepted without a rejected registration whenever the type object is fresh, change no other type, leave exactly the traits, pointer kind, pointee and functions they list, and make the type copiable and movable exactly as the C++ class is (so unique_ptr is movable and not copiable).", "quantifier": "every well-formed set of types, every element, key and pointee type, every id of the element types, every capability combination", "why_tests_cant": "one template instance per element type; the clash checks look at the whole type graph", "anchors": ["src/types/pointer.h", "src/types/primitives.tcc: reflectNumberImpl", "src/types/std/vector.h", "src/types/std/map.h: reflectMap", "src/types/std/smart_ptr.h: reflectSmartPtr", "src/types/std/string.cpp", "src/type.cpp: addFunction, addTrait, setPointer", "src/overloads.cpp: add"]}
{"id": "C58", "title": "reflectOperators() registers every operator of the class", "statement": "For a class without a member operator* the body reflectPlumbing(); reflectOperators() is accepted, and each operator that exists as a single member is then found under its name with its own signature, the prefix and postfix increments as two overloads. False of the code for a class with one operator*: reflectOperators() registers it twice (as multiplication and as indirection), so the second registration is rejected and the load always aborts.", "quantifier": "every well-formed set of types, every fresh type, every choice of operator members and signatures", "why_tests_cant": "2^40 subsets of operators times all signatures; no test class has an operator*", "anchors": ["src/dsl/operators.h: reflectOperators, reflectOpArithmetic, reflectOpOther, reflectOpIncDec", "src/overloads.cpp: add"]}
{"id": "C59", "title": "Reflected signatures are the C++ signatures", "statement": "The Argument made for a C++ type names the type object of the type with const, references and arrays stripped, is a copy, lvalue or rvalue reference as the type is, and const iff the outermost type (reference aside) is; so it determines a type without pointers completely. A C++ expression passed to a call is described as an lvalue or rvalue reference to its type. A member function is described as a function whose first parameter is a reference to its object (const for const members), a functor by its parameters alone. A field can have any type but a reference. False of the code with pointers: const below a pointer is lost, so a const Foo* is an exact match for a Foo* parameter.", "quantifier": "every C++ type built from named types, const, pointers, references and arrays (any depth), every function kind and arity", "why_tests_cant": "Quantifies over all C++ types and signatures.", "anchors": ["src/argument.tcc: Argument::make", "src/ref_type.h: makeRefType, isConst", "src/function_type.h: FunctionType, FunctorType", "src/function.tcc: reflectReturn, reflectArguments, Function::Function", "src/field.tcc: Field::make", "src/field.cpp: Field::Field"]}
{"id": "C60", "title": "A call with C++ expressions is accepted exactly when C++ would accept it", "statement": "For parameters and arguments of class or arithmetic type (not pointers, not Value) between which no conversion is reflected, a call with C++ expressions passes the argument test iff the arity matches and every expression could initialise its parameter in C++: by value always, T& from a non-const lvalue, const T& from anything, T&& from a non-const rvalue, const T&& from any rvalue, and always from the same class or a derived one.", "quantifier": "every type graph, argument list of any length, every value category and constness", "why_tests_cant": "Quantifies over all class hierarchies and all argument lists.", "anchors": ["src/argument.cpp: isConvertibleTo", "src/function.cpp: testArguments", "src/function.tcc: testParams"]}
{"id": "C61", "title": "A caller is never given a dangling reference or a result stripped of const", "statement": "Whether a result can be received is all or nothing. Any result may be dropped; a void result can only be received as a Value, not as a Value&. A reference to T can be received only from a function that returns a reference of the same kind to T or to a class derived from it, and not without const if the result is const; in particular a const reference to a result returned by value is refused. By value a result can be received iff its type is T, derived from T or converts to T. False of the code when a Value& is asked for: a temporary is accepted.", "quantifier": "every type graph, every requested and declared result type (not Value, and for references without reflected conversion)", "why_tests_cant": "Quantifies over all class hierarchies and result types.", "anchors": ["src/function.cpp: testReturn", "src/argument.cpp: isConvertibleTo, isTemporary, isConstRef"]}
{"id": "C62", "title": "Skipping a value without an error takes exactly one document", "statement": "If a value of any text is skipped and no error is reported, the text starts with blanks and one document and exactly that much was consumed; conversely every such document, and every JSON text, is skipped without an error; a text can be taken for a document in one way only. False of the code for JSON proper: the digits of a number are optional (-, 1., -.5, 1e are taken as numbers), and a text that ends after blanks, a number with nothing after the exponent letter, or one opening bracket (optionally followed by such a number) is taken without an error. The texts skipped without an error are exactly these.", "quantifier": "every byte string, every combination of reader options", "why_tests_cant": "Quantifies over all texts, in particular all malformed ones.", "anchors": ["src/utils/json/parser.tcc: skip, parseArray, parseObject", "src/utils/json/token.cpp: nextToken, readNumber, readString, peekToken", "src/utils/json/reader.h"]}
{"id": "C63", "title": "A parse without an error means what the text says", "statement": "If any text is parsed into an object of any reflected type and no error is reported, the text starts with one document, exactly that document was consumed, and the object's new state is the one the document denotes for its type and old state (and is again a state of that type); the document and the new state are determined by the text. Conversely, every text that starts with a document the target can take is parsed without an error into that state, so the texts parsed without an error are exactly these and the ones cut short below. False of the code when the text ends early: a cut off list such as '[1' is read as the empty list without an error, likewise an object.", "quantifier": "every byte string, reader options, type environment (recursive types included), target type and state", "why_tests_cant": "Quantifies over all texts, types and target states.", "anchors": ["src/utils/json/parser.cpp: the parse methods, getParser", "src/utils/json/parser.tcc: parse, parseArray, parseObject", "src/utils/json/token.cpp"]}
{"id": "C64", "title": "A stored object lives exactly as long as a Value owns it", "statement": "An object a Value stores (by construction from an rvalue, copy(), move() or toValue of a result) is deleted when the last Value sharing it goes, exactly once, through the type it was made as; when no Value is left nothing is left. Through a Value that stores its object no access is ever to a deleted object. A copy() is stored apart and is owned by nobody else. False of the code for views: the Value of a field, and a Value moved from, keep pointing at the storage but do not keep it alive.", "quantifier": "every history of making, copying, moving, assigning, taking fields of, using and destroying Values", "why_tests_cant": "Quantifies over all histories; leaks and use after free need not be visible.", "anchors": ["src/value.h: storage, isStored", "src/value.tcc: Value(T&&)", "src/value.cpp: copy constructor, move constructor, assignments, copy, move, toValue, field"]}
{"id": "C65", "title": "A reflected std::vector behaves like a vector", "statement": "Calling size, clear, resize, push_back, operator[] and at on a Value of a std::vector, in any order, does to its elements what these operations do to a list: the results are the sizes, or references to exactly the element asked for (writing through it changes that element only), and no other object changes. push_back copies its argument unless the handle gives it away, then it moves. Constructing from or assigning a vector makes an independent one. at with an index past the end stops the program. A const handle cannot change the vector. False of the code for operator[]: past the end it is undefined behaviour.", "quantifier": "every element type and registry, every contents, every sequence of calls, every handle and argument object", "why_tests_cant": "Quantifies over all contents, histories and memory layouts.", "anchors": ["src/types/std/vector.h: Reflect<std::vector<ValueT>>::reflect", "src/value.tcc: call", "src/value_function.h"]}
{"id": "C66", "title": "A reflected map behaves like a map", "statement": "Calling size, count, operator[], at and keys on a Value of a std::map or std::unordered_map, in any order, does to its pairs what these operations do to a finite map: operator[] adds a default value for a missing key and nothing else, keys lists each key once (in key order for std::map), references to values stay valid for good and writing through one changes that value only; no other object changes. at with a missing key stops the program; operator[] cannot be called through a const handle.", "quantifier": "every key and value type and registry, every contents, every sequence of calls, every handle and key object", "why_tests_cant": "Quantifies over all contents, histories and memory layouts.", "anchors": ["src/types/std/map.h: reflectMap", "src/value.tcc: call", "src/value_function.h"]}
{"id": "C67", "title": "A call by name on a Value reaches the right overload with the right object", "statement": "v.call<Ret>(name, args...) looks the name up in the nearest class of v's type that declares it, picks the overload that resolution by fit (result and every argument, the object first) prescribes, and calls exactly that one, once, with the very object v designates when the parameter is a reference, never through a mutable reference when v is const; the result is delivered as Ret. It stops the program when no class declares the name, when no overload fits or the choice is ambiguous. type->call, construct, assign and convert are such calls on the type, of the constructor (giving a new, stored, owned object), of operator= and of the one conversion operator.", "quantifier": "every registry, Value, name, requested result and argument list", "why_tests_cant": "Quantifies over all registries, overload sets and arguments.", "anchors": ["src/value.tcc: call", "src/value.cpp: call, convert, assign", "src/type.tcc: call, construct", "src/type.cpp: construct", "src/overloads.tcc: call"]}
{"id": "C68", "title": "A printed signature tells which signature it is", "statement": "signature(fn) prints every function over registered types, and two functions that print alike have the same result and parameter types, references and constness, provided type ids are distinct, non-empty, and contain no parenthesis or comma and end neither in & nor in const. False of the code without the proviso: a type registered as 'int const' prints like a const int.", "quantifier": "every registry and pair of functions", "why_tests_cant": "Injectivity over all pairs of signatures.", "anchors": ["src/argument.cpp: Argument::print", "src/function.cpp: signature", "src/function.h"]}
{"id": "C69", "title": "Declaring a parent gives the class its parent's members and place, and nothing else", "statement": "After reflectParent(P) in the reflection of T, T is a child of itself, of P and of what P is a child of, and of nothing else; a function or field name T does not declare itself is found in P; what other classes that are not below T answer does not change; the class graph stays free of cycles provided P is not below T. False of the code when T names itself as parent, which compiles: every query that climbs past T then never returns.", "quantifier": "every registry, class, parent and member name", "why_tests_cant": "Quantifies over all class graphs and names.", "anchors": ["src/dsl/basics.h: reflectParent", "src/type.h: parent", "src/type.cpp: isChildOf, function, field"]}
{"id": "C70", "title": "Types that refer to each other load completely, in any order", "statement": "Asking for types, in any order, loads each of them and every type their reflections refer to, directly or not, and no other: loading always ends, also when classes refer to each other in circles; afterwards each loaded type holds exactly the parent, fields, functions, traits and pointee its reflection declares, no later request changes it, and the outcome does not depend on the order of the requests. The library's own types (pointers, numbers, string, vector, map, smart pointers) never make a request fail, whatever has been loaded before. False of the code that requests fail or succeed regardless of order: overloads are compared with the classes as loaded so far, so a class A with f(B&) and f(A&), B deriving from A, is refused when A is asked for first, and accepted, with f(B&) and f(A&) interchangeable, when B is.", "quantifier": "every set of reflected classes with any references among them, every sequence of requests", "why_tests_cant": "Quantifies over all class graphs, bodies and request orders.", "anchors": ["src/registry.cpp: Registry::get, load", "src/reflect.tcc: type<T>", "src/argument.tcc: Argument::make", "src/dsl/basics.h", "src/dsl/field.h", "src/type.cpp: addFunction", "src/overloads.cpp: add"]}
{"id": "C71", "title": "Reflected smart pointers own, share and delete as they should", "statement": "Through reflected calls on std::shared_ptr<T> and std::unique_ptr<T> (construct empty, from a T*, by copy, by move; assign, move-assign, reset, reset to a pointer, release; get, operator bool, operator*, operator==), and the destructors, every call succeeds, answers and leaves each smart pointer holding what the operation says; an object is deleted exactly when its last owner lets it go without releasing it, never twice and never while owned, so after any history every entrusted object is alive exactly while something owns it, and none is left once all smart pointers are gone. Copying or copy-assigning a std::unique_ptr, and assigning through a constant handle or one that gives its object away, is refused. A reflected T* tells whether it is null, and dereferences to the object, constant unless the handle is a mutable lvalue. False of the code: operator* on a null pointer is not checked (UB), and two owners made from the same raw pointer delete it twice, with no refusal.", "quantifier": "every pointee type, memory, set of smart pointers, every handle, every history of calls, new objects and destructors", "why_tests_cant": "Quantifies over all histories, ownership graphs and handles; use after free need not show in a run.", "anchors": ["src/types/std/smart_ptr.h: reflectSmartPtr, Reflect<std::shared_ptr<T>>, Reflect<std::unique_ptr<T>>", "src/types/pointer.h: Reflect<T*>", "src/dsl/plumbing.h", "src/type.tcc: construct, call", "src/value.tcc"]}
{"id": "C72", "title": "Reflected numbers, strings and plain classes are values", "statement": "Through reflected calls, objects of a number type, std::string or a class using reflectPlumbing (and reflectAllocPlumbing) behave as values: constructing by default, by copy, by move, assigning, move-assigning and allocating with new make or change exactly the object named and give back what C++ would, wherever the operands live (an object of their own or a vector element), and leave every other object alone; so a client that keeps its own account of all values by these rules is never wrong, after any history. operator+ on a reflected integer gives the exact sum in the promoted type (int for anything smaller, which therefore never overflows) and the sum modulo 2^bits for unsigned types; size gives the string's size. Assigning through a constant handle or one that gives its object away is refused, and so is adding numbers of two different types (there are no arithmetic conversions). False of the code: a signed sum that does not fit is undefined behaviour, not refused; and new on a number or string type makes an uninitialised object (new T) while new from reflectAllocPlumbing value-initialises it.", "quantifier": "every type registered so, every memory, value and address, every handle, every history of calls", "why_tests_cant": "Quantifies over all operand values, aliasing of the operands, handle kinds and histories.", "anchors": ["src/types/primitives.tcc: reflectNumberImpl", "src/types/std/string.cpp", "src/dsl/plumbing.h: reflectPlumbing, reflectAllocPlumbing", "src/dsl/function.h: reflectAlloc", "src/type.tcc: call, construct"]}
{"id": "C73", "title": "Typed calls give the untyped result; the operators of Value", "statement": "Calling a reflected function and asking for a C++ result (call<Ret>) does exactly what the same call through Values does, and hands over its result: a copy of the number or raw pointer, a reference to the same object (never losing its constness, never to a temporary), or nothing for void; when the untyped call fails or is undefined so is the typed one. Asking for a type the result is neither nor converts to, or for anything of a void function, is refused before anything runs (so call<int>(\"size\") fails: there are no arithmetic conversions). A Value holding a raw or smart pointer is true exactly when the pointer is set, ! negates, and two smart pointers compare equal exactly when they hold the same object or none, all without changing any object. Each library type (numbers, std::string, plain classes, vectors, maps, raw and smart pointers) reflects exactly the operators listed for it; every other operator of Value on it is an error, for every handle and argument. False of the code: numbers (even bool), strings, vectors, maps and plain classes have no truth value and no comparisons: (bool)v, !v, v == w and v < w are errors.", "quantifier": "every registered type, overload set, memory, handle, argument list and requested result", "why_tests_cant": "Quantifies over all types, overload sets, results asked for and memories.", "anchors": ["src/value.h: reflectValueOpUnary, reflectValueOpBinary, reflectValueOpBool, reflectValueOpNary", "src/value.cpp: operator!, operator bool", "src/function.tcc: call", "src/cast.h: retCast", "src/types/pointer.h", "src/types/std/smart_ptr.h", "src/types/primitives.tcc"]}
{"id": "C74", "title": "Reflected containers are made, copied, moved and assigned like values", "statement": "Type::construct with no argument gives an empty container of its own; of a handle, a container holding the same elements and sharing nothing with the original, which keeps its contents, unless the handle gives its value away (a non-const rvalue), in which case the elements, with every reference to them, pass to the new one and the original is left empty. operator= does the same to an existing container, whose old elements go, and returns a reference to it; self-assignment changes nothing that can be seen. Through a handle that is const or not an lvalue nothing can be assigned. In any session of such calls and of member calls, on any number of vectors or of maps, each container behaves as a value of its own: no call changes another container or any unrelated object, all that were separate stay separate, nothing a container held is leaked, and no allowed call fails.", "quantifier": "every vector and map type as its reflection leaves it, every number of containers, every sequence of allowed calls and every handle", "why_tests_cant": "Quantifies over all sets of containers, contents, aliasing of handles and call sequences.", "anchors": ["src/types/std/map.h: reflectMap", "src/types/std/vector.h", "src/dsl/plumbing.h: reflectPlumbing", "src/type.tcc: construct", "src/value.tcc: call"]}
{"id": "C75", "title": "Printing with callbacks writes one container", "statement": "printObject(writer, keys, printFn, skipFn) and printArray(writer, n, printFn, skipFn): if, asked in order, skipFn leaves out some of the elements and printFn writes one document for each of the others, the call writes exactly one document, the object (array) of those members in that order, and printFn was called once for each, in order, so calls can be nested. When the callback of an element reports an error and more elements follow, no later printFn is called and nothing more is written. (Pretty printing: up to 1024 levels. False of the code for the last element: after an error in it the closing bracket is written all the same.)", "quantifier": "all callbacks (with any captured state), key lists, sizes, writer options and contents printed before, nested to any depth", "why_tests_cant": "Quantifies over arbitrary user callbacks, their state and all contents.", "anchors": ["src/utils/json/printer.tcc: printObject, printArray", "src/utils/json/writer.h: newline, space, indent"]}
{"id": "C76", "title": "Parsing with callbacks visits each element once", "statement": "parseArray(reader, fn) and parseObject(reader, fn) on any text of an array (object) call fn once per element, in order, with its index (key); if fn takes exactly that element the call takes exactly the container, leaving the reader after it without an error, so calls can be nested; on null nothing is called. parseInt, parseString, parseBool and skip are such callbacks. (False of the code: without the colon fn is called with a key that is not in the text; the key is a reference into the reader's buffer and changes once fn has read a value.)", "quantifier": "all callbacks (with any captured state), all documents and all their texts (white space, comments when allowed, escapes), whatever follows", "why_tests_cant": "Quantifies over arbitrary user callbacks and infinitely many texts.", "anchors": ["src/utils/json/parser.tcc: parseObject, parseArray", "src/utils/json/parser.cpp: parseInt, parseString, parseBool, skip"]}
{"id": "C77", "title": "Json traits of a field combine", "statement": "Combining json traits with |: the field is skipped (skipped when empty) exactly if one of the parts says so, and takes the first alias, parser and printer given; grouping does not matter. (False of the code: skip, alias and custom leave skipEmpty uninitialised, so a field with only an alias may or may not be printed when empty.)", "quantifier": "every sequence of traits combined and every value of uninitialised memory", "why_tests_cant": "Quantifies over all combinations and over indeterminate memory.", "anchors": ["src/utils/json/traits.cpp: operator|, skip, skipEmpty, alias, custom", "src/utils/json/traits.h: Traits"]}
{"id": "C78", "title": "Doubles keep twelve digits through JSON", "statement": "formatFloat writes a finite double as the decimal number with at most twelve significant digits nearest to it (of two, the even one), as a JSON number: without point and exponent if that is an integer below 10^12, with one otherwise. parseFloat takes exactly a number text with a point or an exponent and gives the one double nearest to it (ties to even); too large a number throws. Together: the (normal) double nearest to a number of at most twelve digits that is not an integer below 10^12 comes back unchanged, and for every other normal double written with a point or exponent, what comes back is written as the same text again. (False of the code: doubles with more digits change; a double that is an integer below 10^12 is written without a point and parsing it stops the program; tiny denormalised numbers, infinities and NaN are written as texts that cannot be read.)", "quantifier": "every double (all signs, mantissas and exponents), every number text with a point or an exponent, wherever it stands in the input, all reader options", "why_tests_cant": "There are 2^64 doubles and infinitely many number texts; rounding errors show up on few of them.", "anchors": ["src/utils/json/format.cpp: formatFloat", "src/utils/json/parser.tcc: parseFloat", "src/utils/json/token.cpp: asFloat, readNumber"]}
{"id": "C79", "title": "Parsers and printers are built once per type, also for recursive types", "statement": "json::parse and json::print choose the codec of a type by its traits (first of bool, number, string, pointer, map, list, custom, void, object that applies), and build the codecs of all types it reaches, once each, also when types refer to themselves or to each other. Whatever was parsed or printed before, from whichever threads, the same type is served by the same codec, a codec once built is never changed, and parsing or printing through the table of codecs gives what parsing or printing by the type itself gives. Building ends, and fails exactly when a type is reached that can have no codec (a container without valueType, a custom function that does not exist, two fields read under one name, void when printing). (False of the code when errors are exceptions: the unfinished codec of a failed attempt stays in the table, so the next attempt succeeds with it; reading through it is undefined, or silently ignores fields.)", "quantifier": "every set of reflected types (any recursion), every sequence of lookups from an empty table, both for parsing and printing, every text, value, reader and writer", "why_tests_cant": "The table is global state: its content depends on every type parsed before, in every order, and recursive types are seen while they are being built.", "anchors": ["src/utils/json/parser.cpp: getParser, getParserLocked, TypeParser, *Parser::init", "src/utils/json/printer.cpp: getPrinter, getPrinterLocked, TypePrinter, *Printer::init"]}
{"id": "C80", "title": "The order of static initialisation does not matter", "statement": "A program's reflectType and reflectAlias registrations run before main, in an order between source files that C++ leaves open. If class names are well formed, no reflected class is nested in another reflected class, a class reflected twice is reflected by the same function and no alias is given twice, then in every order all registrations succeed, the global scope lists the same types, and every later sequence of lookups and registrations gives the same results, creates the same Type objects and runs the same loaders in the same order. The library's own registrations (all primitive types, std::string, reflect::Type, reflect::Value, 36 aliases) meet these conditions, and in every program that links them each standard name of an integer type (intN_t, int_leastN_t, int_fastN_t, intmax_t, intptr_t, size_t, short, long long, ... and their unsigned forms) designates the reflection of the right builtin type. False of the code for a reflected class nested in a reflected class (outer first aborts, inner first does not) and for initialisers that look a type up, as reflectScope bodies do for the types of their functions.", "quantifier": "every set of registrations, every permutation of it, every program of loaders and templates, every later history, every name", "why_tests_cant": "One build of one program runs one order; n registrations have n! orders and any history may follow.", "anchors": ["src/dsl/type.h: reflectTypeLoader", "src/dsl/basics.h: reflectAlias", "src/types/primitives.cpp: PrimitiveAliases", "src/types/primitive_*.cpp", "src/registry.cpp: add, alias, get, load", "src/scope.cpp: addType, hasType, types"]}
{"id": "C81", "title": "Reflected global variables and functions", "statement": "reflectGlobalVar(a::b::v) on a name with no functions always succeeds and changes no other name; a second reflection of the same variable is an error. From then on, calling a::b::v through the global scope with no argument gives a new object with the current value of the variable and touches nothing else; calling it with one handle of the variable's type, of any reference kind and constness, makes the variable equal to that object and changes no other object. A const variable can be read only; a call with more than one argument or with an argument of an unrelated type aborts. The typed calls call<T>() and call<void>(v) do the same. Along any history of reads and writes by name, assignments in C++, new objects and later additions of scopes, types and functions, whatever the client knows of the values of its objects stays right. reflectGlobalFn adds one overload and a call through the scope resolves and passes arguments as any call does. False of the code: a variable or function reflected inside reflectScope(a) does not belong to a but to the global scope.", "quantifier": "every program of scopes, every set of global variables and types, every memory, handle and value, every history of operations", "why_tests_cant": "A test reads and writes a few variables in a few orders; the claim ranges over all memories, names and interleavings of reflected and direct writes.", "anchors": ["src/dsl/scope.h: reflectGlobalFn, reflectGlobalVar, reflectScope", "src/dsl/scope.tcc: reflectGlobalVar", "src/scope.tcc: call, addFunction", "src/overloads.cpp: add"]}
{"id": "C82", "title": "JSON and std::unordered_map", "statement": "Reading a JSON text into an object that contains std::unordered_map (or a dynamic Value) does not depend on the order its tables keep their pairs in: for every text, whatever the order and the rehashes, the outcome (error, part of the text taken, abort) is the same and the values differ at most in the order of map pairs; it is what std::map targets give (C39-C41), up to order. Printing a value with unordered maps in any iteration order and reading it back gives an equal value. False of the code: that equal values print equal texts.", "quantifier": "every lawful insertion policy of the hash table, every text, type environment, target, options and fuel", "why_tests_cant": "A test sees one standard library with one hash function; the claim is about every iteration order and every rehash.", "anchors": ["src/types/std/map.h: reflectMap", "src/utils/json/parser.cpp: MapParser, ValueParser", "src/utils/json/printer.cpp: MapPrinter"]}
{"id": "C83", "title": "Printed descriptions of types and scopes", "statement": "Type::print and Scope::print terminate and show, for every registered type or scope, exactly what is registered: a type with its id, its parents (nested), its traits, its own fields in order of offset and each overload of each function with its signature; a scope with its traits, functions, types and nested scopes. Each item stands on its own line at the depth of its nesting, the indent argument only moves the lines, and the text is unambiguous: two types (or scopes), even of two registries, that print the same text say the same of their members. False of the code: that the constness of a field is shown; that the empty line after a nested scope is indented; that printing terminates when a type is its own ancestor.", "quantifier": "every well-formed registry, type, scope, depth of inheritance and nesting, iteration order of the tables, order std::sort gives equal offsets, and indentation", "why_tests_cant": "A test compares a few texts; that no two different types share one text and that nothing is ever left out needs every hierarchy.", "anchors": ["src/type.cpp: Type::print, sortedFields", "src/scope.cpp: Scope::print", "src/field.cpp: Field::print", "src/overloads.cpp: Overloads::print", "src/traits.cpp: Traits::print"]}
{"id": "C84", "title": "JSON and objects reached through pointers", "statement": "Printing follows pointers: a graph of objects whose pointers can be followed to the end is printed as the value it stands for, an object met several times being printed each time. Reading works in place: an existing pointee is read into, not replaced, and a null pointer gets a new object; reading into a tree of objects gives a tree that stands for what reading into the value gives, made of the objects it had and of new ones. In every graph, cyclic ones included, an object that cannot be reached from the one read into is not changed. Reading what was printed into a new object makes a tree of new objects that stands for the same value. False of the code: that two members sharing one pointee are read independently (what is said of one is seen through the other); that sharing survives a round trip; that printing ends for an object that can be reached from itself.", "quantifier": "every environment of reflected types, memory, graph of objects, text, and options", "why_tests_cant": "A test builds a few graphs; that nothing outside the target is ever written and that trees behave as values needs every memory and every document.", "anchors": ["src/utils/json/parser.cpp: PointerParser, ArrayParser, MapParser, ObjectParser, ValueParser", "src/utils/json/printer.cpp: PointerPrinter, ObjectPrinter", "src/type.tcc: alloc, construct"]}
{"id": "C85", "title": "Errors while a type is loading, when errors are exceptions", "statement": "A program built with exceptions asks for types and catches what is raised. Every request ends, with the type or with an exception; if none raises, the registry is the one of the aborting library (C70), and one raises exactly when that library would abort. Whatever raised, every type object holds exactly the first lines of its class's reflection, those before the failing line, and a type nobody needs holds nothing. A type whose request ended well, and that shares no needed type with a request that raised, holds all its class declares. An id nobody registered raises each time and changes nothing. False of the code: that a type whose load raised is taken out of the registry again or completed later. It stays half loaded, is given back without error ever after, and no later request changes it; a type asked for the first time can come back half loaded, because another type's request raised while loading it.", "quantifier": "every program of reflected classes, whatever errors their bodies contain, and every sequence of requests", "why_tests_cant": "A test makes one body fail; what is left behind depends on which types were in the middle of loading which others, over all dependency graphs and request orders.", "anchors": ["src/registry.cpp: Registry::get, Registry::load, Registry::add", "src/error.h: reflectError, UseExceptions", "src/type.cpp: Type::addField, addFunction", "src/overloads.cpp: Overloads::add"]}
{"id": "C86", "title": "How deep reading a document nests", "statement": "Reading any text, correct or not, into any type nests no more calls than the brackets the text opens, times the longest chain of pointer types between two of them, plus a constant that depends on the type; skipping a value nests no more than its brackets. With that much stack the result is the one of an unlimited stack. Skipping a correct document takes exactly as many levels as it nests: one less overflows. False of the code: that some stack is enough for every document read into a class whose own types do not nest. A member the class does not have is skipped by recursion, so for every class and every stack there is a correct document, which changes nothing in the object on a larger stack, that overflows this one.", "quantifier": "every text, reader options, type, target value and stack size; for the exact part every JSON value in every spelling", "why_tests_cant": "Tests parse documents a few levels deep; the relation between text, type and depth, and the absence of any limit, are about all texts and all stack sizes.", "anchors": ["src/utils/json/parser.tcc: skip, parseArray, parseObject, parse", "src/utils/json/parser.cpp: ObjectParser::parse, ArrayParser::parse, MapParser::parse, PointerParser::parse, ValueParser::parse"]}
{"id": "C87", "title": "Objects destroyed while a document is read through pointers", "statement": "Reading resets, assigns and destroys smart pointers, which destroy the objects they were the last to own. If no pointer of the graph dangles, no object is pointed to by a smart and by a plain pointer (unless somebody outside owns it) and no chain of pointers from the object read into is endless, then no text makes the parser use a destroyed object: it ends exactly as if nothing were ever destroyed, every object alive has the same content, no pointer dangles afterwards, and objects out of reach have neither changed nor been destroyed. An object owned outside is never destroyed, and where all pointers are smart every object alive has an owner afterwards too. False of the code: that this holds of every graph. With a plain pointer back to the owner, or beside the smart pointer, a correct document makes the parser go on in a destroyed object, or leaves a pointer dangling; objects made for plain pointers, and objects that own each other, are left over.", "quantifier": "every memory, object read into, set of objects owned outside, type environment, reader options, text and fuel", "why_tests_cant": "Use of a destroyed object shows only for particular graphs together with particular documents, and often not even then; that none exists for sound graphs is about all texts and all memories.", "anchors": ["src/utils/json/parser.cpp: PointerParser::parse, ArrayParser::parse, MapParser::parse", "src/types/std/smart_ptr.h: reset, get, operator=", "src/utils/json/parser.tcc: parse"]}
{"id": "C88", "title": "The text of a JSON error", "statement": "When a document is rejected, what() of the error is LINE:COLUMN: and a description that is determined by what was wrong: the byte that does not belong, the literal that was begun, or the token found (with its text) and the one expected; an unexpected token's message names the token found first and then the kind expected; the place can be read back from the text, and a quoted byte is the byte of the document at that place. For every document of at most 960 bytes, however it is read and whatever its bytes, the text is produced with defined behaviour. False of the code: for longer documents. A token of some 975 bytes or more where another one is expected (so also a missing comma before a long string) makes the reader copy memory past its message buffer, a little less loses the end of the message; a NUL spelled by an escape cuts what is shown of a token; at the end of the text the byte 0xff is quoted, which the document does not have.", "quantifier": "every document, reader options and sequence of uses of the reader that ends in an error of the library", "why_tests_cant": "The overrun depends on the length of one token of untrusted input and shows only as garbage or a crash; that every message of a bounded document fits is about all of them.", "anchors": ["src/utils/json/reader.tcc: Reader::error", "src/utils/json/reader.cpp: assertToken", "src/utils/json/token.cpp: print, Token::print, calls of reader.error", "src/error.cpp: verrorFormat", "src/utils/json/parser.cpp: ValueParser::parse"]}
{"id": "C89", "title": "A configuration's names mean the same in any order", "statement": "For every sequence of Config::set(name, value) and Config::link(name, target) on whole names in which each name is defined once, in any order (links may come before their targets, chain, share a target, or run in circles): every call succeeds, and afterwards operator[] gives for a name exactly the value that its chain of links leads to, count() is true and keys() lists it (once) exactly for the names whose chain leads to a value, and operator[] of any other name is reported; two orders of the same definitions give the same configuration. Linking a name to a part of a value that is there gives the name (and those linked to it) that part; setting, reading or counting a part is done to the value the name stands for and changes no name, and is reported when there is none. The depth of recursion is at most the number of definitions. False of the code: without the proviso, or for links to parts of what is not there. Setting a name a second time, or a value arriving over a second link of a name, reads past the end of an empty path; a link to a part of something that is not there yet gets the whole of it; and two parts linked to each other make the set of the whole recurse without end.", "quantifier": "every sequence of definitions of any length, every graph of links, every order, and every behaviour of the values' own operations", "why_tests_cant": "The links waiting for a value are moved and consumed by every call; that they never go astray is about all orders of all link graphs.", "anchors": ["src/utils/config/config.cpp: Config::set, propagate, link, relink, count, operator[], keys", "src/utils/config/node.cpp", "src/utils/config/path.h: config::set"]}
{"id": "C90", "title": "The keys of a configuration file", "statement": "A key of a configuration file that is no link is read as its name and its type, name or name!type with the name up to the first exclamation mark, and is accepted exactly when the name is not empty; #name is read as a link of the name. False of the code: #name!type is read as a link of the name followed by the exclamation mark, so the link is made under another name, and #!type is accepted.", "quantifier": "every key", "why_tests_cant": "Ranges over all texts.", "anchors": ["src/utils/config/json.cpp: parseKey"]}
{"id": "C91", "title": "Paths into values", "statement": "For every object and every path into it (through pointers, list indices, map keys and fields): has() through a Value that is not const is true exactly when there is such a part, and always answers on an object without null pointers for paths whose indices fit in 64 bits. get() finds every part that is there; what it gives is the part of the object as it is afterwards, and asking again gives the same and changes nothing. set() succeeds exactly when get() of the path does and the type is right; afterwards has() is true and get() gives the value set without changing anything. Neither changes any part at a different map key or field or at an earlier list element. A list on the way is cut after the index, or made longer up to it. A component that is not a field of a class is reported. If get() through a const Value gives a const Value, nothing has changed; without smart pointers it always does, and set() never succeeds. What get() makes is false, zero, empty or a null pointer. Setting a part of a configuration's value through a name, or a name linked to it, sets that part of the object, and all its names read it back. False of the code: get() changes what it looks at (reading an element of a list deletes those after it, a missing key is made), also through a const Value when a smart pointer is on the way; set() of an element deletes those after it; has() and get() fail on elements of const lists and maps that are there; a null pointer on the way, and an index that is not a number, are undefined; an empty or huge index throws even out of has().", "quantifier": "every type environment, object, path, capacity of lists, value and, for configurations, every history of definitions", "why_tests_cant": "The laws relate all pairs of paths through all shapes of objects.", "anchors": ["src/utils/config/path.cpp: has, get", "src/utils/config/path.tcc: details::set", "src/utils/config/path.h: set", "src/types/std/vector.h: resize, operator[]", "src/types/std/map.h: operator[]"]}
{"id": "C92", "title": "Loading a configuration from json", "statement": "For every document and configuration, loadJson makes the set() and link() calls that the document says, in its order (a value sets its path, the elements of an array the path followed by their index, a key (#)name(!type) extends the path by its name, makes an object of the type, or links), reads exactly the document, and fails exactly when one of these calls fails or the document is in error; only documents load. If a document's keys are, in any order, distinct names for plain values and non-empty lists of numbers or of strings, names with a type for objects, and links to names, then afterwards exactly the names that stand for something, directly or through links, are there and are that: a new object with the value (numbers as doubles), or of the type, with the components that are named - at every depth fields, map keys and list elements, through pointers - given their values one after the other (a list is cut off after each element given, or extended with default elements; null, empty objects and empty arrays change nothing); other objects are unchanged; so permuting the keys gives the same. False of the code: an array under a name with a type, or a name given twice, is undefined; an empty array or object leaves its name undefined; lists of anything else and objects under untyped names are errors, as are unknown types; a link with a type makes a name that contains the type; a list of links cannot be loaded for a new name.", "quantifier": "every document and token sequence, initial configuration, store of objects and, for names, every list of entries and its permutations", "why_tests_cant": "It ranges over all documents, nestings, names and orders of their keys.", "anchors": ["src/utils/config/json.cpp: load, loadArray, loadObject, loadLink, loadLinkArray, initArray, loadJson", "src/utils/config/config.cpp: set, link"]}
{"id": "C93", "title": "Members handed out for change are the type's own", "statement": "Looking up a field or a function of a type that may be changed finds exactly the members the type declares itself, and the same ones as the lookup through a const type; anything else is an error. reflectFieldTrait is refused for a field that the type does not declare itself and for a trait the field already has; otherwise the field has that trait in addition, for every type that finds the field there (through any number of parents, unless a field of the same name is nearer), and no other lookup, no other type and nothing else of the type changes; reflectFnTrait does the same for functions, whose traits are those of the nearest declaration, an error if there is none. False of the code: that a member the type has can be changed through it - inherited ones cannot.", "quantifier": "every well-formed set of types, type, member name and trait", "why_tests_cant": "It ranges over all inheritance graphs and over every lookup from every type afterwards.", "anchors": ["src/type.cpp: Type::field, Type::function (non const)", "src/dsl/field.h: reflectFieldTrait", "src/dsl/function.h: reflectFnTrait", "src/overloads.h: Overloads", "src/traits.cpp: addTrait"]}

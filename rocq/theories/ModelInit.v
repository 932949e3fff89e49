(* ModelInit.v - what the static initialisers of a program do to the registry:
   src/dsl/type.h 45-54 (reflectTypeLoader), src/dsl/basics.h 32-33 (reflectAlias),
   src/types/primitives.cpp 19-66, src/types/primitive_*.cpp, src/types/std/string.cpp,
   src/types/reflect/{type,value}.cpp. *)
From Coq Require String.
Import String.StringSyntax.
From Verif Require Import Base ModelCore ModelScope ModelRegistry.
Local Open Scope outcome_scope.

(* The initialisers of all translation units, in the order the linker and the loader
   happen to run them (C++ leaves the order between translation units open).  A failing
   one ends the program (error.cpp 35-43: abort, or an exception before main), so the
   result is that of the first failure. *)
Definition start (P : prog) (acts : list action) : rstate * outcome unit := run_actions (get P) P rinit acts.

(* src/types/primitive_*.cpp (reflectNumber: primitives.tcc 57-58), primitive_void.cpp 14,
   std/string.cpp 14, reflect/type.cpp 13, reflect/value.cpp 13: the ids the library
   registers by static initialisers.  Reflect<T>::id() is the text given to
   reflectTypeDecl (dsl/type.h 34; primitives.h 18-40). *)
Definition lib_types : list str :=
  [lit "void"; lit "bool"; lit "char"; lit "signed char"; lit "unsigned char";
   lit "short int"; lit "unsigned short int"; lit "int"; lit "unsigned int";
   lit "long int"; lit "unsigned long int"; lit "long long int"; lit "unsigned long long int";
   lit "float"; lit "double"; lit "long double";
   lit "std::string"; lit "reflect::Type"; lit "reflect::Value"].

(* src/types/primitives.cpp 23-63: reflectAlias(x) is Registry::alias<x>("x"), that is
   alias(id of the type x names, "x") (registry.h 52-58).  Which builtin type each typedef
   names is the platform's choice: here x86-64 Linux with glibc (LP64), the only platform the
   build files cater for.  Each entry: the type's id, the alias. *)
Definition lib_aliases : list (str * str) :=
  [(lit "short int", lit "short"); (lit "unsigned short int", lit "unsigned short");
   (lit "long int", lit "long"); (lit "unsigned long int", lit "unsigned long");
   (lit "long long int", lit "long long"); (lit "unsigned long long int", lit "unsigned long long");
   (lit "unsigned long int", lit "size_t"); (lit "long int", lit "ssize_t");
   (lit "long int", lit "intmax_t"); (lit "unsigned long int", lit "uintmax_t");
   (lit "long int", lit "intptr_t"); (lit "unsigned long int", lit "uintptr_t");
   (lit "signed char", lit "int8_t"); (lit "unsigned char", lit "uint8_t");
   (lit "short int", lit "int16_t"); (lit "unsigned short int", lit "uint16_t");
   (lit "int", lit "int32_t"); (lit "unsigned int", lit "uint32_t");
   (lit "long int", lit "int64_t"); (lit "unsigned long int", lit "uint64_t");
   (lit "signed char", lit "int_fast8_t"); (lit "unsigned char", lit "uint_fast8_t");
   (lit "long int", lit "int_fast16_t"); (lit "unsigned long int", lit "uint_fast16_t");
   (lit "long int", lit "int_fast32_t"); (lit "unsigned long int", lit "uint_fast32_t");
   (lit "long int", lit "int_fast64_t"); (lit "unsigned long int", lit "uint_fast64_t");
   (lit "signed char", lit "int_least8_t"); (lit "unsigned char", lit "uint_least8_t");
   (lit "short int", lit "int_least16_t"); (lit "unsigned short int", lit "uint_least16_t");
   (lit "int", lit "int_least32_t"); (lit "unsigned int", lit "uint_least32_t");
   (lit "long int", lit "int_least64_t"); (lit "unsigned long int", lit "uint_least64_t")].
Definition lib_alias_acts : list action := map (fun p => AAlias (fst p) (snd p)) lib_aliases.

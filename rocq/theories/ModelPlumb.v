(* ModelPlumb.v - what the reflection macros register on a type.
   Models src/dsl/plumbing.h, src/dsl/function.h (constructors, allocation),
   src/dsl/operators.h, src/types/pointer.h, src/types/primitives.tcc and
   src/types/std/{vector,map,smart_ptr,string}.  A Reflect<T>::reflect body is the
   list of the registrations it makes, in order.
   Simplification: the type objects named by the signatures exist before the body
   runs (in the code type<X>() may create and load them on the way); trait values
   are not modelled.  The numbers b, b+1, ... identify the callables. *)
From Coq Require String.
Import String.StringSyntax.
From Verif Require Import Base ModelCore.
Local Open Scope outcome_scope.

(* one call on the Type being loaded *)
Inductive reg :=
| RTrait (n : str)                      (* type_->addTrait(n), src/dsl/type.h 17-21 *)
| RFn (name : str) (ret : argument) (args : list argument) (code : nat)
                                        (* type_->addFunction, src/type.tcc 19-24 *)
| RPointer (kind : str) (p : tptr).     (* type_->setPointer, src/dsl/basics.h 42-43 *)

Definition set_nth {A} (i : nat) (x : A) (l : list A) : list A :=
  firstn i l ++ match skipn i l with [] => [] | _ :: r => x :: r end.

(* the type object T now holds t *)
Definition set_type (H : heap) (T : tptr) (t : typerec) : heap :=
  Heap (set_nth T t (h_types H)) (h_void H) (h_value H).

Definition reg1 (H : heap) (T : tptr) (r : reg) : outcome heap :=
  match tget H T with
  | None => UB
  | Some t =>
    match r with
    | RTrait n =>
      do tr <- addTrait (t_traits t) n;
      Ok (set_type H T (Type_ (t_id t) (t_parent t) tr (t_pointer t) (t_pointee t) (t_fields t) (t_fns t)))
    | RFn name ret args code =>
      do t' <- addFunction H t name (Fn name ret args code);
      Ok (set_type H T t')
    | RPointer kind p =>
      do t' <- setPointer t kind (Some p);
      Ok (set_type H T t')
    end
  end.

(* a reflect body; reflectError stops it *)
Fixpoint register (H : heap) (T : tptr) (rs : list reg) : outcome heap :=
  match rs with
  | [] => Ok H
  | r :: rs' => do H' <- reg1 H T r; register H' T rs'
  end.

(* the std::is_..._constructible / assignable answers the macros branch on *)
Record caps := Caps { k_def : bool; k_copy : bool; k_move : bool; k_copy_assign : bool; k_move_assign : bool }.

Definition when (b : bool) (r : reg) : list reg := if b then [r] else [].

(* src/dsl/plumbing.h 33-46: reflectDefaultCons *)
Definition defaultCons (id : str) (T : tptr) (k : caps) (code : nat) : list reg :=
  when (k_def k && k_move k) (RFn id (Arg T Copy false) [] code).
(* src/dsl/plumbing.h 72-87: reflectCopyCons *)
Definition copyCons (id : str) (T : tptr) (k : caps) (code : nat) : list reg :=
  when (k_copy k && k_move k) (RFn id (Arg T Copy false) [Arg T LValue true] code).
(* src/dsl/plumbing.h 115-129: reflectMoveCons *)
Definition moveCons (id : str) (T : tptr) (k : caps) (code : nat) : list reg :=
  when (k_move k) (RFn id (Arg T Copy false) [Arg T RValue false] code).
(* src/dsl/plumbing.h 157-170: reflectOpCopyAssign *)
Definition opCopyAssign (T : tptr) (k : caps) (code : nat) : list reg :=
  when (k_copy_assign k) (RFn (lit "operator=") (Arg T LValue false) [Arg T LValue false; Arg T LValue true] code).
(* src/dsl/plumbing.h 177-190: reflectOpMoveAssign *)
Definition opMoveAssign (T : tptr) (k : caps) (code : nat) : list reg :=
  when (k_move_assign k) (RFn (lit "operator=") (Arg T LValue false) [Arg T LValue false; Arg T RValue false] code).

(* src/dsl/plumbing.h 197-205: reflectPlumbing *)
Definition plumbing (id : str) (T : tptr) (k : caps) (b : nat) : list reg :=
  RTrait (lit "sizeof")
  :: defaultCons id T k b
  ++ copyCons id T k (b + 1)
  ++ opCopyAssign T k (b + 2)
  ++ moveCons id T k (b + 3)
  ++ opMoveAssign T k (b + 4).

(* src/dsl/plumbing.h 53-65, 94-108, 136-150, 208-213: reflectAllocPlumbing; PT is type<T*>() *)
Definition allocPlumbing (T PT : tptr) (k : caps) (b : nat) : list reg :=
  when (k_def k) (RFn (lit "new") (Arg PT Copy false) [] b)
  ++ when (k_copy k) (RFn (lit "new") (Arg PT Copy false) [Arg T LValue true] (b + 1))
  ++ when (k_move k) (RFn (lit "new") (Arg PT Copy false) [Arg T RValue false] (b + 2)).

(* src/dsl/function.h 44-51: reflectAlloc *)
Definition alloc (PT : tptr) (code : nat) : reg := RFn (lit "new") (Arg PT Copy false) [] code.

(* src/types/pointer.h 24-45: Reflect<P*>::reflect; T is type<P*>(), P type<P>(), B type<bool>() *)
Definition rawPointer (id : str) (T P B : tptr) (k : caps) (b : nat) : list reg :=
  plumbing id T k b
  ++ [ RTrait (lit "primitive");
       RPointer (lit "*") P;
       RFn (lit "operator bool()") (Arg B Copy false) [Arg T Copy false] (b + 5);
       RFn (lit "operator*") (Arg P LValue false) [Arg T LValue false] (b + 6);
       RFn (lit "operator*") (Arg P LValue true) [Arg T LValue true] (b + 7) ].

(* which numeric branch of reflectNumberImpl is taken *)
Inductive numkind := NBool | NSigned | NUnsigned | NFloat.

(* src/types/primitives.tcc 30-57: reflectNumberImpl; R is the type of obj + value *)
Definition number (id : str) (T PT R : tptr) (n : numkind) (k : caps) (b : nat) : list reg :=
  plumbing id T k b
  ++ [ alloc PT (b + 5);
       RTrait (lit "min"); RTrait (lit "max"); RTrait (lit "primitive");
       RFn (lit "operator+") (Arg R Copy false) [Arg T LValue true; Arg T Copy false] (b + 6) ]
  ++ match n with
     | NBool => [RTrait (lit "bool")]
     | NSigned => [RTrait (lit "integer"); RTrait (lit "signed")]
     | NUnsigned => [RTrait (lit "integer"); RTrait (lit "unsigned")]
     | NFloat => [RTrait (lit "float")]
     end.

(* src/types/std/string.cpp 17-25; Z is type<size_t>() *)
Definition stdString (id : str) (T PT Z : tptr) (k : caps) (b : nat) : list reg :=
  plumbing id T k b
  ++ [ alloc PT (b + 5); RTrait (lit "string");
       RFn (lit "size") (Arg Z Copy false) [Arg T LValue true] (b + 6) ].

(* src/types/std/vector.h 22-43; V is type<ValueT>(), vd type<void>() *)
Definition stdVector (id : str) (T V Z vd : tptr) (k : caps) (b : nat) : list reg :=
  plumbing id T k b
  ++ [ RTrait (lit "list"); RTrait (lit "valueType");
       RFn (lit "size") (Arg Z Copy false) [Arg T LValue true] (b + 5);
       RFn (lit "clear") (Arg vd Copy false) [Arg T LValue false] (b + 6);
       RFn (lit "resize") (Arg vd Copy false) [Arg T LValue false; Arg Z Copy false] (b + 7);
       RFn (lit "push_back") (Arg vd Copy false) [Arg T LValue false; Arg V LValue true] (b + 8);
       RFn (lit "push_back") (Arg vd Copy false) [Arg T LValue false; Arg V RValue false] (b + 9);
       RFn (lit "operator[]") (Arg V LValue false) [Arg T LValue false; Arg Z Copy false] (b + 10);
       RFn (lit "at") (Arg V LValue true) [Arg T LValue true; Arg Z Copy false] (b + 11) ].

(* src/types/std/map.h 26-57: reflectMap, used for map and unordered_map;
   KV is type<std::vector<KeyT>>() *)
Definition stdMap (id : str) (T K V KV Z : tptr) (k : caps) (b : nat) : list reg :=
  plumbing id T k b
  ++ [ RTrait (lit "map"); RTrait (lit "keyType"); RTrait (lit "valueType");
       RFn (lit "size") (Arg Z Copy false) [Arg T LValue true] (b + 5);
       RFn (lit "count") (Arg Z Copy false) [Arg T LValue true; Arg K LValue true] (b + 6);
       RFn (lit "operator[]") (Arg V LValue false) [Arg T LValue false; Arg K LValue true] (b + 7);
       RFn (lit "at") (Arg V LValue true) [Arg T LValue true; Arg K LValue true] (b + 8);
       RFn (lit "keys") (Arg KV Copy false) [Arg T LValue true] (b + 9) ].

(* src/types/std/smart_ptr.h 31-44: reflectSmartPtr; P is type<InnerT>(), PP type<InnerT*>(), B type<bool>() *)
Definition smartPtr (id : str) (T P PP B : tptr) (k : caps) (b : nat) : list reg :=
  plumbing id T k b
  ++ [ RFn id (Arg T Copy false) [Arg PP Copy false] (b + 5);
       RTrait (lit "smartPtr");
       RFn (lit "get") (Arg PP Copy false) [Arg T LValue true] (b + 6);
       RFn (lit "operator bool()") (Arg B Copy false) [Arg T LValue true] (b + 7);
       RFn (lit "operator*") (Arg P LValue false) [Arg T LValue true] (b + 8);
       RFn (lit "operator==") (Arg B Copy false) [Arg T LValue true; Arg T LValue true] (b + 9) ].

(* src/types/std/smart_ptr.h 53-60 *)
Definition sharedPtr (id : str) (T P PP B vd : tptr) (k : caps) (b : nat) : list reg :=
  RPointer (lit "std::shared_ptr") P :: smartPtr id T P PP B k b
  ++ [ RFn (lit "reset") (Arg vd Copy false) [Arg T LValue false] (b + 10);
       RFn (lit "reset") (Arg vd Copy false) [Arg T LValue false; Arg PP Copy false] (b + 11) ].

(* src/types/std/smart_ptr.h 67-75 *)
Definition uniquePtr (id : str) (T P PP B vd : tptr) (k : caps) (b : nat) : list reg :=
  RPointer (lit "std::unique_ptr") P :: smartPtr id T P PP B k b
  ++ [ RFn (lit "release") (Arg PP Copy false) [Arg T LValue false] (b + 10);
       RFn (lit "reset") (Arg vd Copy false) [Arg T LValue false; Arg PP Copy false] (b + 11);
       RFn (lit "reset") (Arg vd Copy false) [Arg T LValue false] (b + 12) ].

(* src/dsl/operators.h 27-37: reflectOp(op, name).  ops op is the single member
   T::op when &T::op names one (return type and parameters, the object first). *)
Definition op_member := (argument * list argument * nat)%type.
Definition reflectOp (ops : str -> option op_member) (op : str) : list reg :=
  match ops op with
  | Some (ret, args, code) => [RFn op ret args code]
  | None => []
  end.

(* src/dsl/operators.h 81-93, 131-144, 155-160, 174-182, 193-198: the operators of
   each group, in order *)
Definition opAssignNames : list str := [lit "operator+="; lit "operator-="; lit "operator*="; lit "operator/="; lit "operator%="; lit "operator&="; lit "operator|="; lit "operator^="; lit "operator<<="; lit "operator>>="].
Definition opArithmeticNames : list str := [lit "operator+"; lit "operator-"; lit "operator*"; lit "operator/"; lit "operator%"; lit "operator~"; lit "operator&"; lit "operator|"; lit "operator^"; lit "operator<<"; lit "operator>>"].
Definition opLogicalNames : list str := [lit "operator!"; lit "operator&&"; lit "operator||"].
Definition opComparaisonNames : list str := [lit "operator=="; lit "operator!="; lit "operator<"; lit "operator>"; lit "operator<="; lit "operator>="].
Definition opOtherNames : list str := [lit "operator()"; lit "operator[]"; lit "operator*"].

(* src/dsl/operators.h 100-111: reflectOpIncDec; a class may have the prefix and
   the postfix form (T& () and T (int)); I is type<int>() *)
Record incdec := IncDec { has_inc_pre : bool; has_dec_pre : bool; has_inc_post : bool; has_dec_post : bool }.
Definition opIncDec (T I : tptr) (o : incdec) (b : nat) : list reg :=
  when (has_inc_pre o) (RFn (lit "operator++") (Arg T LValue false) [Arg T LValue false] b)
  ++ when (has_dec_pre o) (RFn (lit "operator--") (Arg T LValue false) [Arg T LValue false] (b + 1))
  ++ when (has_inc_post o) (RFn (lit "operator++") (Arg T Copy false) [Arg T LValue false; Arg I Copy false] (b + 2))
  ++ when (has_dec_post o) (RFn (lit "operator--") (Arg T Copy false) [Arg T LValue false; Arg I Copy false] (b + 3)).

(* src/dsl/operators.h 205-213: reflectOperators *)
Definition operators (T I : tptr) (ops : str -> option op_member) (o : incdec) (b : nat) : list reg :=
  flat_map (reflectOp ops) opAssignNames
  ++ opIncDec T I o b
  ++ flat_map (reflectOp ops) opArithmeticNames
  ++ flat_map (reflectOp ops) opLogicalNames
  ++ flat_map (reflectOp ops) opComparaisonNames
  ++ flat_map (reflectOp ops) opOtherNames.

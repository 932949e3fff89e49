(* ModelMembers.v - lookups of a type's members that hand them out for change (src/type.cpp
   210-219; 136-145 is function_immediate of ModelCore) and reflectFieldTrait
   (src/dsl/field.h 17-18). *)
From Verif Require Import Base ModelCore ModelPlumb.
Local Open Scope outcome_scope.

(* src/type.cpp 210-219: Type::field(field) (non const): immediate fields only *)
Definition field_immediate (H : heap) (this : tptr) (name : str) : outcome field :=
  match tget H this with
  | None => UB
  | Some t => match afind name (t_fields t) with Some f => Ok f | None => Abort end
  end.

(* src/dsl/field.h 17-18: type_->field(#f).addTrait(#trait).  field() gives a reference to the
   field of the type, which addTrait changes (the trait's value is not modelled, as in
   ModelCore). *)
Definition fieldTrait (H : heap) (this : tptr) (name trait : str) : outcome heap :=
  do f <- field_immediate H this name;
  do tr <- addTrait (fd_traits f) trait;
  match tget H this with
  | None => UB
  | Some t =>
    let f' := Field (fd_name f) (fd_arg f) (fd_offset f) tr in
    Ok (set_type H this (Type_ (t_id t) (t_parent t) (t_traits t) (t_pointer t) (t_pointee t) (aset name f' (t_fields t)) (t_fns t)))
  end.

(* The traits of the Overloads objects (src/overloads.h 19: Overloads is a Traits): what each type
   has under each name.  ModelCore keeps the functions of an Overloads only; a table beside the
   heap is a simplification of the field of the object. *)
Definition fn_traits := tptr -> str -> list str.

(* src/type.cpp 147-158 and src/traits.cpp: function(name).traits(), through a const type *)
Fixpoint function_traits_f (n : nat) (H : heap) (FT : fn_traits) (this : tptr) (name : str) : outcome (list str) :=
  match n with
  | O => OutOfFuel
  | S n' =>
    match tget H this with
    | None => UB
    | Some t =>
      match afind name (t_fns t) with
      | Some _ => Ok (FT this name)
      | None =>
        match t_parent t with
        | None => Abort
        | Some p => function_traits_f n' H FT p name
        end
      end
    end
  end.
Definition function_traits (H : heap) := function_traits_f (fuel_of H) H.

(* src/dsl/function.h 17-18: type_->function(#fn).addTrait(#trait) *)
Definition fnTrait (H : heap) (FT : fn_traits) (this : tptr) (name trait : str) : outcome fn_traits :=
  do os <- function_immediate H this name;
  do tr <- addTrait (FT this name) trait;
  Ok (fun b m => if Nat.eqb b this && str_eqb m name then tr else FT b m).

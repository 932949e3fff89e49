(* SpecCall.v - specification of calls by name (C67).  Uses the data types of
   ModelCore / ModelValue and the relations of SpecCore; calls no function of the
   model. *)
From Verif Require Import Base ModelCore SpecCore ModelValue.

(* A function returning fr may serve a caller who asked for asked: the caller
   wants nothing; or it wants a Value and gets an empty one; or the result
   converts to what is asked and is not a temporary asked for by const&. *)
Definition return_accepted (H : heap) (asked fr : argument) : Prop :=
  a_type asked = h_void H \/
  (a_type asked <> h_void H /\ a_type fr = h_void H /\ a_type asked = h_value H /\ a_ref asked <> LValue) \/
  (a_type asked <> h_void H /\ a_type fr <> h_void H /\ (exists g, Grade H fr asked g /\ g <> MNone) /\
   ~ (a_ref fr <> LValue /\ a_ref asked = LValue /\ a_const asked = true)).

(* How well the overload f fits a call with arguments args asking for asked. *)
Inductive Fits (H : heap) (asked : argument) (args : list argument) (f : fn) : grade -> Prop :=
| Fits_return : ~ return_accepted H asked (f_ret f) -> Fits H asked args f MNone
| Fits_arity : length args <> length (f_args f) -> Fits H asked args f MNone
| Fits_args gs g : return_accepted H asked (f_ret f) -> length args = length (f_args f) ->
    Forall2 (fun ap g => Grade H (fst ap) (snd ap) g) (List.combine args (f_args f)) gs ->
    weakest gs g -> Fits H asked args f g.

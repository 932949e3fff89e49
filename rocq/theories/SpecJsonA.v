(* SpecJsonA.v - the texts the reader takes as documents.  It differs from the grammar
   of SpecJson in one respect: the reader does not insist on digits in the parts of a
   number (it takes -, 1., -.5, 1e or 1e+ as numbers), and a number may be the very
   end of the text.  Of the model only the data types (types,
   fields, values) and the value-initialised object are used. *)
From Coq Require String. Import String.StringSyntax.
From Verif Require Import Base ModelJson ModelJsonW ModelJsonT SpecJson SpecJsonT.
Local Open Scope N_scope.

(* A number with any of its digits missing: sign or digit first, then digits, then an
   optional dot with digits, then an optional exponent. *)
Definition sloppy_frac (s : str) : Prop := s = [] \/ exists ds, s = 46 :: ds /\ digits ds.
Definition sloppy_exp (s : str) : Prop :=
  s = [] \/ exists e sg ds, (e = 101 \/ e = 69) /\ (sg = [] \/ sg = [43] \/ sg = [45]) /\ digits ds /\ s = e :: sg ++ ds.
Definition sloppy_number (s : str) : Prop :=
  exists c ds fr ex, (c = 45 \/ digit_char c) /\ digits ds /\ sloppy_frac fr /\ sloppy_exp ex /\ s = c :: ds ++ fr ++ ex.

(* One whose exponent, if there is one, is the letter alone. *)
Definition open_number (s : str) : Prop :=
  exists c ds fr ex, (c = 45 \/ digit_char c) /\ digits ds /\ sloppy_frac fr /\ (ex = [] \/ ex = [101] \/ ex = [69]) /\ s = c :: ds ++ fr ++ ex.

(* Tokens.  The value of a number that is not an integer literal is its text. *)
Inductive tok_accept (d : dialect) : atok -> str -> Prop :=
| ta_text t x : tok_text d t x -> tok_accept d t x
| ta_sloppy x : sloppy_number x -> (forall z, ~ int_text z x) -> tok_accept d (AFloat x) x.

(* x is as much of x ++ rest as is a number *)
Definition longest (x rest : str) : Prop := forall y z, rest = y ++ z -> sloppy_number (x ++ y) -> y = [].

(* [accepts d s ts rest]: s is the tokens ts, each preceded by blanks, numbers taken as
   long as possible, then rest. *)
Inductive accepts (d : dialect) : str -> list atok -> str -> Prop :=
| ac_nil s : accepts d s [] s
| ac_cons w t x s ts rest :
    blank d w -> tok_accept d t x -> (is_num t -> longest x s) -> accepts d s ts rest -> accepts d (w ++ x ++ s) (t :: ts) rest.

(* s is a text the reader takes as the document j, followed by rest. *)
Definition doc_text (d : dialect) (j : json) (s rest : str) : Prop := accepts d s (toks j) rest.

(* The texts that are read without any error being reported although they are not a
   document: blanks, a number with nothing after the exponent letter that ends the text
   (read, but left as the look-ahead), or one opening bracket followed by one of these. *)
Inductive no_more (d : dialect) : str -> Prop :=
| nm_blank s : blank_end d s -> no_more d s
| nm_number w x : blank d w -> open_number x -> no_more d (w ++ x).
Inductive unfinished (d : dialect) : str -> Prop :=
| un_more s : no_more d s -> unfinished d s
| un_open w c s : blank d w -> c = 91 \/ c = 123 -> no_more d s -> unfinished d (w ++ c :: s).

(* ---- what a typed target must be like, and what was read when the text ended early ---- *)

(* v is a state of an object of type t: pointers, lists, maps (sorted) and classes (every
   field that is not skipped present) where the type says so. *)
Inductive shaped (e : env) : nat -> val -> Prop :=
| sd_any t d v : nth_error e t = Some d ->
    match d with DBool | DInt _ | DFloat _ | DStr | DVoid => True | _ => False end -> shaped e t v
| sd_null t sm i : nth_error e t = Some (DPtr sm i) -> shaped e t (VPtr None)
| sd_ptr t sm i p : nth_error e t = Some (DPtr sm i) -> shaped e i p -> shaped e t (VPtr (Some p))
| sd_list t i l : nth_error e t = Some (DList i) -> shaped e t (VList l)
| sd_map t i m : nth_error e t = Some (DMap i) -> sorted (akeys m) -> shaped e t (VMap m)
| sd_obj t fs ini o : nth_error e t = Some (DObj fs ini) ->
    (forall f, In f fs -> f_skip f = false -> exists x, afind (f_key f) o = Some x /\ shaped e (f_type f) x) ->
    shaped e t (VObj o).

(* the field names of a class are distinct, value-initialised objects are in shape *)
Definition env_shaped (e : env) : Prop :=
  forall t d, nth_error e t = Some d -> shaped e t (dval e t) /\
    match d with DObj fs _ => NoDup (map f_key fs) | _ => True end.

(* The text ended early without an error: it was a number, or an opening bracket that was
   taken for an empty container. *)
Inductive read_short (d : dialect) (e : env) (t : nat) (v : val) (v' : val) : str -> Prop :=
| rs_number w x j : blank d w -> is_number j -> tok_accept d (ntok j) x -> reads e t v j v' ->
    read_short d e t v v' (w ++ x)
| rs_array w s : blank d w -> no_more d s -> reads e t v (JArr []) v' -> read_short d e t v v' (w ++ 91%N :: s)
| rs_object w s : blank d w -> no_more d s -> reads e t v (JObj []) v' -> read_short d e t v v' (w ++ 123%N :: s).

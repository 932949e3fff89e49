(* SpecLoad.v - what loading the types of a program should come to.  Nothing here
   runs a body: only the text of the bodies is looked at. *)
From Coq Require String.
Import String.StringSyntax.
From Coq Require Import Relations.
From Verif Require Import Base ModelCore SpecCore ModelPlumb SpecPlumb ModelLoad.

Definition body_of (P : program) (T : tptr) : list lreg :=
  match nth_error (p_decls P) T with Some d => d_body d | None => [] end.

(* a line of a body mentions U: as parent, type of a field, type of a result or
   parameter, pointee, or element *)
Inductive mentions : lreg -> tptr -> Prop :=
| Me_parent p : mentions (LParent p) p
| Me_field n a off : mentions (LField n a off) (a_type a)
| Me_use t : mentions (LUse t) t
| Me_result n ret args code : mentions (LReg (RFn n ret args code)) (a_type ret)
| Me_param n ret args code a : In a args -> mentions (LReg (RFn n ret args code)) (a_type a)
| Me_pointee k p : mentions (LReg (RPointer k p)) p.
(* the reflection of T names U *)
Definition names (P : program) (T U : tptr) : Prop := exists r, In r (body_of P T) /\ mentions r U.
(* T needs U: directly, through other types, or because it is T *)
Definition needs (P : program) : tptr -> tptr -> Prop := clos_refl_trans_1n tptr (names P).

Definition regs (rs : list lreg) : list reg := flat_map (fun r => match r with LReg r => [r] | _ => [] end) rs.
(* the last reflectParent counts *)
Definition parent_decl (rs : list lreg) : option tptr :=
  fold_left (fun o r => match r with LParent p => Some p | _ => o end) rs None.

(* the type object t holds exactly what the class declares *)
Record holds (d : decl) (t : typerec) : Prop := {
  ho_id : t_id t = d_id d;
  ho_parent : t_parent t = parent_decl (d_body d);
  ho_traits : t_traits t = traits_of (regs (d_body d));
  ho_pointer : (forall k p, pointer_of (regs (d_body d)) = Some (k, p) -> t_pointer t = k /\ t_pointee t = Some p) /\
               (pointer_of (regs (d_body d)) = None -> t_pointer t = [] /\ t_pointee t = None);
  ho_fields : forall n f, afind n (t_fields t) = Some f <->
    exists a off, In (LField n a off) (d_body d) /\ f = Field n a off [];
  ho_fns : forall n, afind n (t_fns t) = match fns_of n (regs (d_body d)) with [] => None | l => Some l end }.

(* ---- programs whose loads cannot fail ---- *)
(* a may end up below b: through declared parents, or pointers of one kind *)
Inductive descends (P : program) : tptr -> tptr -> Prop :=
| De_refl a : descends P a a
| De_parent a p b : In (LParent p) (body_of P a) -> descends P p b -> descends P a b
| De_pointer a b k pa pb : In (LReg (RPointer k pa)) (body_of P a) -> In (LReg (RPointer k pb)) (body_of P b) ->
    descends P pa pb -> descends P a b.

(* an argument declared as a never is an exact match for a parameter t *)
Definition unlike (P : program) (a t : argument) : Prop :=
  (a_type a = a_type t /\ ~ same_category a t) \/
  (a_type a <> p_value P /\ a_type t <> p_value P /\ ~ descends P (a_type a) (a_type t)).
(* two overloads nobody can confuse *)
Definition apart (P : program) (old new : list argument) : Prop :=
  length old <> length new \/
  exists i a t, nth_error old i = Some a /\ nth_error new i = Some t /\ unlike P a t.

Definition overload_pair (P : program) (x y : reg) : Prop :=
  match x, y with
  | RFn n _ old _, RFn m _ new _ => n = m -> apart P old new
  | _, _ => True
  end.

Record kept (P : program) (T : tptr) : Prop := {
  ke_known : forall U, names P T U -> U < length (p_decls P);
  ke_copies : forall n a off, In (LField n a off) (body_of P T) -> a_ref a = Copy;
  ke_fields : NoDup (flat_map (fun r => match r with LField n _ _ => [n] | _ => [] end) (body_of P T));
  ke_members : forall n a off, In (LField n a off) (body_of P T) -> fns_of n (regs (body_of P T)) = [];
  ke_traits : NoDup (traits_of (regs (body_of P T)));
  ke_pointer : ~ In (RTrait (lit "pointer")) (regs (body_of P T));
  ke_apart : ForallOrdPairs (overload_pair P) (regs (body_of P T)) }.

(* no class is its own ancestor, pointee, pointee's ancestor... *)
Definition acyclic (P : program) : Prop := exists rank : tptr -> nat, forall a p,
  In (LParent p) (body_of P a) \/ (exists k, In (LReg (RPointer k p)) (body_of P a)) -> rank p < rank a.

Record well_kept (P : program) : Prop := {
  wk_void : p_void P < length (p_decls P);
  wk_value : p_value P < length (p_decls P);
  wk_acyclic : acyclic P;
  wk_kept : forall T, T < length (p_decls P) -> kept P T }.

(* the part of this that is about the graph of types alone: every class named is
   reflected, the links are acyclic, nobody adds the trait pointer by hand *)
Record sane (P : program) : Prop := {
  sa_void : p_void P < length (p_decls P);
  sa_value : p_value P < length (p_decls P);
  sa_acyclic : acyclic P;
  sa_known : forall T U, names P T U -> U < length (p_decls P);
  sa_pointer : forall T, ~ In (RTrait (lit "pointer")) (regs (body_of P T)) }.

(* each class says at most once what it points to *)
Definition one_pointer (P : program) : Prop := forall T k k' p p',
  In (LReg (RPointer k p)) (body_of P T) -> In (LReg (RPointer k' p')) (body_of P T) -> k = k'.

(* a body without parents and fields *)
Definition plain_body (P : program) (T : tptr) : Prop := forall r, In r (body_of P T) ->
  (exists u, r = LUse u) \/ exists g, r = LReg g.

(* T is one of the types the library reflects itself: its body registers what the
   file in question registers, possibly asking for types in between; the last
   argument of each body numbers its callables *)
Inductive library (P : program) (T : tptr) : Prop :=
| Lib_empty : regs (body_of P T) = [] -> library P T
| Lib_void : regs (body_of P T) = [RTrait (lit "primitive"); RTrait (lit "void")] -> library P T
| Lib_plumbing id k b : nth_error (p_decls P) T = Some (Decl id (body_of P T)) -> id <> lit "operator=" ->
    regs (body_of P T) = plumbing id T k b -> library P T
| Lib_pointer id p B k b : nth_error (p_decls P) T = Some (Decl (id ++ lit "*") (body_of P T)) -> id <> lit "operator" ->
    regs (body_of P T) = rawPointer (id ++ lit "*") T p B k b -> library P T
| Lib_number id PT R n k b : nth_error (p_decls P) T = Some (Decl id (body_of P T)) ->
    ~ In id [lit "operator="; lit "new"; lit "operator+"] ->
    regs (body_of P T) = number id T PT R n k b -> library P T
| Lib_string PT Z k b : nth_error (p_decls P) T = Some (Decl (lit "std::string") (body_of P T)) ->
    regs (body_of P T) = stdString (lit "std::string") T PT Z k b -> library P T
| Lib_vector vid V Z k b : nth_error (p_decls P) T = Some (Decl (lit "std::vector<" ++ vid ++ lit ">") (body_of P T)) ->
    regs (body_of P T) = stdVector (lit "std::vector<" ++ vid ++ lit ">") T V Z (p_void P) k b -> library P T
| Lib_map prefix kid vid K V KV Z k b : prefix = lit "std::map<" \/ prefix = lit "std::unordered_map<" ->
    nth_error (p_decls P) T = Some (Decl (prefix ++ kid ++ lit "," ++ vid ++ lit ">") (body_of P T)) ->
    regs (body_of P T) = stdMap (prefix ++ kid ++ lit "," ++ vid ++ lit ">") T K V KV Z k b -> library P T
| Lib_shared pid p PP B k b : nth_error (p_decls P) T = Some (Decl (lit "std::shared_ptr<" ++ pid ++ lit ">") (body_of P T)) ->
    In (LReg (RPointer (lit "*") p)) (body_of P PP) -> PP <> p_value P ->
    regs (body_of P T) = sharedPtr (lit "std::shared_ptr<" ++ pid ++ lit ">") T p PP B (p_void P) k b -> library P T
| Lib_unique pid p PP B k b : nth_error (p_decls P) T = Some (Decl (lit "std::unique_ptr<" ++ pid ++ lit ">") (body_of P T)) ->
    In (LReg (RPointer (lit "*") p)) (body_of P PP) -> PP <> p_value P ->
    regs (body_of P T) = uniquePtr (lit "std::unique_ptr<" ++ pid ++ lit ">") T p PP B (p_void P) k b -> library P T.

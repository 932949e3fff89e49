(* SpecGlobal.v - reflected global variables (C81): what a client that reads and
   writes them by name may count on. *)
From Coq Require String.
Import String.StringSyntax.
From Verif Require Import Base ModelCore SpecCore ModelScope SpecScope ModelValue SpecValue ModelCont SpecCont SpecPlain ModelGlobal.
Local Open Scope outcome_scope.

(* a variable a::b::v of type T at an address *)
Record global := Global { g_path : list str; g_name : str; g_type : tptr; g_const : bool; g_at : addr }.
Definition g_id (g : global) : list str := g_path g ++ [g_name g].

(* the functions that stand for the variable: a reader and, unless it is const, a writer *)
Definition accessors (H : heap) (g : global) (code : nat) : overloads :=
  Fn (g_name g) (Arg (g_type g) Copy false) [] code ::
  (if g_const g then [] else [Fn (g_name g) (Arg (h_void H) Copy false) [Arg (g_type g) LValue true] (S code)]).

(* a type whose objects can be copied into and out of a Value *)
Record value_type (E : cpp) (H : heap) (T : tptr) : Prop := {
  vl_valid : valid H T;
  vl_apart : T <> h_void H /\ T <> h_value H;
  vl_conv : ~ has_user_conversion H T T;
  vl_cpp : cpp_copyable E T = true }.

(* in the scopes S the names of the variables gs mean their accessors and nothing else *)
Record reflected (H : heap) (gs : list global) (S : sheap) : Prop := {
  rf_scopes : wf_scopes S;
  rf_names : forall g, In g gs -> Forall component (g_id g);
  rf_fns : forall k g, nth_error gs k = Some g -> vfn S (g_path g) (g_name g) (accessors H g (2 * k)) }.

(* a client: h is what it knows of the values of objects *)
Record gworld := GWorld { gw_mem : mem; gw_st : state; gw_scopes : sheap; gw_known : store }.
Definition gknows (H : heap) (gs : list global) (w : gworld) : Prop :=
  unborn (gw_mem w) (st_next (gw_st w)) /\ reflected H gs (gw_scopes w) /\
  forall a p, gw_known w a = Some p -> read (gw_mem w) a = Some p.

(* the lines reflectGlobalVar(a::b::v) of a program, in turn, in the bodies of the scopes
   given; k: how many came before *)
Fixpoint reflect_all (H : heap) (Sc : sheap) (k : nat) (inside : nat -> sptr) (gs : list global) : outcome sheap :=
  match gs with
  | [] => Ok Sc
  | g :: gs' => do Sc1 <- reflectGlobalVar H Sc (inside k) (qname (g_id g)) (g_type g) (g_const g) (2 * k); reflect_all H Sc1 (S k) inside gs'
  end.
(* the operation adds no function under the name of a variable *)
Definition leaves (gs : list global) (o : wop) : Prop :=
  forall H cs c f g, o = WFunction H cs c f -> In g gs -> cs ++ [c] <> g_id g.

Inductive gstep (E : cpp) (H : heap) (gs : list global) (rest : body) : gworld -> gworld -> Prop :=
| G_read m st Sc h k g p n w m' st' Sc' :                     (* it reads a variable by name *)
    nth_error gs k = Some g -> h (g_at g) = Some p ->
    mscope_call (globals_body (map g_at gs) rest) (S n) E H m st Sc 0 (qname (g_id g)) [] = Ok (Sc', (w, m', st')) ->
    gstep E H gs rest (GWorld m st Sc h) (GWorld m' st' Sc' (put h (v_addr w) (Some p)))
| G_write m st Sc h k g v p n w m' st' Sc' :                  (* it writes one by name *)
    nth_error gs k = Some g -> g_const g = false -> v_type v = g_type g -> h (v_addr v) = Some p -> h (g_at g) <> None ->
    mscope_call (globals_body (map g_at gs) rest) (S n) E H m st Sc 0 (qname (g_id g)) [v] = Ok (Sc', (w, m', st')) ->
    gstep E H gs rest (GWorld m st Sc h) (GWorld m' st' Sc' (put h (g_at g) (Some p)))
| G_assign m st Sc h a p :                                    (* it assigns an object in C++ *)
    h a <> None -> gstep E H gs rest (GWorld m st Sc h) (GWorld (write m a p) st Sc (put h a (Some p)))
| G_look m st Sc h a p :                                      (* it looks at an object in C++ *)
    read m a = Some p -> gstep E H gs rest (GWorld m st Sc h) (GWorld m st Sc (put h a (Some p)))
| G_make m st Sc h p :                                        (* it makes an object in C++ *)
    gstep E H gs rest (GWorld m st Sc h)
      (GWorld (mset m (st_next st) (DData p)) (St (S (st_next st)) (st_log st)) Sc (put h (st_next st, 0%N) (Some p)))
| G_scope m st Sc h o Sc' :                                   (* other scopes, types and functions are added *)
    wop_ok o -> leaves gs o -> scope_step Sc (wop_op o) = Ok Sc' ->
    gstep E H gs rest (GWorld m st Sc h) (GWorld m st Sc' h).

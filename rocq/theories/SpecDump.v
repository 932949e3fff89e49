(* SpecDump.v - what the printed description of a type or a scope says (C83), and how it
   is laid out.  Only data types of the model are used, and hex digits. *)
From Coq Require String. Import String.StringSyntax.
From Coq Require Import Permutation Sorted.
From Verif Require Import Base ModelCore ModelScope ModelDump SpecCore PropPrint.

(* ---- what is said: names instead of pointers ---- *)
Record asum := ASum { as_type : str; as_ref : reftype; as_const : bool }.
Record gsum := GSum { gs_ret : asum; gs_args : list asum }.
Record fsum := FSum { fs_offset : N; fs_type : str; fs_name : str; fs_traits : list str }.
Record osum := OSum { os_name : str; os_traits : list str; os_sigs : list gsum }.
Inductive tsum := TSum (id : str) (parent : option tsum) (traits : list str) (fields : list fsum) (fns : list osum).
Inductive ssum := SSum (name : str) (traits : list str) (fns : list osum) (types : list str) (scopes : list ssum).

Definition arg_says (H : heap) (a : argument) (s : asum) : Prop :=
  exists t, tget H (a_type a) = Some t /\ s = ASum (t_id t) (a_ref a) (a_const a).
Definition fn_says (H : heap) (f : fn) (s : gsum) : Prop :=
  arg_says H (f_ret f) (gs_ret s) /\ Forall2 (arg_says H) (f_args f) (gs_args s).
Definition field_says (H : heap) (f : field) (s : fsum) : Prop :=
  exists t, tget H (a_type (fd_arg f)) = Some t /\ s = FSum (fd_offset f) (t_id t) (fd_name f) (fd_traits f).
(* every overload, in order of registration *)
Definition fns_say (H : heap) (traits : str -> list str) (no : str * overloads) (s : osum) : Prop :=
  os_name s = fst no /\ os_traits s = traits (fst no) /\ Forall2 (fn_says H) (snd no) (os_sigs s).

(* the fields of a type in order of their offsets *)
Definition by_offset (t : typerec) (l : list field) : Prop :=
  Permutation l (map snd (t_fields t)) /\ StronglySorted (fun f g => (fd_offset f <= fd_offset g)%N) l.

(* ts describes the type T and its ancestors *)
Inductive says (D : decor) (H : heap) : tptr -> tsum -> Prop :=
| says_type T t fl p fs os : tget H T = Some t ->
    parent_says D H (t_parent t) p ->
    by_offset t fl -> Forall2 (field_says H) fl fs ->
    Forall2 (fns_say H (ov_traits D T)) (t_fns t) os ->
    says D H T (TSum (t_id t) p (t_traits t) fs os)
with parent_says (D : decor) (H : heap) : option tptr -> option tsum -> Prop :=
| no_parent : parent_says D H None None
| a_parent q ps : says D H q ps -> parent_says D H (Some q) (Some ps).

(* ss describes the scope p and all that is inside *)
Inductive scope_says (D : decor) (H : heap) (S : sheap) : sptr -> ssum -> Prop :=
| scope_says_i p s os cs : sget S p = Some s ->
    Forall2 (fns_say H (sc_ov_traits D p)) (s_fns s) os ->
    scopes_say D H S (s_scopes s) cs ->
    scope_says D H S p (SSum (s_name s) (sc_traits D p) os (map fst (s_types s)) cs)
with scopes_say (D : decor) (H : heap) (S : sheap) : list (str * sptr) -> list ssum -> Prop :=
| scopes_nil : scopes_say D H S [] []
| scopes_cons k q l c cs : scope_says D H S q c -> scopes_say D H S l cs -> scopes_say D H S ((k, q) :: l) (c :: cs).

(* ---- the layout: lines at depths, four blanks each ---- *)
Inductive line := At (depth : nat) (text : str) | Gap.

Definition arg_text (a : asum) : str :=
  as_type a ++ (if as_const a then lit " const" else []) ++ match as_ref a with LValue => lit "&" | RValue => lit "&&" | Copy => [] end.
Fixpoint comma_list (l : list str) : str :=
  match l with [] => [] | [x] => x | x :: l' => x ++ lit ", " ++ comma_list l' end.
Definition sig_text (g : gsum) : str := arg_text (gs_ret g) ++ lit "(" ++ comma_list (map arg_text (gs_args g)) ++ lit ")".
Definition traits_text (l : list str) : str := lit "[ " ++ concat (map (fun t => t ++ lit " ") l) ++ lit "]".
Definition field_text (f : fsum) : str :=
  lit "0x" ++ hex (fs_offset f) ++ lit ": " ++ fs_type f ++ lit " " ++ fs_name f ++
  match fs_traits f with [] => [] | l => lit " " ++ traits_text l end.

Definition traits_lines (d : nat) (l : list str) : list line := match l with [] => [] | _ => [At d (traits_text l)] end.
Definition fns_lines (d : nat) (l : list osum) : list line :=
  concat (map (fun o => At d (os_name o ++ lit ":") :: traits_lines (d + 1) (os_traits o) ++
                        map (fun g => At (d + 1) (sig_text g)) (os_sigs o)) l).
(* the sections that are not empty, with an empty line between two *)
Fixpoint sections (gap : line) (l : list (list line)) : list line :=
  match l with
  | [] => []
  | x :: l' =>
    match x, sections gap l' with
    | [], r => r
    | _, [] => x
    | _, r => x ++ gap :: r
    end
  end.
Fixpoint type_lines (d : nat) (ts : tsum) : list line :=
  match ts with
  | TSum id p tr fs os =>
    [At d (lit "type " ++ id); At d (lit "{")] ++
    sections (At (d + 1) [])
      [ match p with Some ps => type_lines (d + 1) ps | None => [] end;
        traits_lines (d + 1) tr;
        map (fun f => At (d + 1) (field_text f)) fs;
        fns_lines (d + 1) os ] ++
    [At d (lit "}")]
  end.
Fixpoint scope_lines (d : nat) (ss : ssum) : list line :=
  match ss with
  | SSum name tr os ts cs =>
    [At d (lit "scope " ++ name); At d (lit "{")] ++
    traits_lines (d + 1) tr ++
    sections (At d [])
      [ fns_lines (d + 1) os;
        map (fun x => At (d + 1) (lit "type " ++ x ++ lit ";")) ts;
        concat (map (fun c => scope_lines (d + 1) c ++ [Gap]) cs) ] ++
    [At d (lit "}")]
  end.

Definition line_text (indent : nat) (l : line) : str :=
  match l with At d s => repeat 32%N (indent + 4 * d) ++ s | Gap => [] end.
Fixpoint joined (l : list str) : str :=
  match l with [] => [] | [x] => x | x :: l' => x ++ [10%N] ++ joined l' end.

(* ---- reading a text: its lines; those that are not blank ---- *)
Fixpoint lines_of (s : str) : list str :=
  match s with
  | [] => [[]]
  | c :: s' =>
    if N.eqb c 10 then [] :: lines_of s'
    else match lines_of s' with x :: l => (c :: x) :: l | [] => [[c]] end
  end.
Definition blank (s : str) : bool := forallb (N.eqb 32) s.
Definition visible (s : str) : list str := filter (fun l => negb (blank l)) (lines_of s).

(* ---- assumptions ---- *)
(* std::sort: some order by offset *)
Definition sorts (D : decor) : Prop := forall l,
  Permutation (sort_fields D l) l /\ StronglySorted (fun f g => (fd_offset f <= fd_offset g)%N) (sort_fields D l).

(* everything the types mention is registered *)
Definition members_valid (H : heap) : Prop := forall T t, tget H T = Some t ->
  (forall n f, In (n, f) (t_fields t) -> arg_valid H (fd_arg f)) /\
  (forall n o f, In (n, o) (t_fns t) -> In f o -> fn_valid H f).
Definition scope_members_valid (H : heap) (S : sheap) : Prop := forall p s, sget S p = Some s ->
  forall n o f, In (n, o) (s_fns s) -> In f o -> fn_valid H f.

(* names: a word is what an identifier or a trait name is; ids of types and names of functions
   may have blanks *)
Definition word (w : str) : Prop := w <> [] /\ forall c, In c w -> c <> 10%N /\ c <> 32%N /\ c <> 58%N /\ c <> 91%N /\ c <> 93%N.
Definition starts_with (c : N) (s : str) : Prop := exists z, s = c :: z.
Definition one_line (s : str) : Prop := ~ In 10%N s /\ ~ starts_with 32%N s.
Definition good_id (i : str) : Prop :=
  plain_id i /\ one_line i /\ ~ starts_with 91%N i /\ ~ ends_with (lit ":") i.
Definition good_name (n : str) : Prop := ~ In 10%N n /\ ~ ends_with (lit ":") n /\ ~ ends_with (lit ";") n.

Definition good_types (D : decor) (H : heap) : Prop := forall T t, tget H T = Some t ->
  good_id (t_id t) /\ Forall word (t_traits t) /\
  (forall n f, In (n, f) (t_fields t) -> word (fd_name f) /\ Forall word (fd_traits f)) /\
  (forall n o, In (n, o) (t_fns t) -> one_line n /\ Forall word (ov_traits D T n)).
Definition good_scopes (D : decor) (S : sheap) : Prop := forall p s, sget S p = Some s ->
  good_name (s_name s) /\ Forall word (sc_traits D p) /\
  (forall n x, In (n, x) (s_types s) -> ~ In 10%N n) /\
  (forall n o, In (n, o) (s_fns s) -> one_line n /\ Forall word (sc_ov_traits D p n)).

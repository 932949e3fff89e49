(* ModelCfgJson.v - loadJson of src/utils/config/json.cpp (lines 49-232).
   The file is written against a token API (nextToken(json), token.boolValue(), ...) that no
   longer exists, and is not part of the build; what is modelled is what it does with the
   tokens of a document: the tokens are those of SpecJson, [] is the end of the stream, and
   nextToken at the end gives no token.  A stream that went bad (while (json)) is read as one
   that has no more tokens.  A failing step ends the load (an exception). *)
From Verif Require Import Base Dec SpecJson ModelJsonT ModelJsonW ModelConfig ModelConfigStore ModelPath.
Local Open Scope outcome_scope.

(* the objects that the loader makes: Value(token.boolValue()) etc. (json.cpp 57-70),
   type<vector<double>>() / type<vector<string>>()->construct() (79-88; true: strings),
   reflect::type(name)->alloc() (182), which fails for an unknown name.  Each is a new
   object, so the memory changes. *)
Record maker (V M : Type) : Type := Maker {
  mscalar : atok -> M -> V * M;
  marray : bool -> M -> V * M;
  mtype : str -> M -> outcome (V * M)
}.
Arguments Maker {V M}. Arguments mscalar {V M}. Arguments marray {V M}. Arguments mtype {V M}.

Definition next (ts : list atok) : option atok * list atok :=
  match ts with [] => (None, []) | t :: ts' => (Some t, ts') end.

(* the functions of json.cpp, with the token each of their loops is looking at *)
Inductive lcall :=
| CVal (p : path) (t : option atok)            (* load, 200-212 *)
| CItems (p : path) (i : nat) (t : option atok) (* the loop of loadArray, 97-109 *)
| CFields (p : path) (t : option atok)         (* the loop of loadObject, 165-197 *)
| CLink (p : path) (t : option atok)           (* loadLink, 142-152 *)
| CLinks (p : path) (i : nat) (t : option atok). (* the loop of loadLinkArray, 125-139 *)

Section Load.
  Context {V M : Type} (L : layer V M) (mk : maker V M) (f : nat).   (* f: fuel of set and link *)

  (* cfg.set(path, Value(...)) *)
  Definition set_new (c : cfg V M) (p : path) (vm : V * M) : outcome (cfg V M) :=
    cset L f (Cfg (ckeys c) (clinks c) (snd vm)) p (fst vm).
  (* 73-90: initArray *)
  Definition init_array (c : cfg V M) (p : path) (t : option atok) : outcome (cfg V M) :=
    match t with
    | Some (AInt _) | Some (AFloat _) => set_new c p (marray mk false (cmem c))
    | Some (AStr _) => set_new c p (marray mk true (cmem c))
    | _ => Abort
    end.
  (* 182: cfg.set(sub, reflect::type(type)->alloc()) *)
  Definition set_typed (c : cfg V M) (p : path) (ty : str) : outcome (cfg V M) :=
    do vm <- mtype mk ty (cmem c); set_new c p vm.
  (* 112-115: cfg.link(path, token.stringValue()), the string converted to a Path *)
  Definition link_to (c : cfg V M) (p : path) (s : str) : outcome (cfg V M) :=
    do t <- path_of s dot; clink L f c p t.

  Fixpoint lrun (fuel : nat) (k : lcall) (c : cfg V M) (ts : list atok) : outcome (cfg V M * list atok) :=
    match fuel with
    | O => OutOfFuel
    | Datatypes.S n =>
      match k with
      | CVal p t =>
        match t with
        | Some ANull => Ok (c, ts)                                             (* 54 *)
        | Some (ABool b) => do c1 <- set_new c p (mscalar mk (ABool b) (cmem c)); Ok (c1, ts)  (* 56-59 *)
        | Some (AInt z) => do c1 <- set_new c p (mscalar mk (AInt z) (cmem c)); Ok (c1, ts)    (* 61-64 *)
        | Some (AFloat x) => do c1 <- set_new c p (mscalar mk (AFloat x) (cmem c)); Ok (c1, ts)
        | Some (AStr s) => do c1 <- set_new c p (mscalar mk (AStr s) (cmem c)); Ok (c1, ts)    (* 66-69 *)
        | Some AArrS =>                                                        (* 92-97 *)
          match next ts with
          | (Some AArrE, ts1) => Ok (c, ts1)
          | (t1, ts1) =>
            do c1 <- (if Nat.eqb (length p) 1 then init_array c p t1 else Ok c);
            lrun n (CItems p 0 t1) c1 ts1
          end
        | Some AObjS =>                                                        (* 160-163 *)
          match next ts with
          | (Some AObjE, ts1) => Ok (c, ts1)
          | (t1, ts1) => lrun n (CFields p t1) c ts1
          end
        | _ => Abort                                                           (* 210 *)
        end
      | CItems p i t =>
        do (c1, ts1) <- lrun n (CVal (path_index p (N.of_nat i)) t) c ts;
        match next ts1 with
        | (Some ASep, ts2) => let '(t1, ts3) := next ts2 in lrun n (CItems p (Datatypes.S i) t1) c1 ts3
        | (Some AArrE, ts2) => Ok (c1, ts2)
        | _ => Abort
        end
      | CFields p t =>
        match t with
        | Some (AStr s) =>
          match next ts with
          | (Some AKey, ts1) =>
            do lkt <- parse_key s;
            let '(lk, key, ty) := lkt in
            do sub <- path_join p key dot;
            do c1 <- match ty with
                     | [] => Ok c
                     | _ => match p with [] => set_typed c sub ty | _ => Abort end
                     end;
            let '(t1, ts2) := next ts1 in
            do (c2, ts3) <- lrun n (if lk then CLink sub t1 else CVal sub t1) c1 ts2;
            match next ts3 with
            | (Some ASep, ts4) => let '(t2, ts5) := next ts4 in lrun n (CFields p t2) c2 ts5
            | (Some AObjE, ts4) => Ok (c2, ts4)
            | _ => Abort
            end
          | _ => Abort
          end
        | _ => Abort
        end
      | CLink p t =>
        match t with
        | Some (AStr s) => do c1 <- link_to c p s; Ok (c1, ts)
        | Some AArrS =>
          match next ts with
          | (Some AArrE, ts1) => Ok (c, ts1)
          | (t1, ts1) => lrun n (CLinks p 0 t1) c ts1
          end
        | _ => Abort
        end
      | CLinks p i t =>
        do (c1, ts1) <- lrun n (CLink (path_index p (N.of_nat i)) t) c ts;
        match next ts1 with
        | (Some ASep, ts2) => let '(t1, ts3) := next ts2 in lrun n (CLinks p (Datatypes.S i) t1) c1 ts3
        | (Some AArrE, ts2) => Ok (c1, ts2)
        | _ => Abort
        end
      end
    end.

  (* 214-226: loadJson; what is left of the stream is not looked at *)
  Definition load_config (fuel : nat) (c : cfg V M) (ts : list atok) : outcome (cfg V M * list atok) :=
    let '(t, ts1) := next ts in lrun fuel (CVal [] t) c ts1.
End Load.

(* the objects made, in the memory of ModelPath: every new one is a new root.  The types
   bool, double, std::string, vector<double> and vector<string> of the environment; a number
   (json.cpp 61-64: floatValue) is the double written like this. *)
Record kinds := Kinds { kbool : nat; kfloat : nat; kstr : nat; kfloats : nat; kstrs : nat }.
Definition new_root (m : roots) (t : nat) (v : val) : view * roots := ((length m, []), m ++ [(t, v)]).
Definition root_maker (K : kinds) (known : str -> option (nat * val)) : maker view roots := Maker
  (fun t m =>
    match t with
    | ABool b => new_root m (kbool K) (VBool b)
    | AInt z => new_root m (kfloat K) (VFloat (show_int z))
    | AFloat x => new_root m (kfloat K) (VFloat x)
    | AStr s => new_root m (kstr K) (VStr s)
    | _ => new_root m (kbool K) (VBool false)               (* not asked for *)
    end)
  (fun strings m => new_root m (if strings : bool then kstrs K else kfloats K) (VList []))
  (fun name m => match known name with Some (t, v) => Ok (new_root m t v) | None => Abort end).

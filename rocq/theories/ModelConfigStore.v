(* ModelConfigStore.v - src/utils/config/config.{h,cpp} (the Config class) and parseKey of
   src/utils/config/json.cpp.  What is done to the values themselves (path.cpp 145-205,
   path.tcc 19-35: has, get and details::set of a path inside a Value) is a parameter:
   the source there uses Value::get<Value>(name) and Value::set, which no longer exist. *)
From Verif Require Import Base ModelConfig.
Local Open Scope outcome_scope.
Local Open Scope N_scope.

(* the operations on values, with the memory the values designate: does the value have
   the path; the value at the path (a list is made longer on the way, path.cpp 190);
   assignment to a component of the value *)
Record layer (V M : Type) : Type := Layer {
  lhas : M -> V -> path -> outcome bool;
  lget : M -> V -> path -> outcome (V * M);
  lput : M -> V -> str -> V -> outcome M
}.
Arguments Layer {V M}. Arguments lhas {V M}. Arguments lget {V M}. Arguments lput {V M}.

(* config.h 37-38: links and keys_ (an unordered_map: iteration order unspecified) *)
Record cfg (V M : Type) : Type := Cfg { ckeys : list (str * V); clinks : node; cmem : M }.
Arguments Cfg {V M}. Arguments ckeys {V M}. Arguments clinks {V M}. Arguments cmem {V M}.
Definition cempty {V M} (m : M) : cfg V M := Cfg [] empty_node m.

Section Config.
  Context {V M : Type} (L : layer V M).

  (* config.cpp 17-25; front() of an empty path is undefined *)
  Definition ccount (c : cfg V M) (p : path) : outcome bool :=
    match p with
    | [] => UB
    | k :: rest =>
      match afind k (ckeys c) with
      | None => Ok false
      | Some v => match rest with [] => Ok true | _ => lhas L (cmem c) v rest end
      end
    end.

  (* config.cpp 27-37 *)
  Definition cindex (c : cfg V M) (p : path) : outcome (V * cfg V M) :=
    match p with
    | [] => UB
    | k :: rest =>
      match afind k (ckeys c) with
      | None => Abort
      | Some v =>
        match rest with
        | [] => Ok (v, c)
        | _ => do (w, m) <- lget L (cmem c) v rest; Ok (w, Cfg (ckeys c) (clinks c) m)
        end
      end
    end.

  (* config.cpp 39-45 *)
  Definition ckeys_list (c : cfg V M) : list str := akeys (ckeys c).

  (* path.h 80-85 with index 1: config::set(value, path, 1, arg), for the part of the
     path after its first item.  If there is none, popBack leaves nothing and the
     component at index 1 of the empty path is read: undefined. *)
  Definition value_set (m : M) (v : V) (rest : path) (arg : V) : outcome M :=
    match rest with
    | [] => UB
    | _ => do (w, m1) <- lget L m v (removelast rest); lput L m1 w (last rest []) arg
    end.

  (* config.cpp 47-75: set and propagate.  links.get creates the node of the path.
     The fuel bounds the nesting of set. *)
  Fixpoint cset (fuel : nat) (c : cfg V M) (p : path) (v : V) : outcome (cfg V M) :=
    match fuel with
    | O => OutOfFuel
    | Datatypes.S f =>
      match p with
      | [] => UB
      | k :: rest =>
        do c1 <-
          match afind k (ckeys c) with
          | Some kv => do m <- value_set (cmem c) kv rest v; Ok (Cfg (ckeys c) (clinks c) m)
          | None => match rest with
                    | [] => Ok (Cfg (aset k v (ckeys c)) (clinks c) (cmem c))
                    | _ => Abort
                    end
          end;
        do subs <- subtree (node_sub (node_get (clinks c1) p) p);
        do c2 <- fold_left (fun acc sub => do x <- acc; cset f x (snd sub) v) subs
                   (Ok (Cfg (ckeys c1) (node_get (clinks c1) p) (cmem c1)));
        Ok (Cfg (ckeys c2) (node_erase (clinks c2) p) (cmem c2))
      end
    end.

  (* config.cpp 77-89 *)
  Definition relink (n : node) (link target : path) : outcome node :=
    if node_has n link then
      do subs <- subtree (node_sub n link);
      Ok (node_erase (fold_left (fun a sub => node_add a (snd sub) (target ++ fst sub)) subs (node_get n target)) link)
    else Ok n.

  (* config.cpp 91-105 *)
  Definition clink (fuel : nat) (c : cfg V M) (link target : path) : outcome (cfg V M) :=
    match target with
    | [] => UB
    | k :: rest =>
      match afind k (ckeys c) with
      | None => do n <- relink (node_add (clinks c) link target) link target; Ok (Cfg (ckeys c) n (cmem c))
      | Some v =>
        do (w, m) <- match rest with [] => Ok (v, cmem c) | _ => lget L (cmem c) v rest end;
        cset fuel (Cfg (ckeys c) (clinks c) m) link w
      end
    end.
End Config.

(* json.cpp 26-46: parseKey.  substr(pos, count) gives at most count bytes. *)
Definition npos_find (b : byte) (s : str) : option nat :=
  (fix go (i : nat) (s : str) : option nat :=
    match s with [] => None | c :: s' => if c =? b then Some i else go (Datatypes.S i) s' end) 0%nat s.
Definition substr (s : str) (pos count : nat) : str := firstn count (skipn pos s).
Definition parse_key (s : str) : outcome (bool * str * str) :=
  match s with
  | [] => Abort
  | c :: _ =>
    let link := c =? 35 in
    let i := npos_find 33 s in
    let split := match i with None => length s | Some i => i end in
    let next := match i with None => length s | Some i => (i + 1)%nat end in
    let key := substr s (if link then 1 else 0)%nat split in
    match key with
    | [] => Abort
    | _ => Ok (link, key, skipn next s)
    end
  end.

(* ModelConfig.v - src/utils/config/path.{h,cpp}, node.{h,cpp} *)
From Verif Require Import Base Dec.
Local Open Scope outcome_scope.

(* ---- Path ---- *)
(* path.h 47: std::vector<std::string> items *)
Definition path := list str.

(* std::string::find(sep, i) on the rest of the string from i: the part before the
   separator, and the part after it if there is one *)
Fixpoint cut (sep : byte) (s : str) : str * option str :=
  match s with
  | [] => ([], None)
  | c :: s' => if N.eqb c sep then ([], Some s')
               else let '(a, r) := cut sep s' in (c :: a, r)
  end.

(* path.cpp 21-36.  The model state is the rest of the text from i; items is the
   vector pushed to.  OutOfFuel never happens with fuel > length (proved). *)
Fixpoint parse_f (fuel : nat) (sep : byte) (items : path) (rest : str) : outcome path :=
  match fuel with
  | O => OutOfFuel
  | Datatypes.S fuel' =>
    match rest with
    | [] => Ok items                                   (* i >= path.size() *)
    | _ =>
      match cut sep rest with
      | ([], _) => Abort                               (* i == j *)
      | (c, None) => Ok (items ++ [c])                 (* j = size: i = size + 1 *)
      | (c, Some rest') => parse_f fuel' sep (items ++ [c]) rest'
      end
    end
  end.
(* path.cpp 53-70: Path(text, sep), Path(prefix, text, sep) *)
Definition path_of (text : str) (sep : byte) : outcome path := parse_f (Datatypes.S (length text)) sep [] text.
Definition path_join (prefix : path) (text : str) (sep : byte) : outcome path := parse_f (Datatypes.S (length text)) sep prefix text.
Definition dot : byte := 46%N.

(* path.cpp 72-77: Path(prefix, index) *)
Definition path_index (prefix : path) (i : N) : path := prefix ++ [dec i].

(* path.cpp 38-50 *)
Fixpoint to_string_from (first : bool) (sep : byte) (items : path) : str :=
  match items with
  | [] => []
  | x :: items' => (if first then [] else [sep]) ++ x ++ to_string_from false sep items'
  end.
Definition to_string (p : path) (sep : byte) : str := to_string_from true sep p.

(* path.cpp 79-103.  items[i] out of range is undefined.  std::isdigit on bytes
   above 127 (negative chars) is taken to be false.  stoull: invalid_argument on
   the empty string, out_of_range from 2^64. *)
Definition isIndex (p : path) (i : nat) : outcome bool :=
  match nth_error p i with
  | None => UB
  | Some item => Ok (forallb is_digit item)
  end.
Definition index (p : path) (i : nat) : outcome N :=
  match nth_error p i with
  | None => UB
  | Some item =>
    if forallb is_digit item then
      match item with
      | [] => Throw
      | _ => if N.ltb (undec item) (2 ^ 64) then Ok (undec item) else Throw
      end
    else UB  (* line 98 passes a size_t to a %s conversion before it can abort *)
  end.

(* path.cpp 105-125 *)
Definition popFront (p : path) : outcome path := match p with [] => Abort | _ :: p' => Ok p' end.
Definition popBack (p : path) : outcome path := match p with [] => Abort | _ => Ok (removelast p) end.

(* path.cpp 127-139; str_ltb / str_eqb are std::string::compare *)
Fixpoint path_ltb (a b : path) : bool :=
  match a, b with
  | [], [] => false
  | [], _ :: _ => true
  | _ :: _, [] => false
  | x :: a', y :: b' => if str_eqb x y then path_ltb a' b' else str_ltb x y
  end.

(* ---- Node ---- *)
(* node.h 19-37.  links: std::set<Path> in iteration order; children: unordered_map
   (association list, iteration order unspecified). *)
Inductive node := Node (links : list path) (children : list (str * node)).
Definition links_of (n : node) := match n with Node l _ => l end.
Definition children_of (n : node) := match n with Node _ c => c end.
Definition empty_node : node := Node [] [].

(* std::set<Path>::insert: equivalence is !(a<b) && !(b<a) *)
Fixpoint set_insert (x : path) (l : list path) : list path :=
  match l with
  | [] => [x]
  | y :: l' => if path_ltb x y then x :: y :: l'
               else if path_ltb y x then y :: set_insert x l' else l
  end.

(* node.cpp 23-33; path is the part from `index` on *)
Fixpoint node_has (n : node) (p : path) : bool :=
  match p with
  | [] => true
  | x :: p' => match afind x (children_of n) with None => false | Some c => node_has c p' end
  end.

(* node.cpp 35-47 returns a pointer to the node, creating the missing ones; here:
   the tree in which that node has been replaced by f of it *)
Fixpoint node_at (n : node) (p : path) (f : node -> node) : node :=
  match p with
  | [] => f n
  | x :: p' =>
    let child := match afind x (children_of n) with Some c => c | None => empty_node end in
    Node (links_of n) (aset x (node_at child p' f) (children_of n))
  end.
(* node.cpp 35-47 called for its side effect *)
Definition node_get (n : node) (p : path) : node := node_at n p (fun m => m).
(* the node returned by get *)
Fixpoint node_sub (n : node) (p : path) : node :=
  match p with
  | [] => n
  | x :: p' => match afind x (children_of n) with Some c => node_sub c p' | None => empty_node end
  end.

(* node.cpp 67-72 *)
Definition node_add (n : node) (link p : path) : node :=
  node_at n p (fun m => Node (set_insert link (links_of m)) (children_of m)).

(* node.cpp 74-94 *)
Fixpoint node_erase (n : node) (p : path) : node :=
  match p with
  | [] => empty_node
  | x :: p' =>
    match afind x (children_of n) with
    | None => n
    | Some c =>
      let c' := node_erase c p' in
      match links_of c', children_of c' with
      | [], [] => Node (links_of n) (aerase x (children_of n))
      | _, _ => Node (links_of n) (aset x c' (children_of n))
      end
    end
  end.

(* node.cpp 49-65: subtree.  The path of a child is Path(path, child.first), which
   parses the key again with the default separator. *)
Fixpoint node_subtree (prefix : path) (n : node) : outcome (list (path * path)) :=
  match n with
  | Node links children =>
    do rest <- (fix go (l : list (str * node)) : outcome (list (path * path)) :=
      match l with
      | [] => Ok []
      | (k, c) :: l' =>
        do p <- path_join prefix k dot;
        do a <- node_subtree p c;
        do b <- go l';
        Ok (a ++ b)
      end) children;
    Ok (map (fun l => (prefix, l)) links ++ rest)
  end.
Definition subtree (n : node) := node_subtree [] n.

(* histories on a tree *)
Inductive nop := NAdd (link p : path) | NErase (p : path) | NGet (p : path).
Definition nstep (n : node) (o : nop) : node :=
  match o with
  | NAdd l p => node_add n l p
  | NErase p => node_erase n p
  | NGet p => node_get n p
  end.
Definition nrun (h : list nop) : node := fold_left nstep h empty_node.

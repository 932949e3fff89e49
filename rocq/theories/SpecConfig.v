(* SpecConfig.v - vocabulary of C44-C46 *)
From Verif Require Import Base ModelConfig.

(* a component that a path text can hold *)
Definition component_ok (sep : byte) (x : str) : Prop := x <> [] /\ ~ In sep x.

Definition prefix (p q : path) : Prop := exists r, q = p ++ r.

(* The link tree as two sets: the paths that have a node and the (path, link) pairs. *)
Record world := World { nodes : path -> Prop; pairs : path -> path -> Prop }.
Definition winit : world := World (fun q => q = []) (fun _ _ => False).
Definition wstep (w : world) (o : nop) : world :=
  match o with
  | NAdd l p => World (fun q => nodes w q \/ prefix q p) (fun q m => pairs w q m \/ (q = p /\ m = l))
  | NGet p => World (fun q => nodes w q \/ prefix q p) (pairs w)
  | NErase p =>
    (* all pairs at or below p go; a node stays if something that stays is at or
       below it: a node that is neither at or below p nor above it, or one above p
       that has links *)
    World (fun q => q = [] \/ exists r, prefix q r /\ nodes w r /\ ~ prefix p r /\ (~ prefix r p \/ exists m, pairs w r m))
          (fun q m => pairs w q m /\ ~ prefix p q)
  end.
Definition wrun (h : list nop) : world := fold_left wstep h winit.

(* the paths mentioned in a history *)
Definition op_path (o : nop) : path := match o with NAdd _ p | NErase p | NGet p => p end.

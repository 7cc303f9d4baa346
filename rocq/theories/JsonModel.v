(** * Conversion of bodies to the HCL JSON representation

    Models crates/hcl-rs/src/structure/json_spec.rs. *)
From Coq Require Import NArith Bool String List.
From Verif Require Import Str NumberModel PrimModel Ast.
From Verif Require MapModel.
Import ListNotations.

(** [JsonNode], json_spec.rs:67-71.  Simplification: [JsonNode::Body] holds the already converted
    bodies; the code stores the bodies and converts each of them, by itself, at the very end
    (json_spec.rs:77-90), so the order of conversion is not observable. *)
Inductive jnode :=
| JMap (m : list (str * jnode))
| JBody (l : list expr)
| JExpr (e : expr).

(** [Map::insert]. *)
Definition jinsert (k : str) (n : jnode) (m : list (str * jnode)) : list (str * jnode) :=
  fst (MapModel.insert seqb k n m).

(** [JsonNode::deep_merge], json_spec.rs:124-136, as [deep_merge other self], together with
    [deep_merge_into], json_spec.rs:115-122 (the [entry] API: merge into the value under the key, or
    append). *)
Section MergeInto.
  Context (merge : jnode -> jnode) (other : jnode) (key : str).
  Fixpoint merge_into (m : list (str * jnode)) : list (str * jnode) :=
    match m with
    | [] => [(key, other)]
    | (k, n) :: m => if seqb key k then (k, merge n) :: m else (k, n) :: merge_into m
    end.
End MergeInto.

Fixpoint deep_merge (other self : jnode) {struct other} : jnode :=
  match other, self with
  | JMap rhs, JMap lhs =>
      JMap ((fix go (rhs : list (str * jnode)) (lhs : list (str * jnode)) {struct rhs} :=
               match rhs with
               | [] => lhs
               | (key, node) :: rhs => go rhs (merge_into (deep_merge node) node key lhs)
               end) rhs lhs)
  | JBody rhs, JBody lhs => JBody (lhs ++ rhs)
  | rhs, _ => rhs
  end.

Definition deep_merge_into (node : jnode) (key : str) (m : list (str * jnode)) : list (str * jnode) :=
  merge_into (deep_merge node) node key m.

(** [Expression::from_iter] of string-keyed pairs, expr/mod.rs:204-212. *)
Definition expr_obj (l : list (str * expr)) : expr :=
  EObj (eobj_collect (map (fun e => (KExpr (EStr (fst e)), snd e)) l)).

(** [From<JsonNode> for Expression], json_spec.rs:73-94. *)
Fixpoint expr_of_node (n : jnode) : expr :=
  match n with
  | JMap m => expr_obj (map (fun e => (fst e, expr_of_node (snd e))) m)
  | JBody [e] => e
  | JBody l => EArr l
  | JExpr e => e
  end.

(** [IntoJsonSpec for Block], json_spec.rs:46-65: one nested map per label. *)
Fixpoint block_node (ident : str) (labels : list str) (b : expr) : list (str * jnode) :=
  match labels with
  | [] => [(ident, JBody [b])]
  | l :: ls => [(ident, JMap (block_node l ls b))]
  end.

(** [IntoJsonSpec::into_json_spec], json_spec.rs:15-17. *)
Definition expr_of_nodes (m : list (str * jnode)) : expr :=
  expr_obj (map (fun e => (fst e, expr_of_node (snd e))) m).

(** [IntoJsonSpec for Body], json_spec.rs:27-44.  Simplification: the nodes of each structure are
    computed first ([entry_of]) and then folded; the code computes them inside the fold. *)
Inductive entry := AttrEntry (k : str) (e : expr) | BlockEntry (nodes : list (str * jnode)).

Definition add_entry (m : list (str * jnode)) (x : entry) : list (str * jnode) :=
  match x with
  | AttrEntry k e => jinsert k (JExpr e) m
  | BlockEntry nodes => fold_left (fun m kn => deep_merge_into (snd kn) (fst kn) m) nodes m
  end.

Fixpoint entry_of (s : struct_) : entry :=
  match s with
  | SAttribute k e => AttrEntry k e
  | SBlk i ls b =>
      BlockEntry (block_node i (map blabel_str ls)
                    (expr_of_nodes (fold_left add_entry (map entry_of b) [])))
  end.

(** [Body::into_json_nodes] and [From<Body> for Expression], json_spec.rs:96-103. *)
Definition body_nodes (b : rbody) : list (str * jnode) := fold_left add_entry (map entry_of b) [].
Definition expr_of_body (b : rbody) : expr := expr_of_nodes (body_nodes b).

(** * Operator chains: what correct grouping means

    Independent of the parser.  A chain is an operand followed by operators with operands; a tree
    over it has the operands as leaves, in order. *)
From Coq Require Import List Arith.
From Verif Require Import PrimModel EAst.
Import ListNotations.

Section Trees.
  (** [A]: operands, [O]: operators with their decoration, [op]: the operator proper. *)
  Context {A O : Type} (op : O -> binop).
  Inductive optree := Leaf (a : A) | Node (l : optree) (o : O) (r : optree).
  (** The chain of which a tree is a grouping. *)
  Fixpoint head (t : optree) : A := match t with Leaf a => a | Node l _ _ => head l end.
  Fixpoint tail (t : optree) : list (O * A) :=
    match t with Leaf _ => [] | Node l o r => tail l ++ (o, head r) :: tail r end.
  Definition root (t : optree) : option binop := match t with Leaf _ => None | Node _ o _ => Some (op o) end.
  Definition root_ge (n : nat) (t : optree) : Prop := match root t with Some o => n <= precedence o | None => True end.
  (** Operators of higher precedence bind tighter, operators of equal precedence associate to the
      left. *)
  Fixpoint grouped (t : optree) : Prop :=
    match t with
    | Leaf _ => True
    | Node l o r => root_ge (precedence (op o)) l /\ root_ge (S (precedence (op o))) r /\ grouped l /\ grouped r
    end.
  (** Two comparisons of the same precedence with nothing of lower precedence between them, like
      [a == b == c] or [a < b + 1 <= c]. *)
  Definition comparison (o : binop) : Prop :=
    match o with OpEq | OpNotEq | OpLess | OpLessEq | OpGreater | OpGreaterEq => True | _ => False end.
  Definition chained (ops : list binop) : Prop :=
    exists a o1 m o2 z, ops = a ++ o1 :: m ++ o2 :: z /\ comparison o1 /\ precedence o1 = precedence o2 /\
      forall o, In o m -> precedence o1 <= precedence o.
End Trees.
Arguments optree : clear implicits.

(** Specification of the operators of the expression language (C44), stated without the evaluator.
    The real number a Number denotes is [valR] (NumberProofs.v). *)
From Coq Require Import ZArith Reals NArith Bool String List.
From Verif Require Import Str NumberModel PrimModel Ast NumberProofs.
Import ListNotations.

(** Equal values: numbers denote the same real, arrays have equal elements in the same places, and
    objects have the same keys with equal values, whatever their order. *)
Fixpoint same (a b : value) : Prop :=
  match a, b with
  | VNull, VNull => True
  | VBool x, VBool y => x = y
  | VNum x, VNum y => valR x = valR y
  | VStr x, VStr y => x = y
  | VArr x, VArr y =>
      (fix go x y := match x, y with
                     | [], [] => True
                     | v :: x, w :: y => same v w /\ go x y
                     | _, _ => False
                     end) x y
  | VObj x, VObj y =>
      (forall k, In k (map fst x) <-> In k (map fst y)) /\
      (fix go x := match x with
                   | [] => True
                   | (k, v) :: x => (forall w, In (k, w) y -> same v w) /\ go x
                   end) x
  | _, _ => False
  end.

(** The operators which need two booleans, two numbers, or any two values. *)
Inductive opkind := Logical | Numeric | Anything.
Definition kind (o : binop) : opkind :=
  match o with
  | OpAnd | OpOr => Logical
  | OpEq | OpNotEq => Anything
  | _ => Numeric
  end.
Definition accepts (o : binop) (a b : value) : Prop :=
  match kind o with
  | Logical => exists x y, a = VBool x /\ b = VBool y
  | Numeric => exists x y, a = VNum x /\ b = VNum y
  | Anything => True
  end.

(** Comparison of real numbers. *)
Definition compares (o : binop) (x y : R) : Prop :=
  match o with
  | OpLess => x < y | OpLessEq => x <= y | OpGreater => x > y | OpGreaterEq => x >= y
  | _ => False
  end%R.
Definition comparison (o : binop) : bool :=
  match o with OpLess | OpLessEq | OpGreater | OpGreaterEq => true | _ => false end.

(** Integer arithmetic; the remainder has the sign of the left operand. *)
Definition computes (o : binop) (x y : Z) : option Z :=
  match o with
  | OpPlus => Some (x + y)%Z
  | OpMinus => Some (x - y)%Z
  | OpMul => Some (x * y)%Z
  | OpMod => if (y =? 0)%Z then None else Some (Z.rem x y)
  | _ => None
  end.

(** The value of key [k] in a list of entries: that of the last entry with this key. *)
Fixpoint last_value (k : str) (l : list (str * value)) : option value :=
  match l with
  | [] => None
  | (k', v) :: l =>
      match last_value k l with
      | Some w => Some w
      | None => if seqb k k' then Some v else None
      end
  end.

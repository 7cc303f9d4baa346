(** * Specification of dedenting, independent of the algorithm

    A template is seen as one text over characters and opaque elements; dedenting by [n] drops the
    first [n] symbols of every non-empty line. *)
From Coq Require Import NArith Arith Bool String List.
From Verif Require Import Str DedentModel.
Import ListNotations.
Open Scope nat_scope.

Inductive sym (E : Type) := Ch (c : chr) | El (e : E).
Arguments Ch {E}. Arguments El {E}.

Section Spec.
  Context {E : Type}.

  (** The whole template as one sequence of symbols. *)
  Fixpoint symbols (t : list (tel E)) : list (sym E) :=
    match t with
    | [] => []
    | TLit s :: t => map Ch s ++ symbols t
    | TOther e :: t => El e :: symbols t
    end.

  Definition sym_lf (x : sym E) : bool := match x with Ch c => N.eqb c LF | El _ => false end.
  Definition sym_ws (x : sym E) : bool := match x with Ch c => is_whitespace c | El _ => false end.

  (** The lines of a text, each with its line feed if it has one. *)
  Definition slines (v : list (sym E)) : list (list (sym E)) := split_incl sym_lf v.

  (** A line is empty when it consists of its line feed only. *)
  Definition empty_line (l : list (sym E)) : bool :=
    match l with [] => true | [x] => sym_lf x | _ => false end.

  (** Number of white space symbols (other than the line feed) at the start of a line. *)
  Fixpoint indentation (l : list (sym E)) : nat :=
    match l with
    | [] => 0
    | x :: l => if sym_lf x then 0 else if sym_ws x then S (indentation l) else 0
    end.

  (** The indentations of the non-empty lines. *)
  Definition indentations (v : list (sym E)) : list nat :=
    map indentation (filter (fun l => negb (empty_line l)) (slines v)).

  (** Least element. *)
  Definition least (l : list nat) (m : nat) : Prop := In m l /\ forall x, In x l -> m <= x.

  (** Dropping [n] symbols from every non-empty line. *)
  Definition drop_columns (n : nat) (v : list (sym E)) : list (sym E) :=
    concat (map (fun l => if empty_line l then l else skipn n l) (slines v)).

  (** Templates as the parser and the builders make them: no empty literal, no two literals in a row,
      no carriage return. *)
  Fixpoint wf_template (after_literal : bool) (t : list (tel E)) : Prop :=
    match t with
    | [] => True
    | TLit s :: t => after_literal = false /\ s <> [] /\ ~ In CR s /\ wf_template true t
    | TOther _ :: t => wf_template false t
    end.
End Spec.

(** * What the texts of evaluation errors are for: specification (C56) *)
From Coq Require Import NArith ZArith Arith Bool String List.
From Verif Require Import Res Str Dec NumberModel PrimModel Ast EqSpec EvalModel EvalSpec FmtModel FmtReadSpec MsgModel.
Import ListNotations.
Open Scope N_scope.

(** No grave accent, which encloses the parts of a message. *)
Definition no_tick (s : str) : Prop := ~ In 96 s.
(** No line feed. *)
Definition one_line (s : str) : Prop := ~ In 10 s.

(** The types of [n] arguments of a function. *)
Definition arg_types (fd : funcdef) (n : nat) : list ptype :=
  fd_params fd ++ match fd_variadic fd with Some p => repeat p (n - length (fd_params fd)) | None => [] end.
(** The first argument that does not have the type of its parameter ([has_type]: EvalSpec.v), with its
    position and that type. *)
Definition first_misfit (fd : funcdef) (args : list value) (pos : nat) (p : ptype) (v : value) : Prop :=
  let ps := arg_types fd (length args) in
  nth_error args pos = Some v /\ nth_error ps pos = Some p /\ ~ has_type p v /\
  forall i q w, (i < pos)%nat -> nth_error args i = Some w -> nth_error ps i = Some q -> has_type q w.
(** Enough arguments, and not too many. *)
Definition arity_ok (fd : funcdef) (args : list value) : Prop :=
  (length (fd_params fd) <= length args)%nat /\ (fd_variadic fd = None -> length args = length (fd_params fd)).

Section Clear.
  Context (u : unicode) (b : build) (pf : str -> f64) (sf : f64 -> str).

  Definition name_ok (x : str) : Prop := is_ident u x = true.
  Definition func_ok (f : funcname) : Prop := Forall name_ok (fn_namespace f) /\ name_ok (fn_name f).
  (** Values whose text is read back (C21). *)
  Definition value_ok (v : value) : Prop := value_readable u b pf sf default_cfg v.
  (** Expressions whose text is read back as they are (C21). *)
  Definition expr_ok (e : expr) : Prop := readable u b pf sf default_cfg e /\ strict e.

  (** The messages of functions: those of [FuncDef::call] about an argument, and others without grave
      accents. *)
  Definition msg_ok (s : str) : Prop :=
    no_tick s \/
    exists pos p v, value_ok v /\ (s = positional_msg u sf pos p v \/ s = variadic_msg u sf pos p v).

  Definition kind_ok (k : errkind) : Prop :=
    match k with
    | Message _ => False
    | UndefinedVar x => name_ok x
    | UndefinedFunc f => func_ok f
    | Unexpected v expected => value_ok v /\ no_tick expected
    | BadIndex _ => True
    | BadUnary _ v => value_ok v
    | BadBinary l _ r => value_ok l /\ value_ok r
    | NoSuchKey k | KeyExists k => no_tick k
    | FuncFailed f msg => func_ok f /\ msg_ok msg
    end.
  Definition error_ok (e : error) : Prop := kind_ok (err_kind e) /\ match err_expr e with Some x => expr_ok x | None => True end.
End Clear.

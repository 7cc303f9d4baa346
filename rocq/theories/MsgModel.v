(** * The texts of evaluation errors (crates/hcl-rs/src/eval/error.rs, func.rs) *)
From Coq Require Import NArith ZArith Arith Bool String List.
From Verif Require Import Res Str Dec NumberModel PrimModel Ast EvalModel FmtModel.
Import ListNotations.
Open Scope N_scope.

(** ** Texts of the parts *)
Section Text.
  Context (u : unicode) (sf : f64 -> str).

  (** [Display for Value], value/mod.rs:203-209, and [Display for Expression], expr/mod.rs:280-287:
      [format::to_string] with a fresh default formatter (format/mod.rs:744-750); a failure would be a
      panic, and there is none ([FmtLayout.fresh_text]). *)
  Definition value_str (v : value) : str := match format_fresh (fm_value u sf default_cfg v) with Done s => s | Panic => [] end.
  Definition expr_str (e : expr) : str := match format_fresh (fm_expr u sf default_cfg e) with Done s => s | Panic => [] end.

  (** [Display for ParamType], func.rs:85-115. *)
  Fixpoint ptype_str (t : ptype) : str :=
    match t with
    | PAny => lit "`any`"
    | PBool => lit "`bool`"
    | PNumber => lit "`number`"
    | PString => lit "`string`"
    | PArray t => lit "`array(" ++ ptype_str t ++ lit ")`"
    | PObject t => lit "`object(" ++ ptype_str t ++ lit ")`"
    | PNullable t => lit "`nullable(" ++ ptype_str t ++ lit ")`"
    | POneOf ts =>
        match ts with
        | [] => lit "`any`"
        | [t] => ptype_str t
        | _ =>
            let n := length ts in
            concat (map (fun p =>
                (if Nat.eqb (fst p) (n - 1) then lit " or " else if Nat.ltb 0 (fst p) then lit ", " else []) ++ snd p)
              (combine (seq 0 n) (map ptype_str ts)))
        end
    end.

  (** The messages of [FuncDef::call], func.rs:210-246. *)
  Definition arity_msg (expected got : nat) : str :=
    lit "expected " ++ show_N (N.of_nat expected) ++ lit " positional arguments, got " ++ show_N (N.of_nat got).
  Definition positional_msg (pos : nat) (p : ptype) (v : value) : str :=
    lit "expected argument at position " ++ show_N (N.of_nat pos) ++ lit " to be of type " ++ ptype_str p ++ lit ", got `" ++ value_str v ++ lit "`".
  Definition variadic_msg (pos : nat) (p : ptype) (v : value) : str :=
    lit "expected variadic argument at position " ++ show_N (N.of_nat pos) ++ lit " to be of type " ++ ptype_str p ++ lit ", got `" ++ value_str v ++ lit "`".

  (** [FuncDef::call], func.rs:210-246, with its messages; [EvalModel.call_func] is the same without
      ([MsgProofs.call_same]).  The loops over the positional and the variadic arguments. *)
  Fixpoint check_positional (pos : nat) (args : list value) (params : list ptype) : option str :=
    match args, params with
    | a :: args, p :: params => if satisfied p a then check_positional (S pos) args params else Some (positional_msg pos p a)
    | _, _ => None
    end.
  Fixpoint check_variadic (params_len pos : nat) (p : ptype) (args : list value) : option str :=
    match args with
    | a :: args => if satisfied p a then check_variadic params_len (S pos) p args else Some (variadic_msg (params_len + pos) p a)
    | [] => None
    end.
  Definition call_msg (fd : funcdef) (args : list value) : value + str :=
    let params_len := length (fd_params fd) in
    let args_len := length args in
    if Nat.ltb args_len params_len
       || (match fd_variadic fd with None => true | Some _ => false end && Nat.ltb params_len args_len)
    then inr (arity_msg params_len args_len)
    else
      match check_positional 0 (firstn params_len args) (fd_params fd) with
      | Some msg => inr msg
      | None =>
          match match fd_variadic fd with Some p => check_variadic params_len 0 p (skipn params_len args) | None => None end with
          | Some msg => inr msg
          | None => fd_func fd (FArgs args params_len)
          end
      end.

  (** ** Errors *)

  (** [ErrorKind], error.rs:193-214. *)
  Inductive errkind :=
  | Message (msg : str)
  | UndefinedVar (x : str)
  | UndefinedFunc (f : funcname)
  | Unexpected (v : value) (expected : str)
  | BadIndex (i : N)
  | BadUnary (o : unop) (v : value)
  | BadBinary (l : value) (o : binop) (r : value)
  | NoSuchKey (k : str)
  | KeyExists (k : str)
  | FuncFailed (f : funcname) (msg : str).

  (** [Display for ErrorKind], error.rs:234-263. *)
  Definition kind_str (k : errkind) : str :=
    match k with
    | Message msg => msg
    | UndefinedVar x => lit "undefined variable `" ++ x ++ lit "`"
    | UndefinedFunc f => lit "undefined function `" ++ fname_str f ++ lit "`"
    | Unexpected v expected => lit "unexpected value `" ++ value_str v ++ lit "`, expected " ++ expected
    | BadIndex i => lit "index out of bounds: " ++ show_N i
    | NoSuchKey k => lit "no such key: `" ++ k ++ lit "`"
    | KeyExists k => lit "key `" ++ k ++ lit "` already exists"
    | BadUnary o v => lit "unary operator `" ++ unop_str o ++ lit "` is not applicable to `" ++ value_str v ++ lit "`"
    | BadBinary l o r => lit "binary operator `" ++ binop_str o ++ lit "` is not applicable to `" ++ value_str l ++ lit "` and `" ++ value_str r ++ lit "`"
    | FuncFailed f msg => lit "error calling function `" ++ fname_str f ++ lit "`: " ++ msg
    end.

  (** [Error], error.rs:96-100 and 162-169. *)
  Record error := Error { err_kind : errkind; err_expr : option expr }.

  (** [Display for ErrorInner], error.rs:177-187, and [Error], 142-146. *)
  Definition error_str (e : error) : str :=
    kind_str (err_kind e) ++ match err_expr e with Some x => lit " in expression `" ++ expr_str x ++ lit "`" | None => [] end.

  (** [Errors], error.rs:27-30: a vector of errors; [From<Error>], 69-74. *)
  Definition errors := list error.
  Definition errors_of (e : error) : errors := [e].

  (** [EvalResultExt::add_errors], error.rs:11-21 with [extend_from_result], 33-37. *)
  Definition add_errors (a b : option errors) : option errors :=
    match a with
    | Some l => Some (match b with Some r => l ++ r | None => l end)
    | None => b
    end.

  (** [Display for Errors], error.rs:53-67 (the index is out of bounds only for an empty vector, whose
      length is not 1). *)
  Definition errors_str (l : errors) : str :=
    match l with
    | [e] => error_str e
    | _ => show_N (N.of_nat (length l)) ++ lit " errors occurred:" ++ [10] ++ concat (map (fun e => lit "- " ++ error_str e ++ [10]) l)
    end.
End Text.

(** Model of crates/hcl-primitives/src/{ident,expr,template}.rs. *)
From Coq Require Import NArith Bool Ascii String List.
From Verif Require Import Str.
Import ListNotations.
Open Scope N_scope.

(** * Identifiers (ident.rs) *)

(** The tables of the external crate [unicode-ident]. *)
Record unicode := { xid_start : chr -> bool; xid_continue : chr -> bool }.

(** ident.rs:290-292 *)
Definition is_id_start (u : unicode) (c : chr) : bool := xid_start u c || (c =? 95).
(** ident.rs:307-309 *)
Definition is_id_continue (u : unicode) (c : chr) : bool := xid_continue u c || (c =? 45).

(** ident.rs:336-345 *)
Definition is_ident (u : unicode) (s : str) : bool :=
  match s with
  | [] => false
  | first :: chars => is_id_start u first && forallb (is_id_continue u) chars
  end.

(** ident.rs:66-77 ([None] is the error "invalid identifier"). *)
Definition ident_try_new (u : unicode) (s : str) : option str :=
  if is_ident u s then Some s else None.

(** ident.rs:113-124, the loop body for characters after the first. *)
Definition sanitize_tail (u : unicode) (s : str) : str :=
  map (fun c => if is_id_continue u c then c else 95) s.

(** ident.rs:101-127 *)
Definition ident_new_sanitized (u : unicode) (s : str) : str :=
  match s with
  | [] => [95]
  | c :: r =>
      (if is_id_start u c then [c] else if is_id_continue u c then [95; c] else [95])
      ++ sanitize_tail u r
  end.

(** A concrete table, exact on ASCII, used only in examples. *)
Definition is_ascii_letter (c : chr) : bool := ((65 <=? c) && (c <=? 90)) || ((97 <=? c) && (c <=? 122)).
Definition ascii_unicode : unicode :=
  {| xid_start := is_ascii_letter;
     xid_continue := fun c => is_ascii_letter c || is_digit c || (c =? 95) |}.

(** * Operators (expr.rs) *)
Inductive unop := Neg | Not.
Inductive binop :=
| OpEq | OpNotEq | OpLessEq | OpGreaterEq | OpLess | OpGreater
| OpPlus | OpMinus | OpMul | OpDiv | OpMod | OpAnd | OpOr.

(** expr.rs:21-26 *)
Definition unop_str (o : unop) : str := match o with Neg => lit "-" | Not => lit "!" end.
(** expr.rs:83-99 *)
Definition binop_str (o : binop) : str :=
  match o with
  | OpEq => lit "==" | OpNotEq => lit "!=" | OpLessEq => lit "<=" | OpGreaterEq => lit ">="
  | OpLess => lit "<" | OpGreater => lit ">" | OpPlus => lit "+" | OpMinus => lit "-"
  | OpMul => lit "*" | OpDiv => lit "/" | OpMod => lit "%" | OpAnd => lit "&&" | OpOr => lit "||"
  end.
(** expr.rs:102-114 *)
Definition precedence (o : binop) : nat :=
  match o with
  | OpMul | OpDiv | OpMod => 6
  | OpPlus | OpMinus => 5
  | OpLessEq | OpGreaterEq | OpLess | OpGreater => 4
  | OpEq | OpNotEq => 3
  | OpAnd => 2
  | OpOr => 1
  end%nat.
(** expr.rs:38-44 *)
Definition unop_from_str (s : str) : option unop :=
  if seqb s (lit "-") then Some Neg else if seqb s (lit "!") then Some Not else None.
(** expr.rs:126-143 *)
Definition binop_from_str (s : str) : option binop :=
  if seqb s (lit "==") then Some OpEq else
  if seqb s (lit "!=") then Some OpNotEq else
  if seqb s (lit "<=") then Some OpLessEq else
  if seqb s (lit ">=") then Some OpGreaterEq else
  if seqb s (lit "<") then Some OpLess else
  if seqb s (lit ">") then Some OpGreater else
  if seqb s (lit "+") then Some OpPlus else
  if seqb s (lit "-") then Some OpMinus else
  if seqb s (lit "*") then Some OpMul else
  if seqb s (lit "/") then Some OpDiv else
  if seqb s (lit "%") then Some OpMod else
  if seqb s (lit "&&") then Some OpAnd else
  if seqb s (lit "||") then Some OpOr else None.

(** * Template primitives (template.rs) *)

(** template.rs:26-36 *)
Inductive strip := StripNone | StripStart | StripEnd | StripBoth.
(** template.rs:51-53, 67-69 *)
Definition strip_start (s : strip) : bool := match s with StripStart | StripBoth => true | _ => false end.
Definition strip_end (s : strip) : bool := match s with StripEnd | StripBoth => true | _ => false end.
(** template.rs:72-81 *)
Definition strip_of (p : bool * bool) : strip :=
  match p with
  | (true, true) => StripBoth | (true, false) => StripStart
  | (false, true) => StripEnd | (false, false) => StripNone
  end.

(** The two characters which start a marker: [$] (36) and [%] (37); [{] is 123. *)
Definition is_mark (c : chr) : bool := (c =? 36) || (c =? 37).

(** template.rs:110-135, the loop of [escape_markers_owned]. *)
Fixpoint escape_loop (s : str) : str :=
  match s with
  | [] => []
  | c :: r =>
      if is_mark c then
        match r with
        | [] => [c]
        | c2 :: r' => if c2 =? 123 then c :: c :: c2 :: escape_loop r' else c :: c2 :: escape_loop r'
        end
      else c :: escape_loop r
  end.

(** template.rs:94-108: copy up to the first [${] or [%{], then run the loop. *)
Fixpoint escape_markers (s : str) : str :=
  match s with
  | [] => []
  | c :: r =>
      match r with
      | c2 :: _ => if is_mark c && (c2 =? 123) then escape_loop s else c :: escape_markers r
      | [] => [c]
      end
  end.

(** template.rs:165-192, the loop of [unescape_markers_owned]. *)
Fixpoint unescape_loop (s : str) : str :=
  match s with
  | [] => []
  | c :: r =>
      if is_mark c then
        match r with
        | [] => [c]
        | [c2] => [c; c2]
        | c2 :: c3 :: r' =>
            if (c2 =? c) && (c3 =? 123) then c :: c3 :: unescape_loop r'
            else c :: c2 :: c3 :: unescape_loop r'
        end
      else c :: unescape_loop r
  end.

(** template.rs:149-163: copy up to the first [$${] or [%%{], then run the loop. *)
Fixpoint unescape_markers (s : str) : str :=
  match s with
  | [] => []
  | c :: r =>
      match r with
      | c2 :: c3 :: _ =>
          if is_mark c && (c2 =? c) && (c3 =? 123) then unescape_loop s else c :: unescape_markers r
      | _ => c :: unescape_markers r
      end
  end.

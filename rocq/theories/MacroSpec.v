(** * What the construction macros are documented to build (macros.rs:1-82, 372-400, 635-667) *)
From Coq Require Import NArith Bool String List.
From Verif Require Import Str PrimModel Ast MacroModel.
From Verif Require MapModel.
Import ListNotations.
Open Scope N_scope.

(** ** What is written *)
(** Keys of objects: [key], ["key"], [(key_expr)]. *)
Inductive mkey := MKIdent (s : str) | MKLit (s : str) | MKParen (e : list tt).
(** Values: [null], [true], [false], a Rust expression, an array with or without a comma behind the
    last element, an object whose entries may be followed by a comma. *)
Inductive mexpr :=
| MNull | MBool (b : bool) | MRust (e : list tt)
| MArr (l : list mexpr) (comma : bool)
| MObj (l : list (mkey * mexpr * bool)).
(** Attribute keys and block identifiers: [name], [(expr)]; labels: [label], ["label"], [(expr)]. *)
Inductive mname := MName (s : str) | MNameParen (e : list tt).
Inductive mlabel := MLIdent (s : str) | MLLit (s : str) | MLParen (e : list tt).
Inductive mstruct :=
| MAttr (k : mname) (v : mexpr)
| MBlock (k : mname) (ls : list mlabel) (b : list mstruct).

(** ** Its tokens *)
Definition key_tok (k : mkey) : tt :=
  match k with MKIdent s => TId s | MKLit s => TLit s | MKParen e => TGroup Paren e end.
Definition comma_if (c : bool) : list tt := if c then [COMMA] else [].
Definition between (c : bool) : list (list tt) -> list tt :=
  fix go l := match l with
              | [] => []
              | [x] => x ++ comma_if c
              | x :: l => x ++ COMMA :: go l
              end.
Fixpoint tokens (e : mexpr) : list tt :=
  match e with
  | MNull => [TId (lit "null")]
  | MBool b => [TId (if b then lit "true" else lit "false")]
  | MRust e => e
  | MArr l c => [TGroup Bracket (between c (map tokens l))]
  | MObj l => [TGroup Brace (flat_map (fun e => match e with (k, v, c) => key_tok k :: EQUALS :: tokens v ++ comma_if c end) l)]
  end.
Definition name_tok (k : mname) : tt := match k with MName s => TId s | MNameParen e => TGroup Paren e end.
Definition label_tok (l : mlabel) : tt :=
  match l with MLIdent s => TId s | MLLit s => TLit s | MLParen e => TGroup Paren e end.
Fixpoint struct_tokens (s : mstruct) : list tt :=
  match s with
  | MAttr k v => name_tok k :: EQUALS :: tokens v
  | MBlock k ls b => name_tok k :: map label_tok ls ++ [TGroup Brace (flat_map struct_tokens b)]
  end.
Definition body_tokens (b : list mstruct) : list tt := flat_map struct_tokens b.

(** ** What it means; [None] if a Rust expression in it has no value of the type that is needed *)
Definition both {A B} (x : option A) (y : option B) : option (A * B) :=
  match x, y with Some a, Some b => Some (a, b) | _, _ => None end.
Fixpoint all_some {A} (l : list (option A)) : option (list A) :=
  match l with
  | [] => Some []
  | x :: l => option_map (fun p => fst p :: snd p) (both x (all_some l))
  end.

Section Meaning.
  Context {A K : Type} (null : A) (bool_ : bool -> A) (arr : list A -> A) (obj : list (K * A) -> A)
          (keqb : K -> K -> bool) (other : list tt -> option A) (ident : str -> K) (key : list tt -> option K).
  Definition key_meaning (k : mkey) : option K :=
    match k with MKIdent s => Some (ident s) | MKLit s => key [TLit s] | MKParen e => key e end.
  Fixpoint meaning (e : mexpr) : option A :=
    match e with
    | MNull => Some null
    | MBool b => Some (bool_ b)
    | MRust e => other e
    | MArr l _ => option_map arr (all_some (map meaning l))
    | MObj l => option_map (fun es => obj (MapModel.from_iter keqb es))
                  (all_some (map (fun e => match e with (k, v, _) => both (key_meaning k) (meaning v) end) l))
    end.
End Meaning.

Section Data.
  Context (to_expression : list tt -> option expr) (to_value : list tt -> option value)
          (to_string to_ident : list tt -> option str).
  (** As an expression: identifiers stay identifiers, other keys are expressions. *)
  Definition expr_meaning : mexpr -> option expr :=
    meaning ENull EBool EArr EObj (okey_eqb expr_eqb) to_expression KIdent (fun e => option_map KExpr (to_expression e)).
  (** As a value: all keys are strings. *)
  Definition value_meaning : mexpr -> option value :=
    meaning VNull VBool VArr VObj seqb to_value (fun s => s) to_string.

  Definition name_meaning (k : mname) : option str := match k with MName s => Some s | MNameParen e => to_ident e end.
  Definition label_meaning (l : mlabel) : option blabel :=
    match l with
    | MLIdent s => Some (BLIdent s)
    | MLLit s => option_map BLString (to_string [TLit s])
    | MLParen e => option_map BLString (to_string e)
    end.
  Fixpoint struct_meaning (s : mstruct) : option struct_ :=
    match s with
    | MAttr k v => option_map (fun p => SAttribute (fst p) (snd p)) (both (name_meaning k) (expr_meaning v))
    | MBlock k ls b =>
        option_map (fun p => SBlk (fst p) (fst (snd p)) (snd (snd p)))
          (both (name_meaning k) (both (all_some (map label_meaning ls)) (all_some (map struct_meaning b))))
    end.
  Definition body_meaning (b : list mstruct) : option rbody := all_some (map struct_meaning b).
End Data.

(** ** The inputs *)
Section Inputs.
  Context (rust_expr : list tt -> option (list tt * list tt)).

  (** All of [e] is a Rust expression. *)
  Definition whole (e : list tt) : Prop :=
    (exists t r, e = t :: r /\ can_begin t = true) /\ rust_expr e = Some (e, []).
  (** Neither the end nor a comma continues it (true of every Rust expression). *)
  Definition expression (e : list tt) : Prop :=
    whole e /\ forall r, rust_expr (e ++ COMMA :: r) = Some (e, COMMA :: r).
  (** A token tree which is not continued by a name or a literal. *)
  Definition alone (t : tt) : Prop :=
    forall k r, (exists s, k = TId s \/ k = TLit s) -> rust_expr (t :: k :: r) = Some ([t], k :: r).
  (** The words, brackets and braces have meanings of their own. *)
  Definition special (t : tt) : Prop :=
    t = TId (lit "null") \/ t = TId (lit "true") \/ t = TId (lit "false") \/
    exists l, t = TGroup Bracket l \/ t = TGroup Brace l.
  Definition rust (e : list tt) : Prop := expression e /\ forall t r, e = t :: r -> ~ special t.

  Definition key_ok (k : mkey) : Prop := match k with MKParen e => whole e | _ => True end.
  (** An entry [k = v] without a comma behind it: a Rust expression has to be a single token tree, and
      the next key must not be parenthesised. *)
  Definition ends (v : mexpr) (c : bool) (next : list (mkey * mexpr * bool)) : Prop :=
    c = true \/
    match v with
    | MRust e => exists t, e = [t] /\ match next with
                                      | [] => True
                                      | (MKParen _, _, _) :: _ => False
                                      | _ => alone t
                                      end
    | _ => True
    end.
  Fixpoint ok (e : mexpr) : Prop :=
    match e with
    | MNull | MBool _ => True
    | MRust e => rust e
    | MArr l c => (c = true -> l <> []) /\ (fix all l := match l with [] => True | x :: l => ok x /\ all l end) l
    | MObj l => (fix all l := match l with
                              | [] => True
                              | (k, v, c) :: l => key_ok k /\ ok v /\ ends v c l /\ all l
                              end) l
    end.
  (** What the whole input of [expression!] or [value!] may be: here a Rust expression may start with
      a special token, but not be one. *)
  Definition ok_input (e : mexpr) : Prop :=
    match e with
    | MRust e => whole e /\ forall t, e = [t] -> ~ special t
    | _ => ok e
    end.

  Context (u : unicode).
  (** Rust's raw identifiers are not among HCL's. *)
  Definition name_ok (k : mname) : Prop := match k with MName s => is_ident u s = true | MNameParen e => whole e end.
  Definition label_ok (l : mlabel) : Prop := match l with MLParen e => whole e | _ => True end.
  Definition single (v : mexpr) : Prop := match v with MRust e => exists t, e = [t] | _ => True end.
  Fixpoint struct_ok (s : mstruct) : Prop :=
    match s with
    | MAttr k v => name_ok k /\ ok v /\ single v
    | MBlock k ls b => name_ok k /\ Forall label_ok ls /\ (fix all l := match l with [] => True | x :: l => struct_ok x /\ all l end) b
    end.
  Definition body_ok (b : list mstruct) : Prop := Forall struct_ok b.
End Inputs.

(** The macro builds [x], whatever number of rewrites beyond some is allowed. *)
Definition builds {A} (f : nat -> option A) (x : option A) : Prop := exists n, forall m, (n <= m)%nat -> f m = x.

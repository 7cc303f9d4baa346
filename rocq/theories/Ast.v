(** * Syntax trees and values of the hcl-rs crate

    Models the data types of crates/hcl-rs/src/{expr,template,structure,value}. *)
From Coq Require Import NArith Bool String List.
From Verif Require Import Str NumberModel PrimModel.
From Verif Require MapModel.
Import ListNotations.
Open Scope N_scope.

(** [Value], value/mod.rs:19-33.  Objects are insertion-ordered ([Map], value/mod.rs:15). *)
Inductive value :=
| VNull | VBool (b : bool) | VNum (n : num) | VStr (s : str)
| VArr (l : list value) | VObj (m : list (str * value)).

(** [HeredocStripMode], expr/template_expr.rs:91-100. *)
Inductive hdmode := HdNone | HdIndent.

(** [TemplateExpr], expr/template_expr.rs:12-21 and [Heredoc], 60-67: the template is kept as
    unparsed text. *)
Inductive tplexpr :=
| QuotedString (s : str)
| Heredoc (delim : str) (template : str) (mode : hdmode).

(** [TemplateExpr::as_str], expr/template_expr.rs:25-30. *)
Definition tpl_text (t : tplexpr) : str :=
  match t with QuotedString s => s | Heredoc _ s _ => s end.

(** [FuncName], expr/func_call.rs:9-14. *)
Record funcname := FuncName { fn_namespace : list str; fn_name : str }.

(** [ObjectKey], expr/mod.rs:292-297, over the type of expressions. *)
Inductive okey (E : Type) := KIdent (s : str) | KExpr (e : E).
Arguments KIdent {E}. Arguments KExpr {E}.

(** [TraversalOperator], expr/traversal.rs:109-125.  Legacy indices are u64. *)
Inductive trop (E : Type) := AttrSplat | FullSplat | GetAttr (s : str) | Index (e : E) | LegacyIndex (n : N).
Arguments AttrSplat {E}. Arguments FullSplat {E}. Arguments GetAttr {E}.
Arguments Index {E}. Arguments LegacyIndex {E}.

(** [Expression], expr/mod.rs:41-72, with [Traversal] (traversal.rs:7-12), [FuncCall]
    (func_call.rs:63-71), [Conditional] (conditional.rs:7-14), [Operation] (operation.rs:10-60) and
    [ForExpr] (for_expr.rs:8-30) inlined. *)
Inductive expr :=
| ENull | EBool (b : bool) | ENum (n : num) | EStr (s : str)
| EArr (l : list expr)
| EObj (m : list (okey expr * expr))
| ETpl (t : tplexpr)
| EVar (x : str)
| ETrav (e : expr) (ops : list (trop expr))
| ECall (f : funcname) (args : list expr) (expand_final : bool)
| EParen (e : expr)
| ECond (c t f : expr)
| EUnary (o : unop) (e : expr)
| EBinary (l : expr) (o : binop) (r : expr)
| EFor (key_var : option str) (value_var : str) (coll : expr) (key : option expr) (val : expr)
       (grouping : bool) (cond : option expr).

(** [Template] and [Element], template/mod.rs:105-107, 208-216; [Interpolation] 255-261,
    [IfDirective] 330-349, [ForDirective] 403-418. *)
Inductive elem :=
| ElLit (s : str)
| ElInterp (e : expr) (s : strip)
| ElIf (cond : expr) (t : list elem) (f : option (list elem)) (if_s else_s endif_s : strip)
| ElFor (key_var : option str) (value_var : str) (coll : expr) (t : list elem) (for_s endfor_s : strip).
Definition template := list elem.

(** [BlockLabel], structure/block.rs:116-121; [Structure], structure/mod.rs:72-77; [Attribute],
    attribute.rs:19-24; [Block], block.rs:19-26; [Body], body.rs:18. *)
Inductive blabel := BLIdent (s : str) | BLString (s : str).
Inductive struct_ :=
| SAttribute (key : str) (e : expr)
| SBlk (ident : str) (labels : list blabel) (body : list struct_).
Definition rbody := list struct_.

(** [BlockLabel::into_inner] / [as_str], structure/block.rs:128-141. *)
Definition blabel_str (l : blabel) : str := match l with BLIdent s => s | BLString s => s end.

(** ** Structural equality as derived by [PartialEq]

    [Expression] derives [PartialEq] (expr/mod.rs:39).  Numbers compare with [Number]'s own
    equality; objects with the order-insensitive equality of [VecMap]. *)
Definition opt_eqb {A} (eqb : A -> A -> bool) (a b : option A) : bool :=
  match a, b with Some x, Some y => eqb x y | None, None => true | _, _ => false end.
Section ListEqb.
Context {A : Type} (eqb : A -> A -> bool).
Fixpoint list_eqb (a b : list A) : bool :=
  match a, b with
  | [], [] => true
  | x :: a, y :: b => eqb x y && list_eqb a b
  | _, _ => false
  end.
End ListEqb.
Definition hdmode_eqb (a b : hdmode) : bool :=
  match a, b with HdNone, HdNone | HdIndent, HdIndent => true | _, _ => false end.
Definition tplexpr_eqb (a b : tplexpr) : bool :=
  match a, b with
  | QuotedString s, QuotedString t => seqb s t
  | Heredoc d s m, Heredoc d' s' m' => seqb d d' && seqb s s' && hdmode_eqb m m'
  | _, _ => false
  end.
Definition funcname_eqb (a b : funcname) : bool :=
  list_eqb seqb (fn_namespace a) (fn_namespace b) && seqb (fn_name a) (fn_name b).
Definition unop_eqb (a b : unop) : bool := seqb (unop_str a) (unop_str b).
Definition binop_eqb (a b : binop) : bool := seqb (binop_str a) (binop_str b).

Definition okey_eqb {E} (eqb : E -> E -> bool) (a b : okey E) : bool :=
  match a, b with
  | KIdent s, KIdent t => seqb s t
  | KExpr e, KExpr f => eqb e f
  | _, _ => false
  end.
Definition trop_eqb {E} (eqb : E -> E -> bool) (a b : trop E) : bool :=
  match a, b with
  | AttrSplat, AttrSplat | FullSplat, FullSplat => true
  | GetAttr s, GetAttr t => seqb s t
  | Index e, Index f => eqb e f
  | LegacyIndex n, LegacyIndex m => N.eqb n m
  | _, _ => false
  end.

Fixpoint expr_eqb (a b : expr) {struct a} : bool :=
  match a, b with
  | ENull, ENull => true
  | EBool x, EBool y => Bool.eqb x y
  | ENum x, ENum y => num_eqb x y
  | EStr x, EStr y => seqb x y
  | EArr x, EArr y => list_eqb expr_eqb x y
  | EObj x, EObj y => MapModel.map_eqb (okey_eqb expr_eqb) expr_eqb x y
  | ETpl x, ETpl y => tplexpr_eqb x y
  | EVar x, EVar y => seqb x y
  | ETrav e x, ETrav f y =>
      expr_eqb e f && list_eqb (trop_eqb expr_eqb) x y
  | ECall f x b, ECall g y c => funcname_eqb f g && list_eqb expr_eqb x y && Bool.eqb b c
  | EParen e, EParen f => expr_eqb e f
  | ECond a1 a2 a3, ECond b1 b2 b3 => expr_eqb a1 b1 && expr_eqb a2 b2 && expr_eqb a3 b3
  | EUnary o e, EUnary p f => unop_eqb o p && expr_eqb e f
  | EBinary l o r, EBinary l' o' r' => expr_eqb l l' && binop_eqb o o' && expr_eqb r r'
  | EFor k v c ke ve g co, EFor k' v' c' ke' ve' g' co' =>
      opt_eqb seqb k k' && seqb v v' && expr_eqb c c' &&
      opt_eqb expr_eqb ke ke' &&
      expr_eqb ve ve' && Bool.eqb g g' &&
      opt_eqb expr_eqb co co'
  | _, _ => false
  end.

(** [Value] derives [PartialEq] (value/mod.rs:18); [Map] equality is order-insensitive. *)
Fixpoint value_eqb (a b : value) {struct a} : bool :=
  match a, b with
  | VNull, VNull => true
  | VBool x, VBool y => Bool.eqb x y
  | VNum x, VNum y => num_eqb x y
  | VStr x, VStr y => seqb x y
  | VArr x, VArr y => list_eqb value_eqb x y
  | VObj x, VObj y => MapModel.map_eqb seqb value_eqb x y
  | _, _ => false
  end.

(** ** Conversions between values and expressions *)

(** [Object<ObjectKey, Expression>] insertion and collection: key equality is [ObjectKey]'s derived
    [PartialEq] (expr/mod.rs:290). *)
Definition eobj_insert (k : okey expr) (v : expr) (m : list (okey expr * expr)) : list (okey expr * expr) :=
  fst (MapModel.insert (okey_eqb expr_eqb) k v m).
Definition eobj_collect (l : list (okey expr * expr)) : list (okey expr * expr) :=
  MapModel.from_iter (okey_eqb expr_eqb) l.

(** [From<Value> for Expression], expr/mod.rs:110-121: arrays and objects are collected; a [String]
    key becomes [ObjectKey::Expression(Expression::String)] (299-306). *)
Fixpoint expr_of_value (v : value) : expr :=
  match v with
  | VNull => ENull
  | VBool b => EBool b
  | VNum n => ENum n
  | VStr s => EStr s
  | VArr l => EArr (map expr_of_value l)
  | VObj m => EObj (eobj_collect (map (fun e => (KExpr (EStr (fst e)), expr_of_value (snd e))) m))
  end.

(** * Trees whose text is not changed by reading and printing it again *)
From Coq Require Import NArith ZArith Bool String List.
From Verif Require Import Res Str EAst EncModel EqSpec BackSpec.
Import ListNotations.
Open Scope N_scope.

(** The reader keeps white space and comments in the decor of the nodes, except for the decor of operators:
    [despan] (expr/operation.rs:77-81, expr/traversal.rs:33-40) leaves references to the input there,
    and what is printed for them is the default.  So the text around a binary operator is kept only if it is
    the default, or nothing. *)
Definition one_gap (w : str) : Prop := w = [] \/ w = SP.
(** A grouped [for] without condition: what follows [...] is kept as its suffix. *)
Definition lone (e : xexpr) : Prop := match e with XFor _ _ _ _ _ _ _ true None => False | _ => True end.
(** White space before an operator of a traversal, after the first: nothing is printed for it. *)
Definition joined (ops : list xtrop) : Prop :=
  match ops with [] => True | _ :: r => lall (fun o => match o with XTrop m _ => pre NO m = [] end) r end.

Fixpoint settled (e : xexpr) : Prop :=
  match e with
  | XNull _ | XBool _ _ | XNum _ _ _ | XStr _ _ | XVar _ _ => True
  | XArr _ l _ _ => lall settled l
  | XObj _ l _ => lall settled_item l
  | XTpl _ es => lall settled_elem es
  | XHeredoc _ _ t _ _ => settled_tpl t
  | XParen _ e => settled e
  | XCond _ c t f => settled c /\ settled t /\ settled f /\ lone f
  | XCall _ _ _ _ args _ _ _ => lall settled args
  | XTrav _ e ops => settled e /\ lall settled_trop ops /\ joined ops
  | XUnary _ _ _ e => settled e /\ lone e
  | XBinary _ l om _ r => settled l /\ lone l /\ settled r /\ lone r /\ one_gap (pre BOTH om) /\ one_gap (suf BOTH om)
  | XFor _ _ _ _ coll key val _ cond => settled coll /\ oallp settled key /\ settled val /\ oallp settled_cond cond
  end
with settled_cond (c : xcond) : Prop := match c with XForCond _ e => settled e end
with settled_item (i : xitem) : Prop := match i with XItem k _ v _ => settled_key k /\ settled v end
with settled_key (k : xkey) : Prop := match k with XKId _ => True | XKExpr e => settled e end
with settled_trop (o : xtrop) : Prop := match o with XTrop _ o => settled_op o end
with settled_op (o : xop) : Prop := match o with XIndex e => settled e | _ => True end
with settled_tpl (t : xtpl) : Prop := match t with XTempl es _ => lall settled_elem es end
with settled_elem (e : xelem) : Prop :=
  match e with
  | XLit _ _ => True
  | XInterp _ e _ => settled e
  | XIfD _ _ c t _ el _ _ _ => settled c /\ settled_tpl t /\ oallp settled_else el
  | XForD _ _ _ _ coll t _ _ _ _ => settled coll /\ settled_tpl t
  end
with settled_else (e : xelse) : Prop := match e with XElse _ _ t _ => settled_tpl t end.
Fixpoint settled_struct (s : xstruct) : Prop :=
  match s with XAttr _ _ v => settled v /\ lone v | XBlock _ _ _ b => settled_body b end
with settled_body (b : xbody) : Prop := match b with XBody _ l _ _ => lall settled_struct l end.

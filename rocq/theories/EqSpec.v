(** * Well-formed syntax trees and trees without formatting *)
From Coq Require Import NArith ZArith Bool List.
From Verif Require Import Str NumberModel NumberProofs PrimModel EAst ParseBase ParseModel Grammar.
Import ListNotations.

Section All.
  Context {A : Type} (P : A -> Prop).
  Fixpoint lall (l : list A) : Prop := match l with [] => True | x :: l => P x /\ lall l end.
  Definition oallp (o : option A) : Prop := match o with Some x => P x | None => True end.
End All.

(** No key of an object is equal to a later one. *)
Fixpoint distinct_keys (l : list xitem) : Prop :=
  match l with
  | [] => True
  | i :: l => lall (fun j => key_eqb (item_key i) (item_key j) = false) l /\ distinct_keys l
  end.
(** Every number satisfies the invariant of [Number] and every object has distinct keys. *)
Fixpoint x_wf (e : xexpr) : Prop :=
  match e with
  | XNull _ | XBool _ _ | XStr _ _ | XVar _ _ => True
  | XNum _ n _ => num_wf n
  | XArr _ l _ _ => lall x_wf l
  | XObj _ l _ => distinct_keys l /\ lall item_wf l
  | XTpl _ t => lall elem_wf t
  | XHeredoc _ _ t _ _ => tpl_wf t
  | XParen _ e | XUnary _ _ _ e => x_wf e
  | XCond _ c t f => x_wf c /\ x_wf t /\ x_wf f
  | XCall _ _ _ _ l _ _ _ => lall x_wf l
  | XTrav _ e o => x_wf e /\ lall trop_wf o
  | XBinary _ l _ _ r => x_wf l /\ x_wf r
  | XFor _ _ _ _ c k v _ co => x_wf c /\ oallp x_wf k /\ x_wf v /\ oallp cond_wf co
  end
with cond_wf (c : xcond) : Prop := match c with XForCond _ e => x_wf e end
with item_wf (i : xitem) : Prop := match i with XItem k _ v _ => key_wf k /\ x_wf v end
with key_wf (k : xkey) : Prop := match k with XKId _ => True | XKExpr e => x_wf e end
with trop_wf (o : xtrop) : Prop := match o with XTrop _ o => op_wf o end
with op_wf (o : xop) : Prop := match o with XIndex e => x_wf e | _ => True end
with tpl_wf (t : xtpl) : Prop := match t with XTempl es _ => lall elem_wf es end
with elem_wf (e : xelem) : Prop :=
  match e with
  | XLit _ _ => True
  | XInterp _ e _ => x_wf e
  | XIfD _ _ c t _ el _ _ _ => x_wf c /\ tpl_wf t /\ oallp else_wf el
  | XForD _ _ _ _ c t _ _ _ _ => x_wf c /\ tpl_wf t
  end
with else_wf (e : xelse) : Prop := match e with XElse _ _ t _ => tpl_wf t end.
Fixpoint struct_wf (s : xstruct) : Prop :=
  match s with XAttr _ _ v => x_wf v | XBlock _ _ _ b => body_wf b end
with body_wf (b : xbody) : Prop := match b with XBody _ l _ _ => lall struct_wf l end.

(** Removing decor, spans and the text of numbers.  What remains is also layout, but compared by
    [==]: trailing commas, what precedes a closing bracket, item separators, heredoc indentation, the
    whitespace inside template control sequences. *)
Definition bare_did (i : did) : did := Did no_meta (i_name i).
Definition bare_label (l : xlabel) : xlabel := match l with XLId i => XLId (bare_did i) | XLStr _ s => XLStr no_meta s end.
Fixpoint bare (e : xexpr) : xexpr :=
  match e with
  | XNull _ => XNull no_meta
  | XBool _ b => XBool no_meta b
  | XNum _ n _ => XNum no_meta n None
  | XStr _ s => XStr no_meta s
  | XArr _ l c t => XArr no_meta (map bare l) c t
  | XObj _ l t => XObj no_meta (map bare_item l) t
  | XTpl _ t => XTpl no_meta (map bare_elem t)
  | XHeredoc _ d t i r => XHeredoc no_meta d (bare_tpl t) i r
  | XParen _ e => XParen no_meta (bare e)
  | XVar _ x => XVar no_meta x
  | XCond _ c t f => XCond no_meta (bare c) (bare t) (bare f)
  | XCall _ ns n _ l e c t => XCall no_meta (map bare_did ns) (bare_did n) no_meta (map bare l) e c t
  | XTrav _ e o => XTrav no_meta (bare e) (map bare_trop o)
  | XUnary _ _ o e => XUnary no_meta None o (bare e)
  | XBinary _ l _ o r => XBinary no_meta (bare l) no_meta o (bare r)
  | XFor _ _ kv vv c k v g co =>
      XFor no_meta no_meta (option_map bare_did kv) (bare_did vv) (bare c) (option_map bare k) (bare v) g (option_map bare_cond co)
  end
with bare_cond (c : xcond) : xcond := match c with XForCond _ e => XForCond no_meta (bare e) end
with bare_item (i : xitem) : xitem := match i with XItem k a v t => XItem (bare_key k) a (bare v) t end
with bare_key (k : xkey) : xkey := match k with XKId i => XKId (bare_did i) | XKExpr e => XKExpr (bare e) end
with bare_trop (o : xtrop) : xtrop := match o with XTrop _ o => XTrop no_meta (bare_op o) end
with bare_op (o : xop) : xop :=
  match o with
  | XAttrSplat _ => XAttrSplat no_meta | XFullSplat _ => XFullSplat no_meta
  | XGetAttr i => XGetAttr (bare_did i) | XIndex e => XIndex (bare e) | XLegacy _ n => XLegacy no_meta n
  end
with bare_tpl (t : xtpl) : xtpl := match t with XTempl es _ => XTempl (map bare_elem es) None end
with bare_elem (e : xelem) : xelem :=
  match e with
  | XLit _ s => XLit None s
  | XInterp _ e s => XInterp None (bare e) s
  | XIfD _ p c t s el ep et es => XIfD None p (bare c) (bare_tpl t) s (option_map bare_else el) ep et es
  | XForD _ p k v c t s ep et es =>
      XForD None p (option_map bare_did k) (bare_did v) (bare c) (bare_tpl t) s ep et es
  end
with bare_else (e : xelse) : xelse := match e with XElse p tr t s => XElse p tr (bare_tpl t) s end.
Fixpoint bare_struct (s : xstruct) : xstruct :=
  match s with
  | XAttr _ k v => XAttr no_meta (bare_did k) (bare v)
  | XBlock _ i l b => XBlock no_meta (bare_did i) (map bare_label l) (bare_body b)
  end
with bare_body (b : xbody) : xbody := match b with XBody _ l o n => XBody no_meta (map bare_struct l) o n end.

(** Trees without objects and without calls whose last argument is expanded. *)
Fixpoint plain (e : xexpr) : Prop :=
  match e with
  | XNull _ | XBool _ _ | XStr _ _ | XVar _ _ | XNum _ _ _ => True
  | XArr _ l _ _ => lall plain l
  | XObj _ _ _ => False
  | XTpl _ t => lall plain_elem t
  | XHeredoc _ _ t _ _ => plain_tpl t
  | XParen _ e | XUnary _ _ _ e => plain e
  | XCond _ c t f => plain c /\ plain t /\ plain f
  | XCall _ _ _ _ l ex _ _ => lall plain l /\ ex = false
  | XTrav _ e o => plain e /\ lall plain_trop o
  | XBinary _ l _ _ r => plain l /\ plain r
  | XFor _ _ _ _ c k v _ co => plain c /\ oallp plain k /\ plain v /\ oallp plain_cond co
  end
with plain_cond (c : xcond) : Prop := match c with XForCond _ e => plain e end
with plain_key (k : xkey) : Prop := match k with XKId _ => True | XKExpr e => plain e end
with plain_trop (o : xtrop) : Prop := match o with XTrop _ o => plain_op o end
with plain_op (o : xop) : Prop := match o with XIndex e => plain e | _ => True end
with plain_tpl (t : xtpl) : Prop := match t with XTempl es _ => lall plain_elem es end
with plain_elem (e : xelem) : Prop :=
  match e with
  | XLit _ _ => True
  | XInterp _ e _ => plain e
  | XIfD _ _ c t _ el _ _ _ => plain c /\ plain_tpl t /\ oallp plain_else el
  | XForD _ _ _ _ c t _ _ _ _ => plain c /\ plain_tpl t
  end
with plain_else (e : xelse) : Prop := match e with XElse _ _ t _ => plain_tpl t end.
Fixpoint plain_struct (s : xstruct) : Prop :=
  match s with XAttr _ _ v => plain v | XBlock _ _ _ b => plain_body b end
with plain_body (b : xbody) : Prop := match b with XBody _ l _ _ => lall plain_struct l end.
(** The layout flags of bodies are not compared. *)
Fixpoint norm_struct (s : xstruct) : xstruct :=
  match s with XAttr m k v => XAttr m k v | XBlock m i l b => XBlock m i l (norm_body b) end
with norm_body (b : xbody) : xbody := match b with XBody m l _ _ => XBody m (map norm_struct l) false false end.

(** Object keys which contain nothing that is resolved after parsing: identifiers, names, numbers,
    strings and keywords. *)
Definition simple_key (k : xkey) : Prop :=
  match k with
  | XKId _ | XKExpr (XNull _) | XKExpr (XBool _ _) | XKExpr (XNum _ _ _) | XKExpr (XStr _ _) | XKExpr (XVar _ _) => True
  | _ => False
  end.
Fixpoint simple_keys (e : xexpr) : Prop :=
  match e with
  | XNull _ | XBool _ _ | XStr _ _ | XVar _ _ | XNum _ _ _ => True
  | XArr _ l _ _ => lall simple_keys l
  | XObj _ l _ => lall sk_item l
  | XTpl _ t => lall sk_elem t
  | XHeredoc _ _ t _ _ => sk_tpl t
  | XParen _ e | XUnary _ _ _ e => simple_keys e
  | XCond _ c t f => simple_keys c /\ simple_keys t /\ simple_keys f
  | XCall _ _ _ _ l _ _ _ => lall simple_keys l
  | XTrav _ e o => simple_keys e /\ lall sk_trop o
  | XBinary _ l _ _ r => simple_keys l /\ simple_keys r
  | XFor _ _ _ _ c k v _ co => simple_keys c /\ oallp simple_keys k /\ simple_keys v /\ oallp sk_cond co
  end
with sk_cond (c : xcond) : Prop := match c with XForCond _ e => simple_keys e end
with sk_item (i : xitem) : Prop := match i with XItem k _ v _ => simple_key k /\ simple_keys v end
with sk_trop (o : xtrop) : Prop := match o with XTrop _ o => sk_op o end
with sk_op (o : xop) : Prop := match o with XIndex e => simple_keys e | _ => True end
with sk_tpl (t : xtpl) : Prop := match t with XTempl es _ => lall sk_elem es end
with sk_elem (e : xelem) : Prop :=
  match e with
  | XLit _ _ => True
  | XInterp _ e _ => simple_keys e
  | XIfD _ _ c t _ el _ _ _ => simple_keys c /\ sk_tpl t /\ oallp sk_else el
  | XForD _ _ _ _ c t _ _ _ _ => simple_keys c /\ sk_tpl t
  end
with sk_else (e : xelse) : Prop := match e with XElse _ _ t _ => sk_tpl t end.

Fixpoint sk_struct (s : xstruct) : Prop :=
  match s with XAttr _ _ v => simple_keys v | XBlock _ _ _ b => sk_body b end
with sk_body (b : xbody) : Prop := match b with XBody _ l _ _ => lall sk_struct l end.

(** Texts in which no minus sign is followed by a number whose negation is not a proper [Number] (zero
    or more than 2^63, see C01). *)
Definition tame (b : build) (pf : str -> f64) (s : str) : Prop :=
  forall x z d y n, s = (x ++ [45%N] ++ z ++ d ++ y)%list -> triv z -> gnum b pf d n -> ~ neg_defect n.

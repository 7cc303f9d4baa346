(** * Syntax trees of the hcl-edit crate

    Models the data types of crates/hcl-edit/src/{raw_string,repr,expr,template,structure}. *)
From Coq Require Import NArith Bool String List.
From Verif Require Import Res Str NumberModel PrimModel Utf8.
From Verif Require MapModel Ast.
Import ListNotations.
Open Scope N_scope.

(** A [Range<usize>] of byte offsets. *)
Definition bspan := (N * N)%type.

(** [RawString], raw_string.rs:8-16. *)
Inductive raw := REmpty | RSpanned (a b : N) | RText (s : str).

(** [RawString::from_span], raw_string.rs:19-25.  [Range::is_empty] is [!(start < end)]. *)
Definition raw_of_span (sp : bspan) : raw :=
  if fst sp <? snd sp then RSpanned (fst sp) (snd sp) else REmpty.
(** [From<&str>], raw_string.rs:81-90. *)
Definition raw_of_str (s : str) : raw := match s with [] => REmpty | _ => RText s end.
(** [RawString::as_str], raw_string.rs:35-40. *)
Definition raw_str (r : raw) : str := match r with RText s => s | _ => [] end.
(** The text written by [RawString::encode_with_default], raw_string.rs:42-52. *)
Definition raw_enc (r : raw) (default : str) : str :=
  match r with RSpanned _ _ => default | _ => raw_str r end.

(** [Decor], repr.rs:9-13. *)
Record decor := Decor { d_prefix : option raw; d_suffix : option raw }.
Definition no_decor := Decor None None.
(** repr.rs:55-69 *)
Definition enc_prefix (d : decor) (default : str) : str :=
  match d_prefix d with Some r => raw_enc r default | None => default end.
Definition enc_suffix (d : decor) (default : str) : str :=
  match d_suffix d with Some r => raw_enc r default | None => default end.

(** The [decor] and [span] fields, which most nodes have. *)
Record meta := Meta { m_decor : decor; m_span : option bspan }.
Definition no_meta := Meta no_decor None.
Definition set_prefix (r : raw) (m : meta) : meta := Meta (Decor (Some r) (d_suffix (m_decor m))) (m_span m).
Definition set_suffix (r : raw) (m : meta) : meta := Meta (Decor (d_prefix (m_decor m)) (Some r)) (m_span m).
Definition set_span (sp : bspan) (m : meta) : meta := Meta (m_decor m) (Some sp).

(** [Decorated<Ident>]. *)
Record did := Did { i_meta : meta; i_name : str }.

(** [ObjectValueAssignment], [ObjectValueTerminator], expr/object.rs:370-390. *)
Inductive assign := AColon | AEquals.
Inductive oterm := TNone | TNewline | TComma.

(** [Expression] (expr/mod.rs:31-67) with the structs of its variants inlined: [Array] (array.rs),
    [Object] (object.rs:32-38), [ObjectKey] 279-286, [ObjectValue] 393-398, [StringTemplate]
    (template/mod.rs:47-51; its span is the one of its template), [HeredocTemplate] 157-167,
    [Parenthesis] (expr/mod.rs:525-529), [ForExpr], [ForIntro], [ForCond] (for_expr.rs), [Conditional],
    [FuncCall], [FuncName], [FuncArgs] (func_call.rs), [Traversal], [TraversalOperator]
    (traversal.rs), [UnaryOp], [BinaryOp] (operation.rs), [Template], [Element], [Interpolation],
    [IfDirective], [ForDirective] and their parts (template/mod.rs:235-1027). *)
Inductive xexpr :=
| XNull (m : meta)
| XBool (m : meta) (b : bool)
| XNum (m : meta) (n : num) (repr : option raw)
| XStr (m : meta) (s : str)
| XArr (m : meta) (l : list xexpr) (comma : bool) (trailing : raw)
| XObj (m : meta) (items : list xitem) (trailing : raw)
| XTpl (m : meta) (t : list xelem)
| XHeredoc (m : meta) (delim : str) (t : xtpl) (indent : option nat) (trailing : raw)
| XParen (m : meta) (e : xexpr)
| XVar (m : meta) (x : str)
| XCond (m : meta) (c t f : xexpr)
| XCall (m : meta) (ns : list did) (name : did) (am : meta) (args : list xexpr)
        (expand comma : bool) (trailing : raw)
| XTrav (m : meta) (e : xexpr) (ops : list xtrop)
| XUnary (m : meta) (osp : option bspan) (o : unop) (e : xexpr)
| XBinary (m : meta) (l : xexpr) (om : meta) (o : binop) (r : xexpr)
| XFor (m : meta) (im : meta) (kv : option did) (vv : did) (coll : xexpr) (key : option xexpr)
       (val : xexpr) (grouping : bool) (cond : option xcond)
with xcond := XForCond (m : meta) (e : xexpr)
with xitem := XItem (k : xkey) (a : assign) (v : xexpr) (t : oterm)
with xkey := XKId (i : did) | XKExpr (e : xexpr)
with xtrop := XTrop (m : meta) (o : xop)
with xop :=
| XAttrSplat (m : meta) | XFullSplat (m : meta) | XGetAttr (i : did) | XIndex (e : xexpr)
| XLegacy (m : meta) (n : N)
with xtpl := XTempl (es : list xelem) (sp : option bspan)
with xelem :=
| XLit (sp : option bspan) (s : str)
| XInterp (sp : option bspan) (e : xexpr) (s : strip)
| XIfD (sp : option bspan) (pre : raw) (cond : xexpr) (t : xtpl) (s : strip)
       (els : option xelse) (endpre endtrail : raw) (ends : strip)
| XForD (sp : option bspan) (pre : raw) (kv : option did) (vv : did) (coll : xexpr) (t : xtpl) (s : strip)
        (endpre endtrail : raw) (ends : strip)
with xelse := XElse (pre trail : raw) (t : xtpl) (s : strip).

(** [BlockLabel] (structure/block.rs:247-253), [Attribute], [Block], [Structure], [Body]
    (body.rs:83-92). *)
Inductive xlabel := XLId (i : did) | XLStr (m : meta) (s : str).
Inductive xstruct :=
| XAttr (m : meta) (k : did) (v : xexpr)
| XBlock (m : meta) (ident : did) (labels : list xlabel) (body : xbody)
with xbody := XBody (m : meta) (l : list xstruct) (oneline omit : bool).

(** ** [Decorate::decor_mut] and [SetSpan::set_span] for [Expression] (expr/mod.rs:585-592) *)
Definition x_meta (e : xexpr) : meta :=
  match e with
  | XNull m | XBool m _ | XNum m _ _ | XStr m _ | XArr m _ _ _ | XObj m _ _ | XTpl m _
  | XHeredoc m _ _ _ _ | XParen m _ | XVar m _ | XCond m _ _ _ | XCall m _ _ _ _ _ _ _ | XTrav m _ _
  | XUnary m _ _ _ | XBinary m _ _ _ _ | XFor m _ _ _ _ _ _ _ _ => m
  end.
Definition x_upd (f : meta -> meta) (e : xexpr) : xexpr :=
  match e with
  | XNull m => XNull (f m)
  | XBool m b => XBool (f m) b
  | XNum m n r => XNum (f m) n r
  | XStr m s => XStr (f m) s
  | XArr m l c t => XArr (f m) l c t
  | XObj m l t => XObj (f m) l t
  | XTpl m t => XTpl (f m) t
  | XHeredoc m d t i r => XHeredoc (f m) d t i r
  | XParen m e => XParen (f m) e
  | XVar m x => XVar (f m) x
  | XCond m c t g => XCond (f m) c t g
  | XCall m ns n am l b c t => XCall (f m) ns n am l b c t
  | XTrav m e o => XTrav (f m) e o
  | XUnary m s o e => XUnary (f m) s o e
  | XBinary m l om o r => XBinary (f m) l om o r
  | XFor m im kv vv c k v g co => XFor (f m) im kv vv c k v g co
  end.
Definition did_upd (f : meta -> meta) (i : did) : did := Did (f (i_meta i)) (i_name i).
(** expr/object.rs:459-460 *)
Definition key_upd (f : meta -> meta) (k : xkey) : xkey :=
  match k with XKId i => XKId (did_upd f i) | XKExpr e => XKExpr (x_upd f e) end.
(** expr/traversal.rs:95-96 *)
Definition op_upd (f : meta -> meta) (o : xop) : xop :=
  match o with
  | XAttrSplat m => XAttrSplat (f m) | XFullSplat m => XFullSplat (f m)
  | XGetAttr i => XGetAttr (did_upd f i) | XIndex e => XIndex (x_upd f e) | XLegacy m n => XLegacy (f m) n
  end.
(** structure/block.rs:328-329 *)
Definition label_upd (f : meta -> meta) (l : xlabel) : xlabel :=
  match l with XLId i => XLId (did_upd f i) | XLStr m s => XLStr (f m) s end.
(** structure/mod.rs:126-127 *)
Definition struct_upd (f : meta -> meta) (s : xstruct) : xstruct :=
  match s with XAttr m k v => XAttr (f m) k v | XBlock m i l b => XBlock (f m) i l b end.
Definition body_upd (f : meta -> meta) (b : xbody) : xbody :=
  match b with XBody m l o n => XBody (f m) l o n end.
(** [SetSpan] for [Element], template/mod.rs:1036-1039. *)
Definition elem_set_span (sp : bspan) (e : xelem) : xelem :=
  match e with
  | XLit _ s => XLit (Some sp) s
  | XInterp _ e s => XInterp (Some sp) e s
  | XIfD _ p c t s el ep et es => XIfD (Some sp) p c t s el ep et es
  | XForD _ p k v c t s ep et es => XForD (Some sp) p k v c t s ep et es
  end.

(** ** Mapping and collecting the raw strings of a tree

    [despan] (expr/mod.rs:308-327 and the functions it calls) replaces raw strings in place and
    nothing else; the traversals below visit the raw strings in the same places.  [f] is applied to
    those that [despan] reaches, [g] to the decor of binary operators (operation.rs:77-81) and of
    traversal operators (traversal.rs:37-39), which it does not reach. *)
Definition decor_map (f : raw -> raw) (d : decor) : decor :=
  Decor (option_map f (d_prefix d)) (option_map f (d_suffix d)).
Definition meta_map (f : raw -> raw) (m : meta) : meta := Meta (decor_map f (m_decor m)) (m_span m).
Definition did_map (f : raw -> raw) (i : did) : did := Did (meta_map f (i_meta i)) (i_name i).

Section RawMap.
  Context (f g : raw -> raw).
  Fixpoint x_map (e : xexpr) : xexpr :=
    match e with
    | XNull m => XNull (meta_map f m)
    | XBool m b => XBool (meta_map f m) b
    | XNum m n r => XNum (meta_map f m) n r
    | XStr m s => XStr (meta_map f m) s
    | XArr m l c t => XArr (meta_map f m) (map x_map l) c (f t)
    | XObj m l t => XObj (meta_map f m) (map item_map l) (f t)
    | XTpl m t => XTpl (meta_map f m) (map elem_map t)
    | XHeredoc m d t i r => XHeredoc (meta_map f m) d (tpl_map t) i (f r)
    | XParen m e => XParen (meta_map f m) (x_map e)
    | XVar m x => XVar (meta_map f m) x
    | XCond m c t e => XCond (meta_map f m) (x_map c) (x_map t) (x_map e)
    | XCall m ns n am l b c t =>
        XCall (meta_map f m) (map (did_map f) ns) (did_map f n) (meta_map f am) (map x_map l) b c (f t)
    | XTrav m e o => XTrav (meta_map f m) (x_map e) (map trop_map o)
    | XUnary m s o e => XUnary (meta_map f m) s o (x_map e)
    | XBinary m l om o r => XBinary (meta_map f m) (x_map l) (meta_map g om) o (x_map r)
    | XFor m im kv vv c k v gr co =>
        XFor (meta_map f m) (meta_map f im) (option_map (did_map f) kv) (did_map f vv) (x_map c)
             (option_map x_map k) (x_map v) gr (option_map cond_map co)
    end
  with cond_map (c : xcond) : xcond := match c with XForCond m e => XForCond (meta_map f m) (x_map e) end
  with item_map (i : xitem) : xitem := match i with XItem k a v t => XItem (key_map k) a (x_map v) t end
  with key_map (k : xkey) : xkey :=
    match k with XKId i => XKId (did_map f i) | XKExpr e => XKExpr (x_map e) end
  with trop_map (o : xtrop) : xtrop := match o with XTrop m o => XTrop (meta_map g m) (op_map o) end
  with op_map (o : xop) : xop :=
    match o with
    | XAttrSplat m => XAttrSplat (meta_map f m)
    | XFullSplat m => XFullSplat (meta_map f m)
    | XGetAttr i => XGetAttr (did_map f i)
    | XIndex e => XIndex (x_map e)
    | XLegacy m n => XLegacy (meta_map f m) n
    end
  with tpl_map (t : xtpl) : xtpl := match t with XTempl es sp => XTempl (map elem_map es) sp end
  with elem_map (e : xelem) : xelem :=
    match e with
    | XLit sp s => XLit sp s
    | XInterp sp e s => XInterp sp (x_map e) s
    | XIfD sp p c t s el ep et es =>
        XIfD sp (f p) (x_map c) (tpl_map t) s (option_map else_map el) (f ep) (f et) es
    | XForD sp p k v c t s ep et es =>
        XForD sp (f p) (option_map (did_map f) k) (did_map f v) (x_map c) (tpl_map t) s (f ep) (f et) es
    end
  with else_map (e : xelse) : xelse := match e with XElse p tr t s => XElse (f p) (f tr) (tpl_map t) s end.

  Definition label_map (l : xlabel) : xlabel :=
    match l with XLId i => XLId (did_map f i) | XLStr m s => XLStr (meta_map f m) s end.
  Fixpoint struct_map (s : xstruct) : xstruct :=
    match s with
    | XAttr m k v => XAttr (meta_map f m) (did_map f k) (x_map v)
    | XBlock m i l b => XBlock (meta_map f m) (did_map f i) (map label_map l) (body_map b)
    end
  with body_map (b : xbody) : xbody :=
    match b with XBody m l o n => XBody (meta_map f m) (map struct_map l) o n end.
End RawMap.

Definition opt_list {A} (o : option A) : list A := match o with Some x => [x] | None => [] end.
Definition decor_raws (d : decor) : list raw := opt_list (d_prefix d) ++ opt_list (d_suffix d).
Definition meta_raws (m : meta) : list raw := decor_raws (m_decor m).
Definition did_raws (i : did) : list raw := meta_raws (i_meta i).
Definition opt_raws {A} (f : A -> list raw) (o : option A) : list raw :=
  match o with Some x => f x | None => [] end.

(** The raw strings of a tree: those reached by [despan] ([ops = false]), or the decor of operators
    that it does not reach ([ops = true]). *)
Section Raws.
  Context (ops : bool).
  Definition vis {A} (l : list A) : list A := if ops then [] else l.
  Definition hid {A} (l : list A) : list A := if ops then l else [].
  Fixpoint x_raws (e : xexpr) : list raw :=
    match e with
    | XNull m | XBool m _ | XNum m _ _ | XStr m _ | XVar m _ => vis (meta_raws m)
    | XArr m l _ t => vis (meta_raws m ++ [t]) ++ flat_map x_raws l
    | XObj m l t => vis (meta_raws m ++ [t]) ++ flat_map item_raws l
    | XTpl m t => vis (meta_raws m) ++ flat_map elem_raws t
    | XHeredoc m _ t _ r => vis (meta_raws m ++ [r]) ++ tpl_raws t
    | XParen m e => vis (meta_raws m) ++ x_raws e
    | XCond m c t e => vis (meta_raws m) ++ x_raws c ++ x_raws t ++ x_raws e
    | XCall m ns n am l _ _ t =>
        vis (meta_raws m ++ flat_map did_raws ns ++ did_raws n ++ meta_raws am ++ [t]) ++ flat_map x_raws l
    | XTrav m e o => vis (meta_raws m) ++ x_raws e ++ flat_map trop_raws o
    | XUnary m _ _ e => vis (meta_raws m) ++ x_raws e
    | XBinary m l om _ r => vis (meta_raws m) ++ x_raws l ++ hid (meta_raws om) ++ x_raws r
    | XFor m im kv vv c k v _ co =>
        vis (meta_raws m ++ meta_raws im ++ opt_raws did_raws kv ++ did_raws vv) ++ x_raws c
        ++ opt_raws x_raws k ++ x_raws v ++ opt_raws cond_raws co
    end
  with cond_raws (c : xcond) : list raw := match c with XForCond m e => vis (meta_raws m) ++ x_raws e end
  with item_raws (i : xitem) : list raw := match i with XItem k _ v _ => key_raws k ++ x_raws v end
  with key_raws (k : xkey) : list raw := match k with XKId i => vis (did_raws i) | XKExpr e => x_raws e end
  with trop_raws (o : xtrop) : list raw := match o with XTrop m o => hid (meta_raws m) ++ op_raws o end
  with op_raws (o : xop) : list raw :=
    match o with
    | XAttrSplat m | XFullSplat m | XLegacy m _ => vis (meta_raws m)
    | XGetAttr i => vis (did_raws i)
    | XIndex e => x_raws e
    end
  with tpl_raws (t : xtpl) : list raw := match t with XTempl es _ => flat_map elem_raws es end
  with elem_raws (e : xelem) : list raw :=
    match e with
    | XLit _ _ => []
    | XInterp _ e _ => x_raws e
    | XIfD _ p c t _ el ep et _ =>
        vis [p] ++ x_raws c ++ tpl_raws t ++ opt_raws else_raws el ++ vis [ep; et]
    | XForD _ p k v c t _ ep et _ =>
        vis (p :: opt_raws did_raws k ++ did_raws v) ++ x_raws c ++ tpl_raws t ++ vis [ep; et]
    end
  with else_raws (e : xelse) : list raw := match e with XElse p tr t _ => vis [p; tr] ++ tpl_raws t end.

  Definition label_raws (l : xlabel) : list raw :=
    match l with XLId i => vis (did_raws i) | XLStr m _ => vis (meta_raws m) end.
  Fixpoint struct_raws (s : xstruct) : list raw :=
    match s with
    | XAttr m k v => vis (meta_raws m ++ did_raws k) ++ x_raws v
    | XBlock m i l b => vis (meta_raws m ++ did_raws i) ++ flat_map label_raws l ++ body_raws b
    end
  with body_raws (b : xbody) : list raw :=
    match b with XBody m l _ _ => vis (meta_raws m) ++ flat_map struct_raws l end.
End Raws.

(** ** [despan] *)

(** Length in bytes of a text. *)
Definition clen (c : N) : N := N.of_nat (List.length (encode_char c)).
Fixpoint blen (s : str) : N := match s with [] => 0 | c :: s => clen c + blen s end.

(** [str::get(a..b)]: [None] if out of range or not on character boundaries. *)
Fixpoint take_bytes (n : N) (s : str) : option str :=
  if n =? 0 then Some [] else
  match s with
  | [] => None
  | c :: s => if clen c <=? n then option_map (cons c) (take_bytes (n - clen c) s) else None
  end.
Fixpoint skip_bytes (n : N) (s : str) : option str :=
  if n =? 0 then Some s else
  match s with
  | [] => None
  | c :: s => if clen c <=? n then skip_bytes (n - clen c) s else None
  end.
Definition get_slice (s : str) (a b : N) : option str :=
  if a <=? b then match skip_bytes a s with Some r => take_bytes (b - a) r | None => None end else None.

(** [RawString::despan], raw_string.rs:54-63; the panic is separated into [raw_ok]. *)
Definition raw_despan (input : str) (r : raw) : raw :=
  match r with
  | RSpanned a b => match get_slice input a b with Some s => raw_of_str s | None => r end
  | _ => r
  end.
Definition raw_ok (input : str) (r : raw) : bool :=
  match r with RSpanned a b => match get_slice input a b with Some _ => true | None => false end | _ => true end.

(** [Expression::despan], expr/mod.rs:308-327; [Body::despan], structure/body.rs:681-686;
    [Template::despan], template/mod.rs:396-400. *)
Definition x_despan (input : str) (e : xexpr) : res xexpr :=
  if forallb (raw_ok input) (x_raws false e) then Done (x_map (raw_despan input) (fun r => r) e) else Panic.
Definition body_despan (input : str) (b : xbody) : res xbody :=
  if forallb (raw_ok input) (body_raws false b) then Done (body_map (raw_despan input) (fun r => r) b) else Panic.
Definition tpl_despan (input : str) (t : xtpl) : res xtpl :=
  if forallb (raw_ok input) (tpl_raws false t) then Done (tpl_map (raw_despan input) (fun r => r) t) else Panic.

(** ** Equality

    [PartialEq] as implemented or derived: decor and spans are ignored ([Decorated], [Formatted],
    [Spanned], repr.rs:195-202, 285-292, 430-437), [Array] compares its trailing comma and trailing
    raw string (array.rs:177-183), [FuncArgs] too but not [expand_final] (func_call.rs:254-260),
    [Object] its trailing raw string (object.rs:185-189) and [ObjectValue] the assignment and
    terminator (derived, 392), [HeredocTemplate] its indent and trailing (template/mod.rs:221-228),
    the directive parts their raw strings (derived). *)
Definition raw_eqb (a b : raw) : bool :=
  match a, b with
  | REmpty, REmpty => true
  | RSpanned x y, RSpanned z w => (x =? z) && (y =? w)
  | RText s, RText t => seqb s t
  | _, _ => false
  end.
Definition did_eqb (a b : did) : bool := seqb (i_name a) (i_name b).
Definition assign_eqb (a b : assign) : bool :=
  match a, b with AColon, AColon | AEquals, AEquals => true | _, _ => false end.
Definition oterm_eqb (a b : oterm) : bool :=
  match a, b with TNone, TNone | TNewline, TNewline | TComma, TComma => true | _, _ => false end.
Definition strip_eqb (a b : strip) : bool :=
  Bool.eqb (strip_start a) (strip_start b) && Bool.eqb (strip_end a) (strip_end b).
Definition optnat_eqb (a b : option nat) : bool := Ast.opt_eqb Nat.eqb a b.

Definition item_key (i : xitem) : xkey := match i with XItem k _ _ _ => k end.

(** Objects: [VecMap] equality (the crate [vecmap-rs]): same length, and every key of the first is
    in the second with an equal value. *)
Fixpoint x_eqb (a b : xexpr) {struct a} : bool :=
  match a, b with
  | XNull _, XNull _ => true
  | XBool _ x, XBool _ y => Bool.eqb x y
  | XNum _ x _, XNum _ y _ => num_eqb x y
  | XStr _ x, XStr _ y => seqb x y
  | XArr _ l c t, XArr _ l' c' t' => Ast.list_eqb x_eqb l l' && Bool.eqb c c' && raw_eqb t t'
  | XObj _ l t, XObj _ l' t' =>
      Nat.eqb (List.length l) (List.length l') &&
      forallb (fun i =>
        match i with
        | XItem k a v tm =>
            match find (fun j => key_eqb k (item_key j)) l' with
            | Some (XItem _ a' v' tm') => assign_eqb a a' && x_eqb v v' && oterm_eqb tm tm'
            | None => false
            end
        end) l && raw_eqb t t'
  | XTpl _ t, XTpl _ t' => Ast.list_eqb elem_eqb t t'
  | XHeredoc _ d t i r, XHeredoc _ d' t' i' r' =>
      seqb d d' && tpl_eqb t t' && optnat_eqb i i' && raw_eqb r r'
  | XParen _ e, XParen _ e' => x_eqb e e'
  | XVar _ x, XVar _ y => seqb x y
  | XCond _ c t f, XCond _ c' t' f' => x_eqb c c' && x_eqb t t' && x_eqb f f'
  | XCall _ ns n _ l _ c t, XCall _ ns' n' _ l' _ c' t' =>
      Ast.list_eqb did_eqb ns ns' && did_eqb n n' && Ast.list_eqb x_eqb l l' && Bool.eqb c c' && raw_eqb t t'
  | XTrav _ e o, XTrav _ e' o' => x_eqb e e' && Ast.list_eqb trop_eqb o o'
  | XUnary _ _ o e, XUnary _ _ o' e' => Ast.unop_eqb o o' && x_eqb e e'
  | XBinary _ l _ o r, XBinary _ l' _ o' r' => x_eqb l l' && Ast.binop_eqb o o' && x_eqb r r'
  | XFor _ _ kv vv c k v g co, XFor _ _ kv' vv' c' k' v' g' co' =>
      Ast.opt_eqb did_eqb kv kv' && did_eqb vv vv' && x_eqb c c' && Ast.opt_eqb x_eqb k k' && x_eqb v v'
      && Bool.eqb g g' && Ast.opt_eqb cond_eqb co co'
  | _, _ => false
  end
with cond_eqb (a b : xcond) {struct a} : bool :=
  match a, b with XForCond _ e, XForCond _ e' => x_eqb e e' end
with key_eqb (a b : xkey) {struct a} : bool :=
  match a, b with
  | XKId i, XKId j => did_eqb i j
  | XKExpr e, XKExpr e' => x_eqb e e'
  | _, _ => false
  end
with trop_eqb (a b : xtrop) {struct a} : bool :=
  match a, b with XTrop _ o, XTrop _ o' => op_eqb o o' end
with op_eqb (a b : xop) {struct a} : bool :=
  match a, b with
  | XAttrSplat _, XAttrSplat _ | XFullSplat _, XFullSplat _ => true
  | XGetAttr i, XGetAttr j => did_eqb i j
  | XIndex e, XIndex e' => x_eqb e e'
  | XLegacy _ n, XLegacy _ n' => n =? n'
  | _, _ => false
  end
with tpl_eqb (a b : xtpl) {struct a} : bool :=
  match a, b with XTempl es _, XTempl es' _ => Ast.list_eqb elem_eqb es es' end
with elem_eqb (a b : xelem) {struct a} : bool :=
  match a, b with
  | XLit _ s, XLit _ s' => seqb s s'
  | XInterp _ e s, XInterp _ e' s' => x_eqb e e' && strip_eqb s s'
  | XIfD _ p c t s el ep et es, XIfD _ p' c' t' s' el' ep' et' es' =>
      x_eqb c c' && tpl_eqb t t' && strip_eqb s s' && raw_eqb p p' &&
      Ast.opt_eqb else_eqb el el' &&
      strip_eqb es es' && raw_eqb ep ep' && raw_eqb et et'
  | XForD _ p k v c t s ep et es, XForD _ p' k' v' c' t' s' ep' et' es' =>
      Ast.opt_eqb did_eqb k k' && did_eqb v v' && x_eqb c c' && tpl_eqb t t' && strip_eqb s s' && raw_eqb p p' &&
      strip_eqb es es' && raw_eqb ep ep' && raw_eqb et et'
  | _, _ => false
  end
with else_eqb (a b : xelse) {struct a} : bool :=
  match a, b with
  | XElse p tr t s, XElse p' tr' t' s' => tpl_eqb t t' && strip_eqb s s' && raw_eqb p p' && raw_eqb tr tr'
  end.

Definition label_eqb (a b : xlabel) : bool :=
  match a, b with
  | XLId i, XLId j => did_eqb i j
  | XLStr _ s, XLStr _ t => seqb s t
  | _, _ => false
  end.
Fixpoint struct_eqb (a b : xstruct) {struct a} : bool :=
  match a, b with
  | XAttr _ k v, XAttr _ k' v' => did_eqb k k' && x_eqb v v'
  | XBlock _ i l b, XBlock _ i' l' b' => did_eqb i i' && Ast.list_eqb label_eqb l l' && xbody_eqb b b'
  | _, _ => false
  end
with xbody_eqb (a b : xbody) {struct a} : bool :=
  match a, b with XBody _ l _ _, XBody _ l' _ _ => Ast.list_eqb struct_eqb l l' end.

(** [Object::insert] on [VecMap], expr/object.rs:117-124: an equivalent key stays in place and its
    value is replaced. *)
Fixpoint items_insert (i : xitem) (l : list xitem) : list xitem :=
  match l with
  | [] => [i]
  | j :: l =>
      if key_eqb (item_key j) (item_key i)
      then match i with XItem _ a v t => XItem (item_key j) a v t :: l end
      else j :: items_insert i l
  end.

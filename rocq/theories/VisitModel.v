(** * Visitors of the syntax tree of hcl-edit

    Models crates/hcl-edit/src/visit.rs and visit_mut.rs. *)
From Coq Require Import NArith Bool List.
From Verif Require Import Str NumberModel PrimModel EAst.
Import ListNotations.

(** What the methods of [Visit] are called with (visit.rs:97-151), one constructor for each method.
    Structs that [EAst] inlines appear as their fields. *)
Inductive node :=
| NIdent (i : did) | NNull (m : meta) | NBool (m : meta) (b : bool) | NU64 (m : meta) (n : N)
| NNumber (m : meta) (n : num) (r : option raw) | NString (m : meta) (s : str) | NSplat (m : meta)
| NLiteral (sp : option bspan) (s : str) | NUnaryOperator (sp : option bspan) (o : unop)
| NBinaryOperator (m : meta) (o : binop)
| NEndif (pre trail : raw) (s : strip) | NEndfor (pre trail : raw) (s : strip)
| NBody (b : xbody) | NStructure (s : xstruct) | NAttr (m : meta) (k : did) (v : xexpr)
| NBlock (m : meta) (i : did) (ls : list xlabel) (b : xbody) | NBlockLabel (l : xlabel)
| NExpr (e : xexpr) | NArray (l : list xexpr) | NObject (l : list xitem)
| NObjectItem (k : xkey) (v : xitem) | NObjectKey (k : xkey) | NObjectValue (i : xitem)
| NParenthesis (e : xexpr) | NConditional (c t f : xexpr)
| NUnaryOp (sp : option bspan) (o : unop) (e : xexpr)
| NBinaryOp (l : xexpr) (m : meta) (o : binop) (r : xexpr)
| NTraversal (e : xexpr) (ops : list xtrop) | NTraversalOperator (o : xtrop)
| NFuncCall (ns : list did) (n : did) (args : list xexpr) | NFuncName (ns : list did) (n : did)
| NFuncArgs (args : list xexpr)
| NForExpr (kv : option did) (vv : did) (coll : xexpr) (key : option xexpr) (val : xexpr) (cond : option xcond)
| NForIntro (kv : option did) (vv : did) (coll : xexpr) | NForCond (c : xcond)
| NStringTemplate (es : list xelem) | NHeredocTemplate (t : xtpl) | NTemplate (t : xtpl)
| NElement (e : xelem) | NInterpolation (e : xexpr) (s : strip)
| NDirective (e : xelem) | NIfDirective (e : xelem) | NForDirective (e : xelem)
| NIfTemplateExpr (c : xexpr) (t : xtpl) | NElseTemplateExpr (e : xelse)
| NForTemplateExpr (kv : option did) (vv : did) (coll : xexpr) (t : xtpl).

Section Visit.
  Context {S : Type}.
  (** An implementation of [Visit]: the hook does something to the visitor, and then tells whether
      the default method, which goes on to the children, is called.  (Overridden methods that visit
      the children first, or twice, are not represented.) *)
  Context (hook : node -> S -> S * bool).
  Definition call (n : node) (default : S -> S) (s : S) : S :=
    let (s', go) := hook n s in if go then default s' else s'.
  (** visit.rs:76-92: the default is to do nothing. *)
  Definition leaf (n : node) : S -> S := call n (fun s => s).
  Definition each {A} (f : A -> S -> S) (l : list A) (s : S) : S := fold_left (fun s x => f x s) l s.
  Definition on_opt {A} (f : A -> S -> S) (o : option A) (s : S) : S := match o with Some x => f x s | None => s end.
  Definition v_ident (i : did) : S -> S := leaf (NIdent i).

  (** visit.rs:336-344 *)
  Definition v_func_name (ns : list did) (n : did) : S -> S :=
    call (NFuncName ns n) (fun s => v_ident n (each v_ident ns s)).

  (** visit.rs:204-226 and the functions it calls, 228-483. *)
  Fixpoint v_expr (e : xexpr) : S -> S :=
    call (NExpr e) (fun s =>
      match e with
      | XNull m => leaf (NNull m) s
      | XBool m b => leaf (NBool m b) s
      | XNum m n r => leaf (NNumber m n r) s
      | XStr m x => leaf (NString m x) s
      | XArr _ l _ _ => call (NArray l) (fun s => each v_expr l s) s
      | XObj _ l _ => call (NObject l) (fun s => each v_item l s) s
      | XTpl _ es => call (NStringTemplate es) (fun s => each v_element es s) s
      | XHeredoc _ _ t _ _ => call (NHeredocTemplate t) (v_template t) s
      | XParen _ e => call (NParenthesis e) (v_expr e) s
      | XVar m x => v_ident (Did m x) s
      | XFor _ _ kv vv coll key val _ cond =>
          (* visit_for_expr 355-367, visit_for_intro 369-378 *)
          call (NForExpr kv vv coll key val cond) (fun s =>
            on_opt v_cond cond
              (v_expr val
                (on_opt v_expr key
                  (call (NForIntro kv vv coll) (fun s => v_expr coll (v_ident vv (on_opt v_ident kv s))) s)))) s
      | XCond _ c t f => call (NConditional c t f) (fun s => v_expr f (v_expr t (v_expr c s))) s
      | XCall _ ns n _ args _ _ _ =>
          call (NFuncCall ns n args) (fun s =>
            call (NFuncArgs args) (fun s => each v_expr args s) (v_func_name ns n s)) s
      | XUnary _ sp o e => call (NUnaryOp sp o e) (fun s => v_expr e (leaf (NUnaryOperator sp o) s)) s
      | XBinary _ l m o r =>
          call (NBinaryOp l m o r) (fun s => v_expr r (leaf (NBinaryOperator m o) (v_expr l s))) s
      | XTrav _ e ops => call (NTraversal e ops) (fun s => each v_trop ops (v_expr e s)) s
      end)
  with v_cond (c : xcond) : S -> S := call (NForCond c) (fun s => match c with XForCond _ e => v_expr e s end)
  with v_item (i : xitem) : S -> S :=
    match i with
    | XItem k a v t =>
        call (NObjectItem k i) (fun s => call (NObjectValue i) (v_expr v) (v_key k s))
    end
  with v_key (k : xkey) : S -> S :=
    call (NObjectKey k) (fun s => match k with XKId i => v_ident i s | XKExpr e => v_expr e s end)
  with v_trop (o : xtrop) : S -> S :=
    call (NTraversalOperator o) (fun s => match o with XTrop _ o => v_op o s end)
  with v_op (o : xop) : S -> S :=
    match o with
    | XAttrSplat m | XFullSplat m => leaf (NSplat m)
    | XGetAttr i => v_ident i
    | XIndex e => v_expr e
    | XLegacy m n => leaf (NU64 m n)
    end
  with v_template (t : xtpl) : S -> S :=
    call (NTemplate t) (fun s => match t with XTempl es _ => each v_element es s end)
  with v_element (e : xelem) : S -> S :=
    call (NElement e) (fun s =>
      match e with
      | XLit sp x => leaf (NLiteral sp x) s
      | XInterp _ e st => call (NInterpolation e st) (v_expr e) s
      | XIfD _ _ c t _ el ep et es =>
          call (NDirective e) (call (NIfDirective e) (fun s =>
            leaf (NEndif ep et es)
              (on_opt v_else el (call (NIfTemplateExpr c t) (fun s => v_template t (v_expr c s)) s)))) s
      | XForD _ _ kv vv coll t _ ep et es =>
          (* visit_for_template_expr, 474-483: the collection is not visited *)
          call (NDirective e) (call (NForDirective e) (fun s =>
            leaf (NEndfor ep et es)
              (call (NForTemplateExpr kv vv coll t) (fun s => v_template t (v_ident vv (on_opt v_ident kv s))) s))) s
      end)
  with v_else (e : xelse) : S -> S :=
    call (NElseTemplateExpr e) (fun s => match e with XElse _ _ t _ => v_template t s end).

  (** visit.rs:156-202 *)
  Definition v_label (l : xlabel) : S -> S :=
    call (NBlockLabel l) (fun s => match l with XLStr m x => leaf (NString m x) s | XLId i => v_ident i s end).
  Fixpoint v_struct (x : xstruct) : S -> S :=
    call (NStructure x) (fun s =>
      match x with
      | XAttr m k v => call (NAttr m k v) (fun s => v_expr v (v_ident k s)) s
      | XBlock m i ls b => call (NBlock m i ls b) (fun s => v_body b (each v_label ls (v_ident i s))) s
      end)
  with v_body (b : xbody) : S -> S :=
    call (NBody b) (fun s => match b with XBody _ l _ _ => each v_struct l s end).
End Visit.

(** ** [VisitMut]

    The hooks of the leaves may change them and the visitor; [after_expr] is what an overridden
    [visit_expr_mut] does to an expression after the default traversal. *)
Record hooks (S : Type) := Hooks {
  h_ident : did -> S -> S * did;
  h_null : meta -> S -> S * meta;
  h_bool : meta * bool -> S -> S * (meta * bool);
  h_u64 : meta * N -> S -> S * (meta * N);
  h_number : meta * num * option raw -> S -> S * (meta * num * option raw);
  h_string : meta * str -> S -> S * (meta * str);
  h_splat : meta -> S -> S * meta;
  h_literal : option bspan * str -> S -> S * (option bspan * str);
  h_unop : option bspan * unop -> S -> S * (option bspan * unop);
  h_binop : meta * binop -> S -> S * (meta * binop);
  h_endif : raw * raw * strip -> S -> S * (raw * raw * strip);
  h_endfor : raw * raw * strip -> S -> S * (raw * raw * strip);
  h_after_expr : xexpr -> S -> S * xexpr
}.
Arguments h_ident {S}. Arguments h_null {S}. Arguments h_bool {S}. Arguments h_u64 {S}. Arguments h_number {S}.
Arguments h_string {S}. Arguments h_splat {S}. Arguments h_literal {S}. Arguments h_unop {S}. Arguments h_binop {S}.
Arguments h_endif {S}. Arguments h_endfor {S}. Arguments h_after_expr {S}.

Section VisitMut.
  Context {S : Type} (h : hooks S).
  Section Each.
    Context {A : Type} (f : A -> S -> S * A).
    Fixpoint each_mut (l : list A) (s : S) : S * list A :=
      match l with
      | [] => (s, [])
      | x :: l => let (s, x) := f x s in let (s, l) := each_mut l s in (s, x :: l)
      end.
    Definition opt_mut (o : option A) (s : S) : S * option A :=
      match o with Some x => let (s, x) := f x s in (s, Some x) | None => (s, None) end.
  End Each.

  (** visit_mut.rs:230-252 and the functions it calls, 254-499.  Keys of objects are passed to
      [visit_object_key_mut] (177-179), which is empty; they are not changed by it here. *)
  Fixpoint m_expr (e : xexpr) (s : S) : S * xexpr :=
    let (s, e) :=
      match e with
      | XNull m => let (s, m) := h_null h m s in (s, XNull m)
      | XBool m b => let (s, p) := h_bool h (m, b) s in (s, XBool (fst p) (snd p))
      | XNum m n r => let (s, p) := h_number h (m, n, r) s in (s, XNum (fst (fst p)) (snd (fst p)) (snd p))
      | XStr m x => let (s, p) := h_string h (m, x) s in (s, XStr (fst p) (snd p))
      | XArr m l c t => let (s, l) := each_mut m_expr l s in (s, XArr m l c t)
      | XObj m l t => let (s, l) := each_mut m_item l s in (s, XObj m l t)
      | XTpl m es => let (s, es) := each_mut m_element es s in (s, XTpl m es)
      | XHeredoc m d t i r => let (s, t) := m_template t s in (s, XHeredoc m d t i r)
      | XParen m e => let (s, e) := m_expr e s in (s, XParen m e)
      | XVar m x => let (s, i) := h_ident h (Did m x) s in (s, XVar (i_meta i) (i_name i))
      | XFor m im kv vv coll key val g cond =>
          let (s, kv) := opt_mut (h_ident h) kv s in
          let (s, vv) := h_ident h vv s in
          let (s, coll) := m_expr coll s in
          let (s, key) := opt_mut m_expr key s in
          let (s, val) := m_expr val s in
          let (s, cond) := opt_mut m_cond cond s in
          (s, XFor m im kv vv coll key val g cond)
      | XCond m c t f =>
          let (s, c) := m_expr c s in let (s, t) := m_expr t s in let (s, f) := m_expr f s in (s, XCond m c t f)
      | XCall m ns n am args ex c t =>
          let (s, ns) := each_mut (h_ident h) ns s in let (s, n) := h_ident h n s in
          let (s, args) := each_mut m_expr args s in (s, XCall m ns n am args ex c t)
      | XUnary m sp o e =>
          let (s, p) := h_unop h (sp, o) s in let (s, e) := m_expr e s in (s, XUnary m (fst p) (snd p) e)
      | XBinary m l om o r =>
          let (s, l) := m_expr l s in let (s, p) := h_binop h (om, o) s in let (s, r) := m_expr r s in
          (s, XBinary m l (fst p) (snd p) r)
      | XTrav m e ops => let (s, e) := m_expr e s in let (s, ops) := each_mut m_trop ops s in (s, XTrav m e ops)
      end in
    h_after_expr h e s
  with m_cond (c : xcond) (s : S) : S * xcond :=
    match c with XForCond m e => let (s, e) := m_expr e s in (s, XForCond m e) end
  with m_item (i : xitem) (s : S) : S * xitem :=
    match i with XItem k a v t => let (s, v) := m_expr v s in (s, XItem k a v t) end
  with m_trop (o : xtrop) (s : S) : S * xtrop :=
    match o with XTrop m o => let (s, o) := m_op o s in (s, XTrop m o) end
  with m_op (o : xop) (s : S) : S * xop :=
    match o with
    | XAttrSplat m => let (s, m) := h_splat h m s in (s, XAttrSplat m)
    | XFullSplat m => let (s, m) := h_splat h m s in (s, XFullSplat m)
    | XGetAttr i => let (s, i) := h_ident h i s in (s, XGetAttr i)
    | XIndex e => let (s, e) := m_expr e s in (s, XIndex e)
    | XLegacy m n => let (s, p) := h_u64 h (m, n) s in (s, XLegacy (fst p) (snd p))
    end
  with m_template (t : xtpl) (s : S) : S * xtpl :=
    match t with XTempl es sp => let (s, es) := each_mut m_element es s in (s, XTempl es sp) end
  with m_element (e : xelem) (s : S) : S * xelem :=
    match e with
    | XLit sp x => let (s, p) := h_literal h (sp, x) s in (s, XLit (fst p) (snd p))
    | XInterp sp e st => let (s, e) := m_expr e s in (s, XInterp sp e st)
    | XIfD sp p c t st el ep et es =>
        let (s, c) := m_expr c s in let (s, t) := m_template t s in let (s, el) := opt_mut m_else el s in
        let (s, q) := h_endif h (ep, et, es) s in
        (s, XIfD sp p c t st el (fst (fst q)) (snd (fst q)) (snd q))
    | XForD sp p kv vv coll t st ep et es =>
        let (s, kv) := opt_mut (h_ident h) kv s in let (s, vv) := h_ident h vv s in
        let (s, t) := m_template t s in let (s, q) := h_endfor h (ep, et, es) s in
        (s, XForD sp p kv vv coll t st (fst (fst q)) (snd (fst q)) (snd q))
    end
  with m_else (e : xelse) (s : S) : S * xelse :=
    match e with XElse p tr t st => let (s, t) := m_template t s in (s, XElse p tr t st) end.

  (** visit_mut.rs:182-228.  The key of an attribute is not visited. *)
  Definition m_label (l : xlabel) (s : S) : S * xlabel :=
    match l with
    | XLStr m x => let (s, p) := h_string h (m, x) s in (s, XLStr (fst p) (snd p))
    | XLId i => let (s, i) := h_ident h i s in (s, XLId i)
    end.
  Fixpoint m_struct (x : xstruct) (s : S) : S * xstruct :=
    match x with
    | XAttr m k v => let (s, v) := m_expr v s in (s, XAttr m k v)
    | XBlock m i ls b =>
        let (s, i) := h_ident h i s in let (s, ls) := each_mut m_label ls s in let (s, b) := m_body b s in
        (s, XBlock m i ls b)
    end
  with m_body (b : xbody) (s : S) : S * xbody :=
    match b with XBody m l o n => let (s, l) := each_mut m_struct l s in (s, XBody m l o n) end.
End VisitMut.
(** The methods of [VisitMut] as they are defined in the trait. *)
Definition default_hooks (S : Type) : hooks S :=
  let keep {A} (x : A) (s : S) := (s, x) in
  Hooks S keep keep keep keep keep keep keep keep keep keep keep keep keep.

(** * Where the parts of a syntax tree are

    An outline of a syntax tree lists the nodes whose span the API reports ([Span::span], repr.rs:87-105),
    each with what its text must look like and with its parts in the order of the text.  [placed] says,
    independently of any parser, that an outline fits a text: every node has a span, the span is the
    byte range of a piece of the text that looks as it must, the parts are inside of the whole, and each
    part begins after the end of the one before. *)
From Coq Require Import NArith ZArith Bool String List.
From Verif Require Import Res Str Dec NumberModel PrimModel EAst EncModel ParseBase ParseModel Grammar ParseTop.
Import ListNotations.
Open Scope N_scope.

Inductive outline :=
| ONode (looks : str -> Prop) (sp : option bspan) (parts : list outline)
| OGroup (parts : list outline)  (* parts in order, without a span of their own *)
| OBag (parts : list outline).   (* parts in any order *)

(** [at_ I a y]: the text [y] is found in [I] at the byte offset [a]. *)
Section Placed.
  Context (I : str).
  Inductive placed : N -> N -> outline -> Prop :=
  | PNode lo hi (looks : str -> Prop) a y l : lo <= a -> a + blen y <= hi -> at_ I a y -> looks y -> in_order a (a + blen y) l ->
      placed lo hi (ONode looks (Some (a, a + blen y)) l)
  | PGroup lo hi l : in_order lo hi l -> placed lo hi (OGroup l)
  | PBag lo hi l : (forall t, In t l -> placed lo hi t) -> placed lo hi (OBag l)
  with in_order : N -> N -> list outline -> Prop :=
  | INil lo hi : lo <= hi -> in_order lo hi []
  | ICons lo mid hi t l : lo <= mid -> placed lo mid t -> in_order mid hi l -> in_order lo hi (t :: l).
End Placed.

(** ** What texts look like *)
Definition is (s : str) : str -> Prop := eq s.
Definition between (a z : str) : str -> Prop := fun t => exists m, t = a ++ m ++ z.
Definition any : str -> Prop := fun _ => True.
Definition nonempty : str -> Prop := fun t => t <> [].

Section Outline.
  Context (b : build) (parse_f64 : str -> f64).
  (** A number literal (the grammar's notion: digits, fraction and exponent with their value) or its
      negation. *)
  Definition numeral (n : num) : str -> Prop := fun t =>
    gnum b parse_f64 t n \/ exists s d n0, t = [45] ++ s ++ d /\ triv s /\ gnum b parse_f64 d n0 /\ num_neg b n0 = Done n.
  Definition index_numeral (n : N) : str -> Prop := fun t => forallb is_digit t = true /\ t <> [] /\ digits_val t = n.

  Definition o_id (i : did) : outline := ONode (is (i_name i)) (m_span (i_meta i)) [].
  Fixpoint o_expr (e : xexpr) : outline :=
    match e with
    | XNull m => ONode (is (lit "null")) (m_span m) []
    | XBool m v => ONode (is (if v then lit "true" else lit "false")) (m_span m) []
    | XNum m n _ => ONode (numeral n) (m_span m) []
    | XStr m _ => ONode (between [34] [34]) (m_span m) []
    | XArr m l _ _ => ONode (between [91] [93]) (m_span m) (map o_expr l)
    | XObj m l _ => ONode (between [123] [125]) (m_span m) [OBag (flat_map o_item l)]
    | XTpl m es => ONode (between [34] [34]) (m_span m) (map o_elem es)
    | XHeredoc m d t _ _ => ONode (between (lit "<<") d) (m_span m) [o_tpl t]
    | XParen m e => ONode (between [40] [41]) (m_span m) [o_expr e]
    | XVar m x => ONode (is x) (m_span m) []
    | XCond m c t f => ONode any (m_span m) [o_expr c; o_expr t; o_expr f]
    | XCall m ns n _ args _ _ _ => ONode (between [] [41]) (m_span m) (map o_id ns ++ o_id n :: map o_expr args)
    | XTrav m e ops => ONode any (m_span m) (o_expr e :: map o_trop ops)
    | XUnary m sp op e => ONode (between (unop_str op) []) (m_span m) [ONode (is (unop_str op)) sp []; o_expr e]
    | XBinary m l om op r => ONode any (m_span m) [o_expr l; ONode (is (binop_str op)) (m_span om) []; o_expr r]
    | XFor m im kv vv coll key val _ cond =>
        ONode (match key with None => between [91] [93] | Some _ => between [123] [125] end) (m_span m)
          (ONode (between (lit "for") [58]) (m_span im) (map o_id (opt_list kv) ++ [o_id vv; o_expr coll])
             :: match key with Some k => [o_expr k] | None => [] end
             ++ o_expr val :: match cond with Some c => [o_cond c] | None => [] end)
    end
  with o_cond (c : xcond) : outline :=
    match c with XForCond m e => ONode (between (lit "if") []) (m_span m) [o_expr e] end
  with o_item (i : xitem) : list outline := match i with XItem k _ v _ => [o_key k; o_expr v] end
  with o_key (k : xkey) : outline := match k with XKId i => o_id i | XKExpr e => o_expr e end
  with o_trop (o : xtrop) : outline :=
    match o with XTrop m op =>
      ONode (match op with XFullSplat _ | XIndex _ => between [91] [93] | _ => between [46] [] end) (m_span m) [o_op op]
    end
  with o_op (o : xop) : outline :=
    match o with
    | XAttrSplat m | XFullSplat m => ONode (is [42]) (m_span m) []
    | XGetAttr i => o_id i
    | XIndex e => o_expr e
    | XLegacy m n => ONode (index_numeral n) (m_span m) []
    end
  with o_tpl (t : xtpl) : outline := match t with XTempl es sp => ONode any sp (map o_elem es) end
  with o_elem (e : xelem) : outline :=
    match e with
    | XLit sp _ => ONode nonempty sp []
    | XInterp sp e _ => ONode (between (lit "${") [125]) sp [o_expr e]
    | XIfD sp _ c t _ els _ _ _ =>
        ONode (between (lit "%{") [125]) sp
          (o_expr c :: o_tpl t :: match els with Some x => [o_else x] | None => [] end)
    | XForD sp _ kv vv coll t _ _ _ _ =>
        ONode (between (lit "%{") [125]) sp (map o_id (opt_list kv) ++ [o_id vv; o_expr coll; o_tpl t])
    end
  with o_else (x : xelse) : outline := match x with XElse _ _ t _ => o_tpl t end.

  Definition o_label (l : xlabel) : outline :=
    match l with XLId i => o_id i | XLStr m _ => ONode (between [34] [34]) (m_span m) [] end.
  Fixpoint o_struct (x : xstruct) : outline :=
    match x with
    | XAttr m k v => ONode any (m_span m) [o_id k; o_expr v]
    | XBlock m i ls body => ONode (between [] [125]) (m_span m) (o_id i :: map o_label ls ++ [o_body body])
    end
  with o_body (x : xbody) : outline :=
    match x with
    | XBody m l oneline _ => if oneline then OGroup (map o_struct l) else ONode any (m_span m) (map o_struct l)
    end.
  (** The template returned by [Template::from_str] has no span itself. *)
  Definition o_template (t : xtpl) : outline := match t with XTempl es _ => OGroup (map o_elem es) end.
End Outline.

(** * When a tree of hcl-rs is the tree of hcl-edit without its layout *)
From Coq Require Import NArith Bool String List.
From Verif Require Import Res Str NumberModel PrimModel EAst Ast.
Import ListNotations.

Section Same.
  (** The text of a template, as printed by hcl-edit. *)
  Context (text : list xelem -> str).
  Definition same_name (i : did) (s : str) : Prop := i_name i = s.
  Inductive osame {A B} (R : A -> B -> Prop) : option A -> option B -> Prop :=
  | O_none : osame R None None
  | O_some a b : R a b -> osame R (Some a) (Some b).
  (** No two entries have equal keys. *)
  Definition keys_apart (m : list (okey expr * expr)) : Prop :=
    ForallOrdPairs (fun p q => okey_eqb expr_eqb (fst q) (fst p) = false) m.

  Inductive same : xexpr -> expr -> Prop :=
  | S_null m : same (XNull m) ENull
  | S_bool m b : same (XBool m b) (EBool b)
  | S_num m n r : same (XNum m n r) (ENum n)
  | S_str m s : same (XStr m s) (EStr s)
  | S_var m x : same (XVar m x) (EVar x)
  | S_arr m l c t l' : Forall2 same l l' -> same (XArr m l c t) (EArr l')
  (** Entries with equal keys are merged; otherwise all are there, in order. *)
  | S_obj m l t ps o : Forall2 same_item l ps -> (keys_apart ps -> o = ps) -> same (XObj m l t) (EObj o)
  | S_tpl m es : same (XTpl m es) (ETpl (QuotedString (text es)))
  | S_heredoc m d es sp r : same (XHeredoc m d (XTempl es sp) None r) (ETpl (Heredoc d (text es) HdNone))
  | S_indented m d es sp n r : same (XHeredoc m d (XTempl es sp) (Some n) r) (ETpl (Heredoc d (text es) HdIndent))
  | S_paren m e e' : same e e' -> same (XParen m e) (EParen e')
  | S_cond m a b c a' b' c' : same a a' -> same b b' -> same c c' -> same (XCond m a b c) (ECond a' b' c')
  | S_call m ns n am args ex co t ns' n' args' :
      Forall2 same_name ns ns' -> same_name n n' -> Forall2 same args args' ->
      same (XCall m ns n am args ex co t) (ECall (FuncName ns' n') args' ex)
  | S_trav m e ops e' ops' : same e e' -> Forall2 same_op ops ops' -> same (XTrav m e ops) (ETrav e' ops')
  | S_unary m sp o e e' : same e e' -> same (XUnary m sp o e) (EUnary o e')
  | S_binary m l om o r l' r' : same l l' -> same r r' -> same (XBinary m l om o r) (EBinary l' o r')
  | S_for m im kv vv c k v g co kv' vv' c' k' v' co' :
      osame same_name kv kv' -> same_name vv vv' -> same c c' -> osame same k k' -> same v v' -> osame same_cond co co' ->
      same (XFor m im kv vv c k v g co) (EFor kv' vv' c' k' v' g co')
  with same_cond : xcond -> expr -> Prop :=
  | S_forcond m e e' : same e e' -> same_cond (XForCond m e) e'
  with same_item : xitem -> okey expr * expr -> Prop :=
  | S_item k a v t k' v' : same_key k k' -> same v v' -> same_item (XItem k a v t) (k', v')
  with same_key : xkey -> okey expr -> Prop :=
  | S_kid i s : same_name i s -> same_key (XKId i) (KIdent s)
  | S_kexpr e e' : same e e' -> same_key (XKExpr e) (KExpr e')
  with same_op : xtrop -> trop expr -> Prop :=
  | S_attrsplat m m' : same_op (XTrop m (XAttrSplat m')) AttrSplat
  | S_fullsplat m m' : same_op (XTrop m (XFullSplat m')) FullSplat
  | S_getattr m i s : same_name i s -> same_op (XTrop m (XGetAttr i)) (GetAttr s)
  | S_index m e e' : same e e' -> same_op (XTrop m (XIndex e)) (Index e')
  | S_legacy m m' n : same_op (XTrop m (XLegacy m' n)) (LegacyIndex n).

  Inductive same_elem : xelem -> elem -> Prop :=
  | S_lit sp s : same_elem (XLit sp s) (ElLit s)
  | S_interp sp e s e' : same e e' -> same_elem (XInterp sp e s) (ElInterp e' s)
  | S_if sp p c t s ep et es c' t' : same c c' -> same_tpl t t' ->
      same_elem (XIfD sp p c t s None ep et es) (ElIf c' t' None s StripNone es)
  | S_ifelse sp p c t s p2 tr2 t2 s2 ep et es c' t' t2' : same c c' -> same_tpl t t' -> same_tpl t2 t2' ->
      same_elem (XIfD sp p c t s (Some (XElse p2 tr2 t2 s2)) ep et es) (ElIf c' t' (Some t2') s s2 es)
  | S_ford sp p kv vv c t s ep et es kv' vv' c' t' : osame same_name kv kv' -> same_name vv vv' -> same c c' -> same_tpl t t' ->
      same_elem (XForD sp p kv vv c t s ep et es) (ElFor kv' vv' c' t' s es)
  with same_tpl : xtpl -> template -> Prop :=
  | S_templ es sp t : Forall2 same_elem es t -> same_tpl (XTempl es sp) t.

  Inductive same_label : xlabel -> blabel -> Prop :=
  | S_lid i s : same_name i s -> same_label (XLId i) (BLIdent s)
  | S_lstr m s : same_label (XLStr m s) (BLString s).
  Inductive same_struct : xstruct -> struct_ -> Prop :=
  | S_attr m k v k' v' : same_name k k' -> same v v' -> same_struct (XAttr m k v) (SAttribute k' v')
  | S_block m i ls b i' ls' b' : same_name i i' -> Forall2 same_label ls ls' -> same_body b b' ->
      same_struct (XBlock m i ls b) (SBlk i' ls' b')
  with same_body : xbody -> rbody -> Prop :=
  | S_body m l one omit l' : Forall2 same_struct l l' -> same_body (XBody m l one omit) l'.
End Same.

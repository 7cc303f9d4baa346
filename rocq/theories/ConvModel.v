(** * Conversions between the trees of hcl-rs and hcl-edit

    Models crates/hcl-rs/src/{expr,structure,template}/edit.rs.  The decor and spans of the trees
    built there are the defaults of hcl-edit's constructors. *)
From Coq Require Import NArith Bool String List.
From Verif Require Import Res Str NumberModel PrimModel Utf8 EAst EncModel ParseBase ParseModel.
From Verif Require Import Ast.
From Verif Require MapModel.
Import ListNotations.
Open Scope N_scope.

Section Conv.
  (** [Display] of a floating point number, see [EncModel]. *)
  Context (show_f64 : f64 -> str).

  (** [Template::to_string] of the elements of a template, hcl-edit template/mod.rs:445-450. *)
  Definition tpl_string (es : list xelem) : str := show_tpl show_f64 (XTempl es None).

  (** [From<edit::Expression> for Expression], expr/edit.rs:4-28, with the conversions it calls:
      [FromIterator] (expr/mod.rs:198-212), [ObjectKey] 61-68, [ObjectValue] 79-83, [Conditional]
      91-95, [ForExpr] 103-116, [FuncName] 132-139, [FuncCall] 150-159, [UnaryOp], [BinaryOp]
      181-203, [TemplateExpr] 211-215, [Heredoc] 217-229, [Traversal] 237-241, operators 252-274,
      identifiers 290-300. *)
  Fixpoint of_edit (x : xexpr) : expr :=
    match x with
    | XNull _ => ENull
    | XBool _ b => EBool b
    | XNum _ n _ => ENum n
    | XStr _ s => EStr s
    | XArr _ l _ _ => EArr (map of_edit l)
    | XObj _ l _ => EObj (eobj_collect (map of_item l))
    | XTpl _ es => ETpl (QuotedString (tpl_string es))
    | XHeredoc _ d (XTempl es _) i _ =>
        ETpl (Heredoc d (tpl_string es) (match i with Some _ => HdIndent | None => HdNone end))
    | XParen _ e => EParen (of_edit e)
    | XVar _ x => EVar x
    | XCond _ c t f => ECond (of_edit c) (of_edit t) (of_edit f)
    | XCall _ ns n _ args ex _ _ => ECall (FuncName (map i_name ns) (i_name n)) (map of_edit args) ex
    | XTrav _ e ops => ETrav (of_edit e) (map of_trop ops)
    | XUnary _ _ o e => EUnary o (of_edit e)
    | XBinary _ l _ o r => EBinary (of_edit l) o (of_edit r)
    | XFor _ _ kv vv coll key val g cond =>
        EFor (option_map i_name kv) (i_name vv) (of_edit coll) (option_map of_edit key) (of_edit val) g
             (option_map of_cond cond)
    end
  with of_cond (c : xcond) : expr := match c with XForCond _ e => of_edit e end
  with of_item (i : xitem) : okey expr * expr := match i with XItem k _ v _ => (of_key k, of_edit v) end
  with of_key (k : xkey) : okey expr :=
    match k with XKId i => KIdent (i_name i) | XKExpr e => KExpr (of_edit e) end
  with of_trop (o : xtrop) : trop expr := match o with XTrop _ o => of_op o end
  with of_op (o : xop) : trop expr :=
    match o with
    | XAttrSplat _ => AttrSplat
    | XFullSplat _ => FullSplat
    | XGetAttr i => GetAttr (i_name i)
    | XIndex e => Index (of_edit e)
    | XLegacy _ n => LegacyIndex n
    end.

  (** [From<edit::Template> for Template] and its parts, template/edit.rs:4-8, 16-26, 40-47, 57-64,
      75-92, 113-127. *)
  Fixpoint of_tpl (t : xtpl) : template := match t with XTempl es _ => map of_elem es end
  with of_elem (e : xelem) : elem :=
    match e with
    | XLit _ s => ElLit s
    | XInterp _ e s => ElInterp (of_edit e) s
    | XIfD _ _ c t s el _ _ es =>
        ElIf (of_edit c) (of_tpl t) (option_map of_else el) s
             (match el with Some (XElse _ _ _ s) => s | None => StripNone end) es
    | XForD _ _ kv vv coll t s _ _ es =>
        ElFor (option_map i_name kv) (i_name vv) (of_edit coll) (of_tpl t) s es
    end
  with of_else (e : xelse) : template := match e with XElse _ _ t _ => of_tpl t end.

  (** [From<edit::Structure> for Structure] and its parts, structure/edit.rs:4-8, 16-23, 34-41,
      49-56, 67-74.  The builder of hcl-rs (structure/block.rs) keeps everything. *)
  Definition of_label (l : xlabel) : blabel :=
    match l with XLId i => BLIdent (i_name i) | XLStr _ s => BLString s end.
  Fixpoint of_struct (s : xstruct) : struct_ :=
    match s with
    | XAttr _ k v => SAttribute (i_name k) (of_edit v)
    | XBlock _ i ls b => SBlk (i_name i) (map of_label ls) (of_body b)
    end
  with of_body (b : xbody) : rbody := match b with XBody _ l _ _ => map of_struct l end.

  (** ** From hcl-rs to hcl-edit *)

  (** Undecorated identifiers: [Decorated::new], hcl-edit repr.rs. *)
  Definition ident_new (s : str) : did := Did no_meta s.

  (** [template_or_default], expr/edit.rs:302-304: the parsed template, or the empty one if the text
      is not a template.  A panic of the parser (see C15; possible in debug builds only) is not
      represented: the result is the empty template then. *)
  Context (parse_tpl : str -> parsed xtpl).
  Definition template_or_default (s : str) : list xelem :=
    match parse_tpl s with Parsed (XTempl es _) => es | _ => [] end.

  (** [FromIterator for edit::Object], hcl-edit expr/object.rs: insertion one after the other. *)
  Definition items_collect (l : list xitem) : list xitem := fold_left (fun acc i => items_insert i acc) l [].

  (** [ObjectValue::new], hcl-edit expr/object.rs: assigned with [=], terminated by a comma. *)
  Definition item_new (k : xkey) (v : xexpr) : xitem := XItem k AEquals v TComma.

  (** [From<Expression> for edit::Expression], expr/edit.rs:30-59, with the conversions it calls. *)
  Fixpoint to_edit (e : expr) : xexpr :=
    match e with
    | ENull => XNull no_meta
    | EBool b => XBool no_meta b
    | ENum n => XNum no_meta n None
    | EStr s => XStr no_meta s
    | EArr l => XArr no_meta (map to_edit l) false REmpty
    | EObj m =>
        XObj no_meta (items_collect (map (fun p =>
          item_new (match fst p with KIdent s => XKId (ident_new s) | KExpr e => XKExpr (to_edit e) end)
                   (to_edit (snd p))) m)) REmpty
    | ETpl (QuotedString s) => XTpl no_meta (template_or_default s)
    | ETpl (Heredoc d s _) => XHeredoc no_meta d (XTempl (template_or_default s) None) None REmpty
    | EVar x => XVar no_meta x
    | ETrav e ops =>
        XTrav no_meta (to_edit e) (map (fun o => XTrop no_meta
          (match o with
           | AttrSplat => XAttrSplat no_meta
           | FullSplat => XFullSplat no_meta
           | GetAttr s => XGetAttr (ident_new s)
           | Index e => XIndex (to_edit e)
           | LegacyIndex n => XLegacy no_meta n
           end)) ops)
    | ECall f args ex =>
        XCall no_meta (map ident_new (fn_namespace f)) (ident_new (fn_name f)) no_meta (map to_edit args)
              ex false REmpty
    | EParen e => XParen no_meta (to_edit e)
    | ECond c t f => XCond no_meta (to_edit c) (to_edit t) (to_edit f)
    | EUnary o e => XUnary no_meta None o (to_edit e)
    | EBinary l o r => XBinary no_meta (to_edit l) no_meta o (to_edit r)
    | EFor kv vv coll key val g cond =>
        XFor no_meta no_meta (option_map ident_new kv) (ident_new vv) (to_edit coll) (option_map to_edit key)
             (to_edit val) g (option_map (fun c => XForCond no_meta (to_edit c)) cond)
    end.
  Definition to_key (k : okey expr) : xkey :=
    match k with KIdent s => XKId (ident_new s) | KExpr e => XKExpr (to_edit e) end.
  Definition to_trop (o : trop expr) : xtrop :=
    XTrop no_meta
      (match o with
       | AttrSplat => XAttrSplat no_meta
       | FullSplat => XFullSplat no_meta
       | GetAttr s => XGetAttr (ident_new s)
       | Index e => XIndex (to_edit e)
       | LegacyIndex n => XLegacy no_meta n
       end).

  (** [From<Template> for edit::Template] and its parts, template/edit.rs:10-14, 28-38, 49-55, 66-73,
      94-111, 129-144. *)
  Fixpoint to_elem (e : elem) : xelem :=
    match e with
    | ElLit s => XLit None s
    | ElInterp e s => XInterp None (to_edit e) s
    | ElIf c t f s1 s2 s3 =>
        XIfD None REmpty (to_edit c) (XTempl (map to_elem t) None) s1
             (match f with
              | Some t => Some (XElse REmpty REmpty (XTempl (map to_elem t) None) s2)
              | None => None
              end) REmpty REmpty s3
    | ElFor kv vv coll t s1 s2 =>
        XForD None REmpty (option_map ident_new kv) (ident_new vv) (to_edit coll)
              (XTempl (map to_elem t) None) s1 REmpty REmpty s2
    end.
  Definition to_tpl (t : template) : xtpl := XTempl (map to_elem t) None.

  (** [Body::push], hcl-edit structure/body.rs:392-394, 424-432: an attribute whose key is already
      there is dropped. *)
  Definition is_attr (k : str) (s : xstruct) : bool :=
    match s with XAttr _ k' _ => seqb k (i_name k') | XBlock _ _ _ _ => false end.
  Definition push_struct (l : list xstruct) (s : xstruct) : list xstruct :=
    match s with
    | XAttr _ k _ => if existsb (is_attr (i_name k)) l then l else l ++ [s]
    | XBlock _ _ _ _ => l ++ [s]
    end.
  Definition structs_collect (l : list xstruct) : list xstruct := fold_left push_struct l [].

  (** [From<Structure> for edit::Structure], [From<Body> for edit::Body] and their parts,
      structure/edit.rs:10-14, 25-32, 43-47, 58-65, 76-83. *)
  Definition to_label (l : blabel) : xlabel :=
    match l with BLIdent s => XLId (ident_new s) | BLString s => XLStr no_meta s end.
  Fixpoint to_struct (s : struct_) : xstruct :=
    match s with
    | SAttribute k e => XAttr no_meta (ident_new k) (to_edit e)
    | SBlk i ls b =>
        XBlock no_meta (ident_new i) (map to_label ls)
               (XBody no_meta (structs_collect (map to_struct b)) false false)
    end.
  Definition to_body (b : rbody) : xbody :=
    XBody no_meta (structs_collect (map to_struct b)) false false.
End Conv.

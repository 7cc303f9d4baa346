(** * Deserializing the types of hcl-rs themselves

    [Body], [Structure], [Expression] and their parts implement [Deserialize], and they are
    deserializers.  Models crates/hcl-rs/src/{structure/de.rs, expr/de.rs, de/mod.rs} (all paths below
    are in crates/hcl-rs/src) and the [Deserialize] implementations of the types: handwritten for
    [Expression] (expr/de.rs:32-271), [HeredocStripMode] and the operators, derived for the others.  Derived
    implementations and the deserializers of serde's module [de::value] are not part of /repo: they are
    modelled after the documentation of serde 1.0. *)
From Coq Require Import NArith ZArith Bool String List.
From Verif Require Import Res Str NumberModel PrimModel Ast JsonModel.
From Verif Require MapModel.
Import ListNotations.
Open Scope list_scope.

(** [Operation], expr/operation.rs:10-15: inlined in [expr]. *)
Inductive oper := OpUnary (o : unop) (e : expr) | OpBinary (l : expr) (o : binop) (r : expr).

(** The deserializers: one for each type of the crate which is one ([OExpr] to [OLabel], [ONum], [OVal]:
    [ValueDeserializer], [OTop]: [de::Deserializer]), those of serde ([OText]: [StrDeserializer] and
    [StringDeserializer]; [OBool]; [OSeq]: [SeqDeserializer]; [OMap]: [MapDeserializer] and
    [MapAccessDeserializer], with the entries in the order in which they are handed out), and the two
    of de/mod.rs: [ONew]: [NewtypeStructDeserializer] (280-308), [OOpt]: [OptionDeserializer] (310-344). *)
Inductive src :=
| OExpr (e : expr) | OKey (k : okey expr) | OTrop (o : trop expr) | OOper (o : oper) | OTpl (t : tplexpr)
| OStruct (s : struct_) | OLabel (l : blabel) | ONum (n : num) | OVal (v : value) | OTop (b : rbody)
| OText (s : str) | OBool (b : bool) | OSeq (l : list src) | OMap (l : list (src * src))
| ONew (s : src) | OOpt (s : option src).

(** Requests; [QStr] stands for [deserialize_char], [_str], [_string] and [_identifier], [QNum] for all
    numbers, [QSeq] also for tuples. *)
Inductive req := QAny | QBool | QNum | QStr | QUnit | QOption | QSeq | QMap | QStruct | QNewtype (name : str) | QEnum (name : str).
(** The data of an enum variant: [UnitOnly] of serde; [VariantAccess for Expression] (expr/de.rs:526-585),
    [for ObjectKey] (1126-1160), [for TraversalOperator] (685-723); [VariantAccess] of de/mod.rs (380-433),
    [MapAsEnum] of serde with the value which comes next, and [VariantAccess] of value/de.rs (194-232). *)
Inductive access := AUnitOnly | AExpr (e : expr) | AKey (k : okey expr) | ATrop (o : trop expr) | AVar (s : src) | AMap (s : src) | AVal (v : value).
(** The visitor's method which is called. *)
Inductive visit :=
| VisUnit | VisBool (b : bool) | VisI64 (z : Z) | VisU64 (z : Z) | VisF64 (f : f64) | VisStr (s : str)
| VisNone | VisSome (s : src) | VisNew (s : src) | VisSeq (l : list src) | VisMap (l : list (src * src))
| VisEnum (name : src) (a : access).

(** ** [IntoDeserializer] *)
Definition fields (l : list (string * src)) : src := OMap (map (fun p => (OText (lit (fst p)), snd p)) l).
(** structure/de.rs:10-16, 47-88 ([AttributeAccess]), 90-138 ([BlockAccess]). *)
Definition into_body (b : rbody) : src := ONew (OSeq (map OStruct b)).
Definition into_attribute (k : str) (e : expr) : src := fields [("key"%string, OText k); ("expr"%string, OExpr e)].
Definition into_block (i : str) (ls : list blabel) (b : rbody) : src :=
  fields [("identifier"%string, OText i); ("labels"%string, OSeq (map OLabel ls)); ("body"%string, into_body b)].
(** expr/de.rs:587-634 ([TraversalAccess]), 725-777 ([FuncCallAccess]), 779-820 ([FuncNameAccess]),
    822-870 ([ConditionalAccess]), 904-946 ([UnaryOpAccess]), 948-996 ([BinaryOpAccess]), 998-1071
    ([ForExprAccess]), 1196-1242 ([HeredocAccess]). *)
Definition into_traversal (e : expr) (ops : list (trop expr)) : src :=
  fields [("expr"%string, OExpr e); ("operators"%string, OSeq (map OTrop ops))].
Definition into_func_name (f : funcname) : src :=
  fields [("namespace"%string, OSeq (map OText (fn_namespace f))); ("name"%string, OText (fn_name f))].
Definition into_func_call (f : funcname) (args : list expr) (ex : bool) : src :=
  fields [("name"%string, into_func_name f); ("args"%string, OSeq (map OExpr args)); ("expand_final"%string, OBool ex)].
Definition into_conditional (c t f : expr) : src :=
  fields [("cond_expr"%string, OExpr c); ("true_expr"%string, OExpr t); ("false_expr"%string, OExpr f)].
Definition into_unary (o : unop) (e : expr) : src :=
  fields [("operator"%string, OText (unop_str o)); ("expr"%string, OExpr e)].
Definition into_binary (l : expr) (o : binop) (r : expr) : src :=
  fields [("lhs_expr"%string, OExpr l); ("operator"%string, OText (binop_str o)); ("rhs_expr"%string, OExpr r)].
Definition into_for (kv : option str) (vv : str) (c : expr) (k : option expr) (v : expr) (g : bool) (co : option expr) : src :=
  fields [("key_var"%string, OOpt (option_map OText kv)); ("value_var"%string, OText vv); ("collection_expr"%string, OExpr c);
          ("key_expr"%string, OOpt (option_map OExpr k)); ("value_expr"%string, OExpr v); ("grouping"%string, OBool g);
          ("cond_expr"%string, OOpt (option_map OExpr co))].
(** expr/template_expr.rs:102-110 *)
Definition hdmode_str (m : hdmode) : str := match m with HdNone => lit "<<" | HdIndent => lit "<<-" end.
Definition into_heredoc (d t : str) (m : hdmode) : src :=
  fields [("delimiter"%string, OText d); ("template"%string, OText t); ("strip"%string, OText (hdmode_str m))].
Definition into_object (m : list (okey expr * expr)) : src := OMap (map (fun p => (OKey (fst p), OExpr (snd p))) m).
Definition map_of (s : src) : visit := match s with OMap l => VisMap l | _ => VisMap [] end.

(** [impl_variant_name!], expr/de.rs:1267-1276, structure/de.rs:171-174. *)
Definition variant_name (e : expr) : str :=
  match e with
  | ENull => lit "Null" | EBool _ => lit "Bool" | ENum _ => lit "Number" | EStr _ => lit "String" | EArr _ => lit "Array"
  | EObj _ => lit "Object" | ETpl _ => lit "TemplateExpr" | EVar _ => lit "Variable" | ETrav _ _ => lit "Traversal"
  | ECall _ _ _ => lit "FuncCall" | EParen _ => lit "Parenthesis" | ECond _ _ _ => lit "Conditional"
  | EUnary _ _ | EBinary _ _ _ => lit "Operation" | EFor _ _ _ _ _ _ _ => lit "ForExpr"
  end.
Definition key_name (k : okey expr) : str := match k with KIdent _ => lit "Identifier" | KExpr _ => lit "Expression" end.
Definition oper_name (o : oper) : str := match o with OpUnary _ _ => lit "Unary" | OpBinary _ _ _ => lit "Binary" end.
Definition tpl_name (t : tplexpr) : str := match t with QuotedString _ => lit "QuotedString" | Heredoc _ _ _ => lit "Heredoc" end.
Definition trop_name (o : trop expr) : str :=
  match o with
  | AttrSplat => lit "AttrSplat" | FullSplat => lit "FullSplat" | GetAttr _ => lit "GetAttr" | Index _ => lit "Index"
  | LegacyIndex _ => lit "LegacyIndex"
  end.
Definition label_name (l : blabel) : str := match l with BLIdent _ => lit "Identifier" | BLString _ => lit "String" end.
Definition struct_name (s : struct_) : str := match s with SAttribute _ _ => lit "Attribute" | SBlk _ _ _ => lit "Block" end.

(** [Deserializer for Number], hcl-primitives/src/number.rs:450-469. *)
Definition visit_number (n : num) : visit :=
  match n with PosInt z => VisU64 z | NegInt z => VisI64 z | NFloat f => VisF64 f end.

Section De.
  (** [format::to_interpolated_string]. *)
  Context (u : unicode) (bd : build) (interp : expr -> str).

  (** ** The deserializers *)
  (** expr/de.rs:303-318, 390-402, 466-486, 883-892, 1170-1179 *)
  Definition expr_string (e : expr) : visit :=
    match e with EStr s => VisStr s | ETpl t => VisStr (tpl_text t) | e => VisStr (interp e) end.
  Fixpoint expr_any (e : expr) : visit :=
    match e with
    | ENull => VisUnit
    | EBool b => VisBool b
    | ENum n => visit_number n
    | EStr s => VisStr s
    | EArr l => VisSeq (map OExpr l)
    | EObj m => map_of (into_object m)
    | ETpl t => VisStr (tpl_text t)
    | EParen e => expr_any e
    | e => expr_string e
    end.
  Definition oper_any (o : oper) : visit :=
    match o with OpUnary o e => map_of (into_unary o e) | OpBinary l o r => map_of (into_binary l o r) end.
  Definition tpl_any (t : tplexpr) : visit :=
    match t with QuotedString s => VisStr s | Heredoc d s m => map_of (into_heredoc d s m) end.
  Definition expr_map (e : expr) : option visit :=
    match e with
    | EObj m => Some (map_of (into_object m))
    | ECond c t f => Some (map_of (into_conditional c t f))
    | ECall f l ex => Some (map_of (into_func_call f l ex))
    | EFor kv vv c k v g co => Some (map_of (into_for kv vv c k v g co))
    | ETrav e ops => Some (map_of (into_traversal e ops))
    | EUnary o e => Some (oper_any (OpUnary o e))
    | EBinary l o r => Some (oper_any (OpBinary l o r))
    | ETpl t => Some (tpl_any t)
    | _ => None
    end.
  (** [Deserializer for Expression], expr/de.rs:296-517. *)
  Definition ask_expr (e : expr) (q : req) : option visit :=
    match q with
    | QAny => Some (expr_any e)
    | QBool => match e with EBool b => Some (VisBool b) | _ => None end
    | QNum => match e with ENum n => Some (visit_number n) | _ => None end
    | QStr => Some (expr_string e)
    | QUnit => match e with ENull => Some VisUnit | _ => None end
    | QOption => Some (match e with ENull => VisNone | _ => VisSome (OExpr e) end)
    | QSeq => match e with EArr l => Some (VisSeq (map OExpr l)) | _ => None end
    | QMap => expr_map e
    | QStruct => match e with EArr l => Some (VisSeq (map OExpr l)) | e => expr_map e end
    | QNewtype _ => Some (VisNew (OExpr e))
    | QEnum name =>
        if seqb name (lit "$hcl::Expression") then Some (VisEnum (OText (variant_name e)) (AExpr e))
        else match e with
             | EStr s => Some (VisEnum (OText s) AUnitOnly)
             | EObj ((k, x) :: _) => Some (VisEnum (OKey k) (AMap (OExpr x)))
             | EUnary o e => Some (VisEnum (OText (lit "Unary")) (AVar (OOper (OpUnary o e))))
             | EBinary l o r => Some (VisEnum (OText (lit "Binary")) (AVar (OOper (OpBinary l o r))))
             | ETpl t => Some (VisEnum (OText (tpl_name t)) (AVar (OTpl t)))
             | _ => None
             end
    end.
  (** expr/de.rs:1079-1108, 643-668; structure/de.rs:26-45, 148-169. *)
  Definition key_any (k : okey expr) : visit := match k with KIdent s => VisStr s | KExpr e => expr_any e end.
  Definition trop_any (o : trop expr) : visit :=
    match o with
    | AttrSplat | FullSplat => VisUnit
    | GetAttr s => VisStr s
    | Index e => expr_any e
    | LegacyIndex n => VisU64 (Z.of_N n)
    end.
  Definition struct_any (s : struct_) : visit :=
    match s with SAttribute k e => map_of (into_attribute k e) | SBlk i ls b => map_of (into_block i ls b) end.
  Definition label_any (l : blabel) : visit := match l with BLIdent s => VisStr s | BLString s => VisStr s end.
  (** value/de.rs:113-161 *)
  Definition value_any (v : value) : visit :=
    match v with
    | VNull => VisUnit
    | VBool b => VisBool b
    | VNum n => visit_number n
    | VStr s => VisStr s
    | VArr l => VisSeq (map OVal l)
    | VObj m => VisMap (map (fun p => (OText (fst p), OVal (snd p))) m)
    end.
  Definition ask_value (v : value) (q : req) : option visit :=
    match q with
    | QOption => Some (match v with VNull => VisNone | _ => VisSome (OVal v) end)
    | QEnum _ =>
        match v with
        | VStr s => Some (VisEnum (OText s) AUnitOnly)
        | VObj ((k, x) :: _) => Some (VisEnum (OText k) (AVal x))
        | _ => None
        end
    | _ => Some (value_any v)
    end.
  (** What a deserializer answers to all requests, and what to [deserialize_enum]
      ([impl_deserialize_enum!], macros.rs:1174-1189, uses [EnumAccess], de/mod.rs:346-378).  ([MapDeserializer] would answer the latter
      with [visit_map]; no enum is read from one here.). *)
  Definition ask (s : src) (q : req) : option visit :=
    match s, q with
    | OExpr e, _ => ask_expr e q
    | OKey k, QEnum _ => Some (VisEnum (OText (key_name k)) (AKey k))
    | OKey k, _ => Some (key_any k)
    | OTrop o, QEnum _ => Some (VisEnum (OText (trop_name o)) (ATrop o))
    | OTrop o, _ => Some (trop_any o)
    | OOper o, QEnum _ => Some (VisEnum (OText (oper_name o)) (AVar (OOper o)))
    | OOper o, _ => Some (oper_any o)
    | OTpl t, QEnum _ => Some (VisEnum (OText (tpl_name t)) (AVar (OTpl t)))
    | OTpl t, _ => Some (tpl_any t)
    | OStruct s, QEnum _ => Some (VisEnum (OText (struct_name s)) (AVar (OStruct s)))
    | OStruct s, _ => Some (struct_any s)
    | OLabel l, QEnum _ => Some (VisEnum (OText (label_name l)) (AVar (OLabel l)))
    | OLabel l, _ => Some (label_any l)
    | ONum n, _ => Some (visit_number n)
    | OVal v, _ => ask_value v q
    | OTop b, QNewtype name =>                                            (* de/mod.rs:223-242 *)
        if seqb name (lit "$hcl::Body") then Some (VisNew (OSeq (map OStruct b))) else Some (VisNew (OExpr (expr_of_body b)))
    | OTop b, QEnum _ => ask_expr (expr_of_body b) q                      (* 244-258 *)
    | OTop b, _ => Some (expr_any (expr_of_body b))                       (* 215-221 *)
    | OText s, QEnum _ => Some (VisEnum (OText s) AUnitOnly)
    | OText s, _ => Some (VisStr s)
    | OBool b, _ => Some (VisBool b)
    | OSeq l, _ => Some (VisSeq l)
    | OMap l, QEnum _ => match l with (k, x) :: _ => Some (VisEnum k (AMap x)) | [] => None end
    | OMap l, _ => Some (VisMap l)
    | ONew s, _ => Some (VisNew s)
    | OOpt (Some s), _ => Some (VisSome s)
    | OOpt None, _ => Some VisNone
    end.

  (** [newtype_variant_seed]. *)
  Definition newtype_src (a : access) : option src :=
    match a with
    | AUnitOnly => None
    | AExpr e =>                                                          (* expr/de.rs:538-560 *)
        match e with
        | ENull => None
        | EBool b => Some (OBool b)
        | ENum n => Some (ONum n)
        | EStr s => Some (OText s)
        | EArr l => Some (OSeq (map OExpr l))
        | EObj m => Some (into_object m)
        | ETpl t => Some (OTpl t)
        | EVar x => Some (OText x)
        | ETrav e ops => Some (into_traversal e ops)
        | ECall f l ex => Some (into_func_call f l ex)
        | EParen e => Some (OExpr e)
        | ECond c t f => Some (into_conditional c t f)
        | EUnary o e => Some (OOper (OpUnary o e))
        | EBinary l o r => Some (OOper (OpBinary l o r))
        | EFor kv vv c k v g co => Some (into_for kv vv c k v g co)
        end
    | AKey (KExpr e) => Some (OExpr e)                                    (* 1135-1144 *)
    | AKey k => Some (OKey k)
    | ATrop (Index e) => Some (OExpr e)                                   (* 694-704 *)
    | ATrop (GetAttr s) => Some (OText s)
    | ATrop o => Some (OTrop o)
    | AVar s => Some s
    | AMap s => Some s
    | AVal v => Some (OVal v)
    end.
  (** [unit_variant]: expr/de.rs:529-536, 688-690, 1129-1131; de/mod.rs:402-404; value/de.rs:207-209. *)
  Definition unit_variant (a : access) : bool :=
    let unit s := match ask s QUnit with Some VisUnit => true | _ => false end in
    match a with
    | AUnitOnly => true
    | AExpr e => match e with ENull => true | _ => false end
    | AKey k => unit (OKey k)
    | ATrop o => unit (OTrop o)
    | AVar s | AMap s => unit s
    | AVal _ => false
    end.

  (** ** [Deserialize] *)
  Definition bind {A B} (o : option A) (f : A -> option B) : option B := match o with Some x => f x | None => None end.
  Fixpoint all {A B} (f : A -> option B) (l : list A) : option (list B) :=
    match l with [] => Some [] | x :: l => bind (f x) (fun y => option_map (cons y) (all f l)) end.
  Definition de_bool (s : src) : option bool := match ask s QBool with Some (VisBool b) => Some b | _ => None end.
  Definition de_string (s : src) : option str := match ask s QStr with Some (VisStr t) => Some t | _ => None end.
  Definition de_u64 (s : src) : option N :=
    match ask s QNum with
    | Some (VisU64 z) | Some (VisI64 z) => if (0 <=? z)%Z && (z <=? u64_max)%Z then Some (Z.to_N z) else None
    | _ => None
    end.
  (** hcl-primitives/src/ident.rs:266-275; [Identifier] and [Variable] are transparent. *)
  Definition de_ident (s : src) : option str := bind (de_string s) (ident_try_new u).
  (** hcl-primitives/src/number.rs:414-447 *)
  Definition number_of (v : visit) : option num :=
    match v with
    | VisI64 z => Some (num_of_i64 z)
    | VisU64 z => Some (num_of_u64 z)
    | VisF64 f => match num_from_f64 bd f with Done (Some n) => Some n | _ => None end
    | _ => None
    end.
  Definition de_number (s : src) : option num := bind (ask s QAny) number_of.
  (** hcl-primitives/src/expr.rs:35-45, 123-144, 166-174, 185-193; expr/template_expr.rs:113-123,
      expr/de.rs:1252-1259: [FromStrVisitor]. *)
  Definition de_from_str {A} (f : str -> option A) (s : src) : option A := match ask s QAny with Some (VisStr t) => f t | _ => None end.
  Definition hdmode_of (s : str) : option hdmode :=
    if seqb s (lit "<<") then Some HdNone else if seqb s (lit "<<-") then Some HdIndent else None.
  Definition de_option {A} (f : src -> option A) (s : src) : option (option A) :=
    match ask s QOption with
    | Some VisNone | Some VisUnit => Some None
    | Some (VisSome s) => option_map Some (f s)
    | _ => None
    end.
  Definition de_seq {A} (f : src -> option A) (s : src) : option (list A) :=
    match ask s QSeq with Some (VisSeq l) => all f l | _ => None end.

  (** The entries which a derived visitor of a struct gets to see: from a map, or from a sequence
      which has enough elements. *)
  Definition entries (names : list string) (v : option visit) : option (list (src * src)) :=
    match v with
    | Some (VisMap l) => Some l
    | Some (VisSeq l) => if Nat.leb (length names) (length l) then Some (combine (map (fun n => OText (lit n)) names) l) else None
    | _ => None
    end.
  Definition is_field (name : str) (k : src) : bool :=
    match ask k QStr with Some (VisStr s) => seqb s name | _ => false end.
  (** The value of a field: none if it is missing, an error if it is given twice.  (Entries with other
      names are ignored; names which are not strings are ignored here.) *)
  Definition field_src (name : string) (l : list (src * src)) : option (option src) :=
    match filter (fun p => is_field (lit name) (fst p)) l with
    | [] => Some None
    | [p] => Some (Some (snd p))
    | _ => None
    end.
  Definition field {A} (f : src -> option A) (l : list (src * src)) (name : string) : option A :=
    match field_src name l with Some (Some s) => f s | _ => None end.
  (** A missing field of an option type is [None]. *)
  Definition ofield {A} (f : src -> option (option A)) (l : list (src * src)) (name : string) : option (option A) :=
    match field_src name l with Some (Some s) => f s | Some None => Some None | None => None end.
  (** The name of the variant and its data. *)
  Definition variant (name : string) (s : src) : option (str * access) :=
    match ask s (QEnum (lit name)) with
    | Some (VisEnum n a) => match ask n QStr with Some (VisStr n) => Some (n, a) | _ => None end
    | _ => None
    end.
  Definition is (s : str) (t : string) : bool := seqb s (lit t).

  (** expr/template_expr.rs:11-21, 59-67 *)
  Definition de_heredoc (s : src) : option tplexpr :=
    bind (entries ["delimiter"; "template"; "strip"]%string (ask s QStruct)) (fun l =>
    bind (field de_ident l "delimiter") (fun d => bind (field de_string l "template") (fun t =>
    bind (field (de_from_str hdmode_of) l "strip") (fun m => Some (Heredoc d t m))))).
  Definition de_tpl (s : src) : option tplexpr :=
    bind (variant "TemplateExpr" s) (fun '(n, a) =>
      if is n "QuotedString" then bind (newtype_src a) (fun s => option_map QuotedString (de_string s))
      else if is n "Heredoc" then bind (newtype_src a) de_heredoc else None).
  (** expr/func_call.rs:8-14 *)
  Definition de_func_name (s : src) : option funcname :=
    bind (entries ["namespace"; "name"]%string (ask s QStruct)) (fun l =>
    bind (field (de_seq de_ident) l "namespace") (fun ns => bind (field de_ident l "name") (fun n => Some (FuncName ns n)))).

  (** The parts of expressions, given how expressions are read. *)
  Section Parts.
    Context (rec : src -> option expr).
    (** expr/mod.rs:290-297 *)
    Definition de_key (s : src) : option (okey expr) :=
      bind (variant "ObjectKey" s) (fun '(n, a) =>
        if is n "Identifier" then bind (newtype_src a) (fun s => option_map KIdent (de_ident s))
        else if is n "Expression" then bind (newtype_src a) (fun s => option_map KExpr (rec s)) else None).
    (** expr/traversal.rs:6-12, 108-125 *)
    Definition de_trop (s : src) : option (trop expr) :=
      bind (variant "TraversalOperator" s) (fun '(n, a) =>
        if is n "AttrSplat" then if unit_variant a then Some AttrSplat else None
        else if is n "FullSplat" then if unit_variant a then Some FullSplat else None
        else if is n "GetAttr" then bind (newtype_src a) (fun s => option_map GetAttr (de_ident s))
        else if is n "Index" then bind (newtype_src a) (fun s => option_map Index (rec s))
        else if is n "LegacyIndex" then bind (newtype_src a) (fun s => option_map LegacyIndex (de_u64 s)) else None).
    Definition de_traversal (s : src) : option expr :=
      bind (entries ["expr"; "operators"]%string (ask s QStruct)) (fun l =>
      bind (field rec l "expr") (fun e => bind (field (de_seq de_trop) l "operators") (fun o => Some (ETrav e o)))).
    (** expr/func_call.rs:62-71 *)
    Definition de_func_call (s : src) : option expr :=
      bind (entries ["name"; "args"; "expand_final"]%string (ask s QStruct)) (fun l =>
      bind (field de_func_name l "name") (fun f => bind (field (de_seq rec) l "args") (fun a =>
      bind (field de_bool l "expand_final") (fun x => Some (ECall f a x))))).
    (** expr/conditional.rs:6-14 *)
    Definition de_conditional (s : src) : option expr :=
      bind (entries ["cond_expr"; "true_expr"; "false_expr"]%string (ask s QStruct)) (fun l =>
      bind (field rec l "cond_expr") (fun c => bind (field rec l "true_expr") (fun t =>
      bind (field rec l "false_expr") (fun f => Some (ECond c t f))))).
    (** expr/operation.rs:9-15, 30-36, 52-60 *)
    Definition de_unary (s : src) : option expr :=
      bind (entries ["operator"; "expr"]%string (ask s QStruct)) (fun l =>
      bind (field (de_from_str unop_from_str) l "operator") (fun o => bind (field rec l "expr") (fun e => Some (EUnary o e)))).
    Definition de_binary (s : src) : option expr :=
      bind (entries ["lhs_expr"; "operator"; "rhs_expr"]%string (ask s QStruct)) (fun l =>
      bind (field rec l "lhs_expr") (fun x => bind (field (de_from_str binop_from_str) l "operator") (fun o =>
      bind (field rec l "rhs_expr") (fun y => Some (EBinary x o y))))).
    Definition de_operation (s : src) : option expr :=
      bind (variant "Operation" s) (fun '(n, a) =>
        if is n "Unary" then bind (newtype_src a) de_unary
        else if is n "Binary" then bind (newtype_src a) de_binary else None).
    (** expr/for_expr.rs:7-30 *)
    Definition de_for (s : src) : option expr :=
      bind (entries ["key_var"; "value_var"; "collection_expr"; "key_expr"; "value_expr"; "grouping"; "cond_expr"]%string (ask s QStruct)) (fun l =>
      bind (ofield (de_option de_ident) l "key_var") (fun kv => bind (field de_ident l "value_var") (fun vv =>
      bind (field rec l "collection_expr") (fun c => bind (ofield (de_option rec) l "key_expr") (fun k =>
      bind (field rec l "value_expr") (fun v => bind (field de_bool l "grouping") (fun g =>
      bind (ofield (de_option rec) l "cond_expr") (fun co => Some (EFor kv vv c k v g co))))))))).
    (** [Object] is a [VecMap]: entries are inserted one after the other. *)
    Definition object_of (l : list (src * src)) : option expr :=
      option_map (fun m => EObj (MapModel.from_iter (okey_eqb expr_eqb) m))
        (all (fun p => bind (de_key (fst p)) (fun k => option_map (pair k) (rec (snd p)))) l).
    Definition de_object (s : src) : option expr := match ask s QMap with Some (VisMap l) => object_of l | _ => None end.
    (** [ExpressionVisitor], expr/de.rs:146-252. *)
    Definition visit_expr (v : visit) : option expr :=
      match v with
      | VisBool b => Some (EBool b)
      | VisI64 z => Some (ENum (num_of_i64 z))
      | VisU64 z => Some (ENum (num_of_u64 z))
      | VisF64 f => Some (match num_from_f64 bd f with Done (Some n) => ENum n | _ => ENull end)
      | VisStr s => Some (EStr s)
      | VisNone | VisUnit => Some ENull
      | VisSome s => rec s
      | VisSeq l => option_map EArr (all rec l)
      | VisMap l => object_of l
      | VisNew _ => None
      | VisEnum n a =>
          match ask n QStr with
          | Some (VisStr n) =>
              if is n "Null" then if unit_variant a then Some ENull else None
              else bind (newtype_src a) (fun s =>
                if is n "Bool" then option_map EBool (de_bool s)
                else if is n "Number" then option_map ENum (de_number s)
                else if is n "String" then option_map EStr (de_string s)
                else if is n "Array" then option_map EArr (de_seq rec s)
                else if is n "Object" then de_object s
                else if is n "TemplateExpr" then option_map ETpl (de_tpl s)
                else if is n "Variable" then option_map EVar (de_ident s)
                else if is n "Traversal" then de_traversal s
                else if is n "FuncCall" then de_func_call s
                else if is n "Parenthesis" then option_map EParen (rec s)
                else if is n "Conditional" then de_conditional s
                else if is n "Operation" then de_operation s
                else if is n "ForExpr" then de_for s else None)
          | _ => None
          end
      end.
  End Parts.
  (** [Deserialize for Expression].  Recursion is fuelled. *)
  Fixpoint de_expr (fuel : nat) (s : src) : option expr :=
    match fuel with
    | O => None
    | S fuel => bind (ask s (QEnum (lit "$hcl::Expression"))) (visit_expr (de_expr fuel))
    end.

  (** structure/block.rs:115-121, attribute.rs:18-24, block.rs:18-26, mod.rs:71-77, body.rs:16-18 *)
  Definition de_label (s : src) : option blabel :=
    bind (variant "BlockLabel" s) (fun '(n, a) =>
      if is n "Identifier" then bind (newtype_src a) (fun s => option_map BLIdent (de_ident s))
      else if is n "String" then bind (newtype_src a) (fun s => option_map BLString (de_string s)) else None).
  Definition de_attribute (fuel : nat) (s : src) : option struct_ :=
    bind (entries ["key"; "expr"]%string (ask s QStruct)) (fun l =>
    bind (field de_ident l "key") (fun k => bind (field (de_expr fuel) l "expr") (fun e => Some (SAttribute k e)))).
  Section Structures.
    Context (rec : src -> option struct_).
    Definition de_body_of (s : src) : option rbody :=
      match ask s (QNewtype (lit "$hcl::Body")) with
      | Some (VisNew s) => de_seq rec s
      | Some (VisSeq (s :: _)) => de_seq rec s
      | _ => None
      end.
    Definition de_block (s : src) : option struct_ :=
      bind (entries ["identifier"; "labels"; "body"]%string (ask s QStruct)) (fun l =>
      bind (field de_ident l "identifier") (fun i => bind (field (de_seq de_label) l "labels") (fun ls =>
      bind (field de_body_of l "body") (fun b => Some (SBlk i ls b))))).
  End Structures.
  Fixpoint de_structure (fuel : nat) (s : src) : option struct_ :=
    match fuel with
    | O => None
    | S fuel =>
        bind (variant "Structure" s) (fun '(n, a) =>
          if is n "Attribute" then bind (newtype_src a) (de_attribute fuel)
          else if is n "Block" then bind (newtype_src a) (de_block (de_structure fuel)) else None)
    end.
  Definition de_body (fuel : nat) : src -> option rbody := de_body_of (de_structure fuel).
End De.

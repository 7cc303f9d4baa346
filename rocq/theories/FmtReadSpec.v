(** * Which trees are read back from their text

    [readable e]: the expression [e] can be told from its text.  Each clause excludes trees whose
    text means something else in HCL, or nothing at all; the theorems [C21_*_refuted] of FmtReadProps
    show for most of them that they cannot be dropped. *)
From Coq Require Import NArith ZArith Bool String List.
From Verif Require Import Res Str Dec NumberModel PrimModel PrimProofs Ast EqSpec.
From Verif Require Import ConvSpec PrattSpec FmtModel EatLeaf.
From Verif Require EAst EncModel BackSpec SameSpec DedentModel DedentSpec.
Import ListNotations.
Open Scope N_scope.

(** A relation between neighbours. *)
Fixpoint chain {A} (R : A -> A -> Prop) (l : list A) : Prop :=
  match l with a :: ((b :: _) as l') => R a b /\ chain R l' | _ => True end.

Section Readable.
  Context (u : unicode) (b : build) (pf : str -> f64) (sf : f64 -> str).
  Context (c : cfg).

  (** Numbers whose text is read back: integers, and floating point numbers for which printing and
      reading ([sf] and [pf]) fit together. *)
  Definition num_readable (n : num) : Prop :=
    match n with
    | PosInt z => (0 <= z <= u64_max)%Z
    | NegInt z => (- 2 ^ 63 < z < 0)%Z \/ (z = - 2 ^ 63 /\ b = Release)%Z
    | NFloat f =>
        (float_text (sf f) /\ num_from_f64 b (pf (sf f)) = Done (Some n)) \/
        (exists t m, sf f = 45 :: t /\ float_text t /\ num_from_f64 b (pf t) = Done (Some m) /\ num_neg b m = Done n)
    end.

  (** Words with a meaning of their own. *)
  Definition reserved (x : str) : bool :=
    existsb (seqb x) [lit "null"; lit "true"; lit "false"; lit "for"].
  Definition variable (x : str) : Prop := is_ident u x = true /\ reserved x = false.

  (** Expressions which can be operands without parentheses; those to which [.x] can be appended. *)
  Definition is_cond (e : expr) : bool := match e with ECond _ _ _ => true | _ => false end.
  Definition is_term (e : expr) : bool := match e with ECond _ _ _ | EBinary _ _ _ => false | _ => true end.
  Definition is_base (e : expr) : bool :=
    match e with ECond _ _ _ | EBinary _ _ _ | EUnary _ _ | ETrav _ _ => false | _ => true end.
  (** The operands of nested operations. *)
  Fixpoint operands (e : expr) : optree expr binop :=
    match e with EBinary l o r => Node (operands l) o (operands r) | e => Leaf e end.

  (** The text starts with a digit. *)
  Fixpoint digit_first (e : expr) : bool :=
    match e with
    | ENum n => match fshow_num sf n with x :: _ => is_digit x | [] => false end
    | ETrav e _ => digit_first e
    | _ => false
    end.
  (** The text starts with none of "-", "!", "[", "(" and "<". *)
  Fixpoint soft (e : expr) : bool :=
    match e with
    | EArr _ | EUnary _ _ | EParen _ | EFor _ _ _ None _ _ _ | ETpl (Heredoc _ _ _) => false
    | ENum n => match fshow_num sf n with x :: _ => is_digit x | [] => false end
    | ETrav e _ => soft e
    | ECond a _ _ => soft a
    | EBinary l _ _ => soft l
    | _ => true
    end.
  Definition soft_key (k : okey expr) : bool := match k with KIdent _ => true | KExpr e => soft e end.
  (** An array, a call or a [for] expression has an influence on how the text after it is read: line
      breaks do not end the expression. *)
  Fixpoint wide (e : expr) : bool :=
    match e with
    | EArr _ | ECall _ _ _ | EFor _ _ _ _ _ _ _ => true
    | ETrav e _ => wide e
    | EUnary _ e => wide e
    | EBinary l _ r => wide l || wide r
    | ECond a _ d => wide a || wide d
    | _ => false
    end.

  (** What the keys of an object and an expression are read as.  They are unchanged, but for keys which
      are strings and are printed without quotes (keys are assumed to have no objects in them), and for
      heredocs with "<<-", which become heredocs with "<<". *)
  Definition read_key (k : okey expr) : okey expr :=
    match k with KExpr (EStr s) => if c_ident_keys c && is_ident u s then KIdent s else k | k => k end.
  Fixpoint as_read (e : expr) : expr :=
    match e with
    | ENull | EBool _ | ENum _ | EStr _ | EVar _ | ETpl (QuotedString _) => e
    | ETpl (Heredoc d s _) => ETpl (Heredoc d s HdNone)
    | EArr l => EArr (map as_read l)
    | EObj m => EObj (map (fun p => (read_key (fst p), as_read (snd p))) m)
    | ETrav e ops =>
        ETrav (as_read e) (map (fun o => match o with Index e => Index (as_read e) | o => o end) ops)
    | ECall f args ex => ECall f (map as_read args) ex
    | EParen e => EParen (as_read e)
    | ECond a d f => ECond (as_read a) (as_read d) (as_read f)
    | EUnary o e => EUnary o (as_read e)
    | EBinary l o r => EBinary (as_read l) o (as_read r)
    | EFor kv vv coll key val g cond =>
        EFor kv vv (as_read coll) (option_map as_read key) (as_read val) g (option_map as_read cond)
    end.

  (** No heredoc with "<<-" is in the expression (outside of keys). *)
  Fixpoint strict (e : expr) : Prop :=
    match e with
    | ENull | EBool _ | ENum _ | EStr _ | EVar _ | ETpl (QuotedString _) | ETpl (Heredoc _ _ HdNone) => True
    | ETpl (Heredoc _ _ HdIndent) => False
    | EArr l => lall strict l
    | EObj m => lall (fun p => strict (snd p)) m
    | ETrav e ops => strict e /\ lall (fun o => match o with Index e => strict e | _ => True end) ops
    | ECall _ args _ => lall strict args
    | EParen e | EUnary _ e => strict e
    | ECond a d f => strict a /\ strict d /\ strict f
    | EBinary l _ r => strict l /\ strict r
    | EFor _ _ coll key val _ cond => strict coll /\ oallp strict key /\ strict val /\ oallp strict cond
    end.

  (** The text of a heredoc has no indentation which is taken away when it is read behind "<<-": it has no
      interpolations and a line which is not indented, none of its lines is indented, or one of them
      starts with an interpolation or directive.  (Documents which are parsed are of this kind, but for
      those with both an unindented line and an interpolation: C21_dedented_refuted.) *)
  Definition unindented (es : list EAst.xelem) : Prop :=
    let t := map (fun e => match e with EAst.XLit _ s => DedentModel.TLit s | e => DedentModel.TOther e end) es in
    let v := DedentSpec.symbols t in
    DedentSpec.wf_template false t /\
    ((exists s, t = [DedentModel.TLit s] /\ In 0%nat (DedentSpec.indentations v)) \/
     Forall (fun n => n = 0%nat) (DedentSpec.indentations v) \/
     exists v1 e v2, v = v1 ++ DedentSpec.El e :: v2 /\ (v1 = [] \/ exists k, v1 = k ++ [DedentSpec.Ch 10])).

  (** Templates: [s] is the text of a template [es] which is read back and whose text is not changed by
      this.  A quoted template is printed between quotes as it is, so [s] has to be the text of [es] inside of
      quotes, with escape sequences, as well as outside of quotes, without them. *)
  Definition tplexpr_readable (t : tplexpr) : Prop :=
    match t with
    | QuotedString s =>
        exists es, let e := EAst.XTpl EAst.no_meta es in
          BackSpec.ok u b pf sf false false false e /\ SameSpec.settled e /\
          EncModel.show_expr sf e = [34] ++ s ++ [34] /\ EncModel.show_tpl sf (EAst.XTempl es None) = s
    | Heredoc d s m =>
        exists es, let e := EAst.XHeredoc EAst.no_meta d (EAst.XTempl es None) None EAst.REmpty in
          BackSpec.ok u b pf sf false false false e /\ SameSpec.settled e /\ EncModel.show_tpl sf (EAst.XTempl es None) = s /\
          match m with HdNone => True | HdIndent => unindented es end
    end.

  Fixpoint readable (e : expr) : Prop :=
    match e with
    | ENull | EBool _ => True
    | ENum n => num_readable n
    | EStr s => escape_ok s = true
    | EVar x => variable x
    | EArr l => lall readable l
    | EObj m =>
        lall (fun p =>
          match fst p with
          | KIdent x => variable x
          | KExpr (EVar _) => False
          | KExpr (EStr s) => if c_ident_keys c && is_ident u s then reserved s = false else escape_ok s = true
          | KExpr e => plain e = true /\ readable e
          end /\ readable (snd p)) m /\
        ForallOrdPairs apart_keys (map (fun p => read_key (fst p)) m) /\
        chain (fun p q => wide (snd p) = true -> soft_key (fst q) = true) m
    | ETpl t => tplexpr_readable t
    | ETrav e ops =>
        is_base e = true /\ ops <> [] /\ readable e /\
        match e, ops with ENum _, LegacyIndex _ :: _ => False | _, _ => True end /\
        lall (fun o =>
          match o with
          | AttrSplat | FullSplat => True
          | GetAttr x => is_ident u x = true
          | Index e => readable e
          | LegacyIndex i => (Z.of_N i <= u64_max)%Z
          end) ops
    | ECall f args ex =>
        let names := fn_namespace f ++ [fn_name f] in
        forallb (is_ident u) names = true /\ hd [] names <> lit "for" /\ lall readable args /\
        (ex = true -> args <> [])
    | EParen e => readable e
    | ECond a d f => is_cond a = false /\ readable a /\ readable d /\ readable f
    | EUnary o e => is_term e = true /\ readable e /\ (o = Neg -> digit_first e = false)
    | EBinary l o r =>
        is_cond l = false /\ is_cond r = false /\ readable l /\ readable r /\
        let t := Node (operands l) o (operands r) in
        grouped (fun o => o) t /\ ~ chained (map fst (tail t))
    | EFor kv vv coll key val g cond =>
        oallp (fun x => is_ident u x = true) kv /\ is_ident u vv = true /\ readable coll /\
        oallp readable key /\ readable val /\ oallp readable cond /\ (key = None -> g = false)
    end.

  (** Bodies: identifiers are valid, and no two attributes of a body have the same key. *)
  Definition label_readable (l : blabel) : Prop :=
    match l with BLIdent x => is_ident u x = true | BLString s => escape_ok s = true end.
  Fixpoint struct_readable (s : struct_) : Prop :=
    match s with
    | SAttribute k e => is_ident u k = true /\ readable e
    | SBlk i ls l =>
        is_ident u i = true /\ lall label_readable ls /\ lall struct_readable l /\ NoDup (attr_keys l)
    end.
  Fixpoint struct_as_read (s : struct_) : struct_ :=
    match s with
    | SAttribute k e => SAttribute k (as_read e)
    | SBlk i ls l => SBlk i ls (map struct_as_read l)
    end.
  Fixpoint struct_strict (s : struct_) : Prop :=
    match s with SAttribute _ e => strict e | SBlk _ _ l => lall struct_strict l end.
  Definition body_readable (l : rbody) : Prop := lall struct_readable l /\ NoDup (attr_keys l).

  (** A text with an interpolation or directive in it: a marker, followed by something, whose first
      character is not doubled.  [hcl::format] takes such strings for templates. *)
  Definition marked (s : str) : Prop :=
    exists p m x r, s = p ++ m :: 123 :: x :: r /\ (m = 36 \/ m = 37) /\ last p 0 <> m.

  (** Values: only the strings and the keys matter. *)
  Fixpoint value_readable (v : value) : Prop :=
    match v with
    | VNull | VBool _ => True
    | VNum n => num_readable n
    | VStr s => escape_ok s = true /\ ~ marked s
    | VArr l => lall value_readable l
    | VObj m =>
        lall (fun p => (if c_ident_keys c && is_ident u (fst p) then reserved (fst p) = false
                        else escape_ok (fst p) = true) /\ value_readable (snd p)) m /\
        NoDup (map fst m)
    end.
End Readable.

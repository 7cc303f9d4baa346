(** * The expression an evaluation error names (crates/hcl-rs/src/eval)

    [EvalModel] computes the kind of an error only.  This is the same evaluator with contexts that
    remember the expression which is being evaluated, and errors that carry the expression
    [Context::error] attaches; it is what [Error::expr] returns (eval/error.rs:131-134).
    [BlameProofs.beval_kind] shows that the two evaluators agree on everything else, so the
    simplifications of [EvalModel] apply here as well, except the first two. *)
From Coq Require Import ZArith NArith Bool String List.
From Verif Require Import Res Str NumberModel PrimModel Ast EvalModel.
From Verif Require MapModel.
Import ListNotations.
Open Scope N_scope.

(** ** Contexts *)

(** [Context], mod.rs:297-302, with the expression; a context is its own scope followed by those of
    its ancestors. *)
Definition bctx := list (scope * option expr).

(** A context a user can build: [Context::new] (mod.rs:317-319) and declarations; it holds no
    expression and has no parent. *)
Definition public (c : ctx) : bctx := map (fun s => (s, None)) c.

(** [Context::child], mod.rs:322-326, and [child_with_expr], 330-334. *)
Definition bchild (c : bctx) : bctx := (empty_scope, None) :: c.
Definition child_with_expr (c : bctx) (e : expr) : bctx := (empty_scope, Some e) :: c.

(** [Context::declare_var], mod.rs:345-351. *)
Definition bdeclare_var (x : str) (v : value) (c : bctx) : bctx :=
  match c with
  | [] => []
  | (s, e) :: c => (Scope (fst (MapModel.insert seqb x v (sc_vars s))) (sc_funcs s), e) :: c
  end.

(** [Context::expr], mod.rs:429-431, and [parent_expr], 433-435. *)
Fixpoint ctx_expr (c : bctx) : option expr :=
  match c with
  | [] => None
  | (_, Some e) :: _ => Some e
  | (_, None) :: c => ctx_expr c
  end.
Definition parent_expr (c : bctx) : option expr := match c with [] => None | _ :: c => ctx_expr c end.
Definition own_expr (c : bctx) : option expr := match c with (_, o) :: _ => o | [] => None end.

(** The expression [Context::error] attaches, mod.rs:404-415. *)
Definition named (c : bctx) : option expr :=
  match parent_expr c with Some e => Some e | None => own_expr c end.

(** ** Results: a failure carries the expression *)
Inductive bres (A : Type) := BOk (a : A) | BFail (f : fail) (b : option expr).
Arguments BOk {A}. Arguments BFail {A}.
Definition bbind {A B} (x : bres A) (f : A -> bres B) : bres B :=
  match x with BOk a => f a | BFail e b => BFail e b end.
Definition bmap {A B} (f : A -> B) (x : bres A) : bres B :=
  match x with BOk a => BOk (f a) | BFail e b => BFail e b end.
(** A step whose errors are made by [Context::error] of the context [c]. *)
Definition at_ctx {A} (c : bctx) (x : eres A) : bres A :=
  match x with Ok a => BOk a | Fail f => BFail f (named c) end.

Section Collect.
  Context {A B : Type} (f : A -> bres B).
  Fixpoint bcollect (l : list A) : bres (list B) :=
    match l with
    | [] => BOk []
    | a :: l => bbind (f a) (fun b => bmap (cons b) (bcollect l))
    end.
End Collect.

(** [Context::lookup_var], mod.rs:390-393, and [lookup_func], 399-402. *)
Definition blookup_var (c : bctx) (x : str) : bres value := at_ctx c (lookup_var (map fst c) x).
Definition blookup_func (c : bctx) (f : funcname) : bres funcdef := at_ctx c (lookup_func (map fst c) f).

(** [IntoIter::next_ctx], expr.rs:205-215. *)
Definition bnext_ctx (c : bctx) (key_var : option str) (value_var : str) (k v : value) : bctx :=
  let c := bchild c in
  let c := match key_var with Some x => bdeclare_var x k c | None => c end in
  bdeclare_var value_var v c.

(** ** Traversals, arguments and loops *)

(** [evaluate_splat], expr.rs:71-86. *)
Definition bsplat (f : value -> bres value) (v : value) : bres value :=
  match v with
  | VArr l => bmap VArr (bcollect f l)
  | VNull => BOk (VArr [])
  | _ => bmap (fun x => VArr [x]) (f v)
  end.

(** The attribute accesses consumed by an attribute splat, expr.rs:43-55. *)
Fixpoint battr_path (c : bctx) (ops : list (trop (bres value))) (v : value) : bres value :=
  match ops with
  | GetAttr s :: ops => bbind (at_ctx c (object_value v s)) (battr_path c ops)
  | _ => BOk v
  end.

(** [evaluate_traversal], expr.rs:30-69; the errors of the steps are made in the traversal's
    context, those of an index expression are its own. *)
Fixpoint btraverse (c : bctx) (skip : bool) (ops : list (trop (bres value))) (v : value) {struct ops} : bres value :=
  match ops with
  | [] => BOk v
  | LegacyIndex i :: ops => bbind (at_ctx c (array_value v i)) (btraverse c false ops)
  | Index r :: ops =>
      bbind (bbind r (fun i => at_ctx c (index_value v i))) (btraverse c false ops)
  | GetAttr s :: ops =>
      if skip then btraverse c true ops v
      else bbind (at_ctx c (object_value v s)) (btraverse c false ops)
  | AttrSplat :: ops => bbind (bsplat (battr_path c ops) v) (btraverse c true ops)
  | FullSplat :: ops => bsplat (btraverse c false ops) v
  end.

(** Arguments of [FuncCall::evaluate], impls.rs:314-320. *)
Fixpoint bcall_args (c : bctx) (expand_final : bool) (args : list (bres value)) : bres (list value) :=
  match args with
  | [] => BOk []
  | [a] => if expand_final then bbind a (fun v => at_ctx c (as_array v)) else bmap (fun v => [v]) a
  | a :: args => bbind a (fun v => bmap (cons v) (bcall_args c expand_final args))
  end.

(** Iteration over a [Collection], expr.rs:186-232. *)
Section ForLoop.
  Context {A : Type} (mk : value -> value -> bctx) (cond : bctx -> bres bool) (body : A -> bctx -> bres A).
  Fixpoint bfor_loop (items : list (value * value)) (acc : A) : bres A :=
    match items with
    | [] => BOk acc
    | (k, v) :: items =>
        let c := mk k v in
        bbind (cond c) (fun b =>
          if b then bbind (body acc c) (bfor_loop items) else bfor_loop items acc)
    end.
End ForLoop.

(** The loop of [evaluate_template], template.rs:13-25. *)
Section TplLoop.
  Context (out : elem -> strip -> strip -> bres str) (all : list elem) (prev next : strip).
  Fixpoint btpl_loop (i : nat) (els : list elem) (acc : str) : bres str :=
    match els with
    | [] => BOk acc
    | el :: els =>
        bbind (at_ctx [] (neighbours all prev next i)) (fun pn =>
          bbind (out el (fst pn) (snd pn)) (fun s => btpl_loop (S i) els (acc ++ s)))
    end.
End TplLoop.

(** ** The evaluator *)
Section Eval.
  Context (bd : build) (parse_tpl : str -> option template)
          (show_value : value -> str) (show_num : num -> str).

  (** [Evaluate::evaluate] for [Expression], impls.rs:85-100, and for its parts (see
      [EvalModel.eval_expr]): everything is evaluated in a child context which holds the
      expression. *)
  Section Expr.
    Context (tpl : bctx -> str -> bres value).
    Fixpoint beval_expr (c : bctx) (e : expr) {struct e} : bres value :=
      let c := child_with_expr c e in
      match e with
      | ENull => BOk VNull
      | EBool b => BOk (VBool b)
      | ENum n => BOk (VNum n)
      | EStr s => BOk (VStr s)
      | EArr l => bmap VArr (bcollect (beval_expr c) l)
      | EObj m =>
          bmap (fun l => VObj (MapModel.from_iter seqb l))
            (bcollect (fun p =>
               bbind (match fst p with
                      | KIdent s => BOk s
                      | KExpr e => bbind (beval_expr c e) (fun v => at_ctx c (object_key show_num v))
                      end)
                 (fun k => bmap (fun v => (k, v)) (beval_expr c (snd p)))) m)
      | ETpl t => tpl c (tpl_text t)
      | EVar x => blookup_var c x
      | ETrav e ops =>
          bbind (beval_expr c e)
            (btraverse c false (map (fun o => match o with
                                              | AttrSplat => AttrSplat
                                              | FullSplat => FullSplat
                                              | GetAttr s => GetAttr s
                                              | LegacyIndex i => LegacyIndex i
                                              | Index e => Index (beval_expr c e)
                                              end) ops))
      | ECall f args expand =>
          bbind (blookup_func c f) (fun fd =>
            bbind (bcall_args c expand (map (beval_expr c) args)) (fun vs =>
              at_ctx c (match call_func fd vs with inl v => Ok v | inr err => Err (KFuncCall f err) end)))
      | EParen e => beval_expr c e
      | ECond a t f =>
          bbind (beval_expr c a) (fun v => bbind (at_ctx c (as_bool v)) (fun b =>
            if b then beval_expr c t else beval_expr c f))
      | EUnary o e => bbind (beval_expr c e) (fun v => at_ctx c (eval_unary bd o v))
      | EBinary l o r =>
          bbind (beval_expr c l) (fun v => bbind (beval_expr c r) (fun w => at_ctx c (eval_binary bd v o w)))
      | EFor kv vv coll key val grouping cond =>
          let test := fun c => match cond with
                               | None => BOk true
                               | Some e => bbind (beval_expr c e) (fun v => at_ctx c (as_bool v))
                               end in
          bbind (bbind (beval_expr c coll) (fun v => at_ctx c (collection v))) (fun items =>
            match key with
            | Some key =>
                bmap VObj (bfor_loop (bnext_ctx c kv vv) test
                  (fun acc c => bbind (bbind (beval_expr c key) (fun v => at_ctx c (object_key show_num v))) (fun k =>
                     bbind (beval_expr c val) (fun v => at_ctx c (entry_insert grouping k v acc)))) items [])
            | None =>
                bmap VArr (bfor_loop (bnext_ctx c kv vv) test
                  (fun acc c => bmap (fun v => acc ++ [v]) (beval_expr c val)) items [])
            end)
      end.
  End Expr.

  (** Template evaluation, template.rs, given the evaluator [ev] of the expressions inside. *)
  Section Template.
    Context (ev : bctx -> expr -> bres value).

    (** [evaluate_element], template.rs:30-45, [evaluate_interpolation] 81-93,
        [evaluate_if_directive] 102-115 and [evaluate_for_directive] 117-135. *)
    Fixpoint beval_elem (c : bctx) (el : elem) (prev next : strip) {struct el} : bres str :=
      match el with
      | ElLit s => BOk (strip_literal s prev next)
      | ElInterp e _ => bmap (interp_str show_value) (ev c e)
      | ElIf cond t f if_s else_s endif_s =>
          bbind (bbind (ev c cond) (fun v => at_ctx c (as_bool v))) (fun b =>
            if b then
              btpl_loop (beval_elem c) t if_s (match f with Some _ => else_s | None => endif_s end) 0 t []
            else match f with
                 | Some f => btpl_loop (beval_elem c) f else_s endif_s 0 f []
                 | None => BOk []
                 end)
      | ElFor kv vv coll t for_s endfor_s =>
          bbind (bbind (ev c coll) (fun v => at_ctx c (collection v))) (fun items =>
            bfor_loop (bnext_ctx c kv vv) (fun _ => BOk true)
              (fun acc c => bmap (fun s => acc ++ s) (btpl_loop (beval_elem c) t for_s endfor_s 0 t []))
              items [])
      end.

    (** [Template::evaluate], impls.rs:245-249. *)
    Definition beval_template (c : bctx) (t : template) : bres str :=
      btpl_loop (beval_elem c) t StripNone StripNone 0 t [].

    (** [TemplateExpr::evaluate], impls.rs:222-237.  A parse error is converted by [From<crate::Error>
        for Error] (error.rs:154-158): it names no expression. *)
    Definition beval_tpl_text (c : bctx) (s : str) : bres value :=
      match parse_tpl s with
      | None => BFail (FErr KMessage) None
      | Some [ElInterp e _] => ev c e
      | Some t => bmap VStr (beval_template c t)
      end.
  End Template.

  (** [Expression::evaluate]; [n] bounds the nesting of templates. *)
  Fixpoint beval (n : nat) : bctx -> expr -> bres value :=
    beval_expr (match n with
                | O => fun _ _ => BFail FFuel None
                | S n => beval_tpl_text (beval n)
                end).

  (** ** Bodies and evaluation in place *)
  Section InPlace.
    Context (ev : bctx -> expr -> bres value).

    (** [Body::evaluate], impls.rs:11-15, [Structure] 27-32, [Attribute] 47-52, [Block] 64-70. *)
    Fixpoint beval_struct (c : bctx) (s : struct_) {struct s} : bres struct_ :=
      match s with
      | SAttribute k e => bmap (fun v => SAttribute k (expr_of_value v)) (ev c e)
      | SBlk i ls b => bmap (SBlk i ls) (bcollect (beval_struct c) b)
      end.
    Definition beval_body (c : bctx) (b : rbody) : bres rbody := bcollect (beval_struct c) b.

    (** [Expression::evaluate_in_place] after the nested expressions, impls.rs:109-114. *)
    Definition breplace (c : bctx) (e : expr) (errs : list (fail * option expr))
      : expr * list (fail * option expr) :=
      match errs with
      | _ :: _ => (e, errs)
      | [] => match ev c e with BOk v => (expr_of_value v, []) | BFail f b => (e, [(f, b)]) end
      end.

    (** [Expression::evaluate_in_place], impls.rs:102-115, and [evaluate_nested_exprs], 118-133: the
        nested expressions are evaluated in a child context which holds the original expression
        ([expr_clone]).  See [EvalModel.in_place]. *)
    Fixpoint bin_place (c0 : bctx) (e0 : expr) {struct e0} : expr * list (fail * option expr) :=
      let c := child_with_expr c0 e0 in
      match e0 with
      | ENull | EBool _ | ENum _ | EStr _ => (e0, [])
      | EArr l =>
          let rs := map (bin_place c) l in
          breplace c0 (EArr (map fst rs)) (flat_map snd rs)
      | EObj m =>
          let rs := map (fun p =>
            let (k, ek) := match fst p with
                           | KIdent s => (KIdent s, [])
                           | KExpr e => let (e, errs) := bin_place c e in (KExpr e, errs)
                           end in
            let (v, ev) := bin_place c (snd p) in
            ((k, v), ek ++ ev)) m in
          breplace c0 (EObj (eobj_collect (map fst rs))) (flat_map snd rs)
      | ETpl _ | EVar _ => breplace c0 e0 []
      | ETrav e ops =>
          let rs := map (fun o => match o with
                                  | Index e => let (e, errs) := bin_place c e in (Index e, errs)
                                  | o => (o, [])
                                  end) ops in
          breplace c0 (ETrav e (map fst rs)) (flat_map snd rs)
      | ECall f args expand =>
          let rs := map (bin_place c) args in
          breplace c0 (ECall f (map fst rs) expand) (flat_map snd rs)
      | EParen e => let (e, errs) := bin_place c e in breplace c0 (EParen e) errs
      | ECond a t f =>
          match bbind (ev c a) (fun v => at_ctx c (as_bool v)) with
          | BFail err b => (e0, [(err, b)])
          | BOk true => let (t, errs) := bin_place c t in breplace c0 (ECond (EBool true) t f) errs
          | BOk false => let (f, errs) := bin_place c f in breplace c0 (ECond (EBool false) t f) errs
          end
      | EUnary o e => let (e, errs) := bin_place c e in breplace c0 (EUnary o e) errs
      | EBinary l o r =>
          let (l, e1) := bin_place c l in
          let (r, e2) := bin_place c r in
          breplace c0 (EBinary l o r) (e1 ++ e2)
      | EFor kv vv coll key val g cond =>
          let (coll, errs) := bin_place c coll in
          breplace c0 (EFor kv vv coll key val g cond) errs
      end.

    (** [Template::evaluate_in_place], impls.rs:251-278. *)
    Fixpoint bin_place_elem (c : bctx) (el : elem) {struct el} : elem * list (fail * option expr) :=
      match el with
      | ElLit _ => (el, [])
      | ElInterp e s => let (e, errs) := bin_place c e in (ElInterp e s, errs)
      | ElIf cond t f s1 s2 s3 =>
          let (cond, e1) := bin_place c cond in
          let ts := map (bin_place_elem c) t in
          match f with
          | Some f => let fs := map (bin_place_elem c) f in
                      (ElIf cond (map fst ts) (Some (map fst fs)) s1 s2 s3,
                       e1 ++ flat_map snd ts ++ flat_map snd fs)
          | None => (ElIf cond (map fst ts) None s1 s2 s3, e1 ++ flat_map snd ts)
          end
      | ElFor kv vv coll t s1 s2 =>
          let (coll, e1) := bin_place c coll in
          let ts := map (bin_place_elem c) t in
          (ElFor kv vv coll (map fst ts) s1 s2, e1 ++ flat_map snd ts)
      end.
    Definition bin_place_template (c : bctx) (t : template) : template * list (fail * option expr) :=
      let rs := map (bin_place_elem c) t in (map fst rs, flat_map snd rs).

    (** [Body::evaluate_in_place], impls.rs:17-22, [Structure] 37-42, [Attribute] 57-59, [Block]
        75-77. *)
    Fixpoint bin_place_struct (c : bctx) (s : struct_) {struct s} : struct_ * list (fail * option expr) :=
      match s with
      | SAttribute k e => let (e, errs) := bin_place c e in (SAttribute k e, errs)
      | SBlk i ls b =>
          let rs := map (bin_place_struct c) b in (SBlk i ls (map fst rs), flat_map snd rs)
      end.
    Definition bin_place_body (c : bctx) (b : rbody) : rbody * list (fail * option expr) :=
      let rs := map (bin_place_struct c) b in (map fst rs, flat_map snd rs).
  End InPlace.
End Eval.

(** * Expression, template and body evaluation (crates/hcl-rs/src/eval)

    Modelled: contexts, user function signature checks and calls, traversals, splats, collections,
    for expressions, operators, templates with strip markers, [evaluate] and [evaluate_in_place] for
    expressions, templates and bodies.

    Simplifications:
    - Errors carry their [ErrorKind] but not the expression [Context::error] (mod.rs:405-415)
      attaches for display; message texts of argument errors are reduced to their kind and position.
    - The child context [Expression::evaluate] creates to remember the current expression
      (impls.rs:86, mod.rs:330-334) declares nothing; the model evaluates in the parent instead
      ([EvalProofs.eval_empty_child] shows that this is the same).
    - The template parser, [Display] of values and [Display] of numbers are parameters.
    - A user function is a total function of its [FuncArgs]: one that is deterministic and neither
      panics nor diverges.
    - Template text is parsed during evaluation, so evaluation recurses through the parser.  The
      model bounds the nesting of templates inside templates by a fuel argument and reports
      [FFuel] when it is used up; every other recursion is structural. *)
From Coq Require Import ZArith NArith Bool String List.
From Verif Require Import Res Str NumberModel PrimModel Ast.
From Verif Require MapModel.
Import ListNotations.
Open Scope N_scope.

(** ** User functions (eval/func.rs) *)

(** [ParamType], func.rs:17-35. *)
Inductive ptype :=
| PAny | PBool | PNumber | PString
| PArray (t : ptype) | PObject (t : ptype) | POneOf (ts : list ptype) | PNullable (t : ptype).

(** [ParamType::is_satisfied_by], func.rs:65-82. *)
Fixpoint satisfied (t : ptype) (v : value) {struct t} : bool :=
  match t with
  | PAny => true
  | PBool => match v with VBool _ => true | _ => false end
  | PNumber => match v with VNum _ => true | _ => false end
  | PString => match v with VStr _ => true | _ => false end
  | PArray t => match v with VArr l => forallb (satisfied t) l | _ => false end
  | PObject t => match v with VObj m => forallb (fun e => satisfied t (snd e)) m | _ => false end
  | PNullable t => match v with VNull => true | _ => satisfied t v end
  | POneOf ts => existsb (fun t => satisfied t v) ts
  end.

(** [FuncArgs], func.rs:359-391. *)
Record fargs := FArgs { fa_values : list value; fa_pos_len : nat }.
Definition positional_args (a : fargs) : list value := firstn (fa_pos_len a) (fa_values a).
Definition variadic_args (a : fargs) : list value := skipn (fa_pos_len a) (fa_values a).

(** [FuncDef], func.rs:176-180. *)
Record funcdef := FuncDef {
  fd_func : fargs -> value + str;
  fd_params : list ptype;
  fd_variadic : option ptype }.

(** The errors of [FuncDef::call]: wrong number of arguments, ill-typed positional or variadic
    argument (with its position), or the error the function itself returned. *)
Inductive callerr := CArity (expected got : nat) | CPos (pos : nat) | CVar (pos : nat) | CUser (msg : str).

(** The checking loops of [FuncDef::call]: position of the first ill-typed argument. *)
Fixpoint bad_positional (pos : nat) (args : list value) (params : list ptype) : option nat :=
  match args, params with
  | a :: args, p :: params => if satisfied p a then bad_positional (S pos) args params else Some pos
  | _, _ => None
  end.
Fixpoint bad_variadic (pos : nat) (p : ptype) (args : list value) : option nat :=
  match args with
  | a :: args => if satisfied p a then bad_variadic (S pos) p args else Some pos
  | [] => None
  end.

(** [FuncDef::call], func.rs:210-246. *)
Definition call_func (fd : funcdef) (args : list value) : value + callerr :=
  let params_len := length (fd_params fd) in
  let args_len := length args in
  if Nat.ltb args_len params_len
     || (match fd_variadic fd with None => true | Some _ => false end && Nat.ltb params_len args_len)
  then inr (CArity params_len args_len)
  else
    match bad_positional 0 (firstn params_len args) (fd_params fd) with
    | Some pos => inr (CPos pos)
    | None =>
        match match fd_variadic fd with
              | Some p => bad_variadic params_len p (skipn params_len args)
              | None => None
              end with
        | Some pos => inr (CVar pos)
        | None => match fd_func fd (FArgs args params_len) with
                  | inl v => inl v
                  | inr msg => inr (CUser msg)
                  end
        end
    end.

(** ** Errors and results *)

(** [ErrorKind], error.rs:193-214. *)
Inductive ekind :=
| KMessage
| KUndefinedVar (x : str)
| KUndefinedFunc (f : funcname)
| KUnexpected (v : value) (expected : str)
| KIndex (i : N)
| KUnaryOp (o : unop) (v : value)
| KBinaryOp (l : value) (o : binop) (r : value)
| KNoSuchKey (k : str)
| KKeyExists (k : str)
| KFuncCall (f : funcname) (e : callerr).

(** How an evaluation can fail: with an error, with a panic, or (model only) because the nesting
    bound was too small. *)
Inductive fail := FErr (k : ekind) | FPanic | FFuel.
Inductive eres (A : Type) := Ok (a : A) | Fail (f : fail).
Arguments Ok {A}. Arguments Fail {A}.
Definition Err {A} (k : ekind) : eres A := Fail (FErr k).
Definition ebind {A B} (x : eres A) (f : A -> eres B) : eres B :=
  match x with Ok a => f a | Fail e => Fail e end.
Definition emap {A B} (f : A -> B) (x : eres A) : eres B :=
  match x with Ok a => Ok (f a) | Fail e => Fail e end.
Definition of_res {A} (x : res A) : eres A := match x with Done a => Ok a | Panic => Fail FPanic end.

(** [iter().map(f).collect::<Result<Vec<_>, _>>()]: stops at the first failure. *)
Section Collect.
  Context {A B : Type} (f : A -> eres B).
  Fixpoint collect (l : list A) : eres (list B) :=
    match l with
    | [] => Ok []
    | a :: l => ebind (f a) (fun b => emap (cons b) (collect l))
    end.
End Collect.

(** ** Contexts (eval/mod.rs) *)

(** [Context], mod.rs:297-302, without the expression; a context is its own scope followed by
    those of its ancestors. *)
Record scope := Scope { sc_vars : list (str * value); sc_funcs : list (funcname * funcdef) }.
Definition ctx := list scope.

Definition empty_scope : scope := Scope [] [].
(** [Context::new], mod.rs:317-319 and [child], 322-326. *)
Definition new_ctx : ctx := [empty_scope].
Definition child (c : ctx) : ctx := empty_scope :: c.

(** [Context::declare_var], mod.rs:345-351, and [declare_func], 379-384. *)
Definition declare_var (x : str) (v : value) (c : ctx) : ctx :=
  match c with
  | [] => []
  | s :: c => Scope (fst (MapModel.insert seqb x v (sc_vars s))) (sc_funcs s) :: c
  end.
Definition declare_func (f : funcname) (d : funcdef) (c : ctx) : ctx :=
  match c with
  | [] => []
  | s :: c => Scope (sc_vars s) (fst (MapModel.insert funcname_eqb f d (sc_funcs s))) :: c
  end.

(** [Context::var], mod.rs:417-421, and [func], 423-427. *)
Fixpoint ctx_var (c : ctx) (x : str) : option value :=
  match c with
  | [] => None
  | s :: c => match MapModel.get seqb x (sc_vars s) with Some v => Some v | None => ctx_var c x end
  end.
Fixpoint ctx_func (c : ctx) (f : funcname) : option funcdef :=
  match c with
  | [] => None
  | s :: c => match MapModel.get funcname_eqb f (sc_funcs s) with Some d => Some d | None => ctx_func c f end
  end.
(** [lookup_var], mod.rs:390-393, and [lookup_func], 399-402. *)
Definition lookup_var (c : ctx) (x : str) : eres value :=
  match ctx_var c x with Some v => Ok v | None => Err (KUndefinedVar x) end.
Definition lookup_func (c : ctx) (f : funcname) : eres funcdef :=
  match ctx_func c f with Some d => Ok d | None => Err (KUndefinedFunc f) end.

(** [IntoIter::next_ctx], expr.rs:205-215: the scope for one element of a collection. *)
Definition next_ctx (c : ctx) (key_var : option str) (value_var : str) (k v : value) : ctx :=
  let c := child c in
  let c := match key_var with Some x => declare_var x k c | None => c end in
  declare_var value_var v c.

(** ** Values in context *)

(** [evaluate_bool], expr.rs:4-9; [evaluate_array], 23-28 (on the evaluated expression). *)
Definition as_bool (v : value) : eres bool :=
  match v with VBool b => Ok b | _ => Err (KUnexpected v (lit "a boolean")) end.
Definition as_array (v : value) : eres (list value) :=
  match v with VArr l => Ok l | _ => Err (KUnexpected v (lit "an array")) end.
Definition bool_str (b : bool) : str := if b then lit "true" else lit "false".

(** [evaluate_collection], expr.rs:121-134. *)
Fixpoint enumerate (i : Z) (l : list value) : list (value * value) :=
  match l with [] => [] | v :: l => (VNum (num_of_u64 i), v) :: enumerate (i + 1)%Z l end.
Definition collection (v : value) : eres (list (value * value)) :=
  match v with
  | VArr l => Ok (enumerate 0 l)
  | VObj m => Ok (map (fun e => (VStr (fst e), snd e)) m)
  | _ => Err (KUnexpected v (lit "an array or object"))
  end.

(** [evaluate_array_value], expr.rs:99-110; [evaluate_object_value], 112-119.  Indices are usize on
    a 64-bit target. *)
Definition array_value (v : value) (i : N) : eres value :=
  match v with
  | VArr l => if i <? N.of_nat (length l)
              then match nth_error l (N.to_nat i) with Some x => Ok x | None => Fail FPanic end
              else Err (KIndex i)
  | _ => Err (KUnexpected v (lit "an array"))
  end.
Definition object_value (v : value) (k : str) : eres value :=
  match v with
  | VObj m => match MapModel.get seqb k m with Some x => Ok x | None => Err (KNoSuchKey k) end
  | _ => Err (KUnexpected v (lit "an object"))
  end.
(** [evaluate_index_expr], expr.rs:88-97 (on the evaluated index). *)
Definition index_value (v i : value) : eres value :=
  match i with
  | VStr k => object_value v k
  | VNum n => match as_u64 n with
              | Some z => array_value v (Z.to_N z)
              | None => Err (KUnexpected i (lit "an unsigned integer"))
              end
  | _ => Err (KUnexpected i (lit "an unsigned integer or string"))
  end.

(** [evaluate_splat], expr.rs:71-86. *)
Definition splat (f : value -> eres value) (v : value) : eres value :=
  match v with
  | VArr l => emap VArr (collect f l)
  | VNull => Ok (VArr [])
  | _ => emap (fun x => VArr [x]) (f v)
  end.

(** The attribute accesses at the front of a chain of operators (expr.rs:43-55). *)
Fixpoint attr_path (ops : list (trop (eres value))) (v : value) : eres value :=
  match ops with
  | GetAttr s :: ops => ebind (object_value v s) (attr_path ops)
  | _ => Ok v
  end.

(** [evaluate_traversal], expr.rs:30-69.  Index expressions come evaluated (a failure only counts
    when the index is reached).  [skip]: the attribute accesses at the front were consumed by an
    attribute splat. *)
Fixpoint traverse (skip : bool) (ops : list (trop (eres value))) (v : value) {struct ops} : eres value :=
  match ops with
  | [] => Ok v
  | LegacyIndex i :: ops => ebind (array_value v i) (traverse false ops)
  | Index r :: ops => ebind (ebind r (index_value v)) (traverse false ops)
  | GetAttr s :: ops =>
      if skip then traverse true ops v else ebind (object_value v s) (traverse false ops)
  | AttrSplat :: ops => ebind (splat (attr_path ops) v) (traverse true ops)
  | FullSplat :: ops => splat (traverse false ops) v
  end.

(** Arguments of [FuncCall::evaluate], impls.rs:314-320: the last one is expanded if asked for. *)
Fixpoint call_args (expand_final : bool) (args : list (eres value)) : eres (list value) :=
  match args with
  | [] => Ok []
  | [a] => if expand_final then ebind a as_array else emap (fun v => [v]) a
  | a :: args => ebind a (fun v => emap (cons v) (call_args expand_final args))
  end.

(** [UnaryOp::evaluate], impls.rs:382-395. *)
Definition eval_unary (bd : build) (o : unop) (v : value) : eres value :=
  match o, v with
  | Not, VBool b => Ok (VBool (negb b))
  | Neg, VNum n => emap VNum (of_res (num_neg bd n))
  | _, _ => Err (KUnaryOp o v)
  end.

(** [BinaryOp::evaluate], impls.rs:409-429.  The comparisons are [PartialOrd]'s default methods. *)
Definition eval_binary (bd : build) (l : value) (o : binop) (r : value) : eres value :=
  match o with
  | OpEq => Ok (VBool (value_eqb l r))
  | OpNotEq => Ok (VBool (negb (value_eqb l r)))
  | OpAnd => match l, r with VBool a, VBool b => Ok (VBool (a && b)) | _, _ => Err (KBinaryOp l o r) end
  | OpOr => match l, r with VBool a, VBool b => Ok (VBool (a || b)) | _, _ => Err (KBinaryOp l o r) end
  | _ =>
      match l, r with
      | VNum x, VNum y =>
          match o with
          | OpLessEq => Ok (VBool (match num_cmp x y with Some Lt | Some Eq => true | _ => false end))
          | OpGreaterEq => Ok (VBool (match num_cmp x y with Some Gt | Some Eq => true | _ => false end))
          | OpLess => Ok (VBool (match num_cmp x y with Some Lt => true | _ => false end))
          | OpGreater => Ok (VBool (match num_cmp x y with Some Gt => true | _ => false end))
          | OpPlus => emap VNum (of_res (num_add bd x y))
          | OpMinus => emap VNum (of_res (num_sub bd x y))
          | OpMul => emap VNum (of_res (num_mul bd x y))
          | OpDiv => emap VNum (of_res (num_div bd x y))
          | OpMod => emap VNum (of_res (num_rem bd x y))
          | _ => Err (KBinaryOp l o r)
          end
      | _, _ => Err (KBinaryOp l o r)
      end
  end.

(** One entry of an object-valued for expression, impls.rs:454-473: [unwrap] on a non-array is a
    panic. *)
Definition group_push (k : str) (v : value) (m : list (str * value)) : eres (list (str * value)) :=
  match MapModel.get seqb k m with
  | None => Ok (fst (MapModel.insert seqb k (VArr [v]) m))
  | Some (VArr l) => Ok (fst (MapModel.insert seqb k (VArr (l ++ [v])) m))
  | Some _ => Fail FPanic
  end.
Definition entry_insert (grouping : bool) (k : str) (v : value) (m : list (str * value))
  : eres (list (str * value)) :=
  if grouping then group_push k v m
  else match MapModel.get seqb k m with
       | Some _ => Err (KKeyExists k)
       | None => Ok (fst (MapModel.insert seqb k v m))
       end.

(** Iteration over a [Collection], expr.rs:186-232, driving a loop body: for every element, the
    element's scope is built, the condition filters, the body extends the result. *)
Section ForLoop.
  Context {A : Type} (mk : value -> value -> ctx) (cond : ctx -> eres bool) (body : A -> ctx -> eres A).
  Fixpoint for_loop (items : list (value * value)) (acc : A) : eres A :=
    match items with
    | [] => Ok acc
    | (k, v) :: items =>
        let c := mk k v in
        ebind (cond c) (fun b =>
          if b then ebind (body acc c) (for_loop items) else for_loop items acc)
    end.
End ForLoop.

(** ** Strip markers (eval/template.rs) *)

(** template.rs:50-52 *)
Definition is_space (c : chr) : bool := is_whitespace c && negb (c =? 13) && negb (c =? 10).

(** [trim_start_matches(is_space)] *)
Fixpoint trim_spaces (s : str) : str :=
  match s with c :: r => if is_space c then trim_spaces r else s | [] => [] end.

(** template.rs:54-60: leading spaces, then one line break. *)
Definition trim_start (s : str) : str :=
  match trim_spaces s with
  | 13 :: 10 :: r => r
  | 10 :: r => r
  | r => r
  end.

(** template.rs:62-68, on the reversed text: trailing spaces, then one line break. *)
Definition trim_end (s : str) : str :=
  rev (match trim_spaces (rev s) with
       | 10 :: 13 :: r => r
       | 10 :: r => r
       | r => r
       end).

(** [strip_literal], template.rs:49-79. *)
Definition strip_literal (s : str) (prev next : strip) : str :=
  let s := if strip_end prev then trim_start s else s in
  if strip_start next then trim_end s else s.

(** [Element::strip], template/mod.rs:218-226, and [Directive::strip], 304-313. *)
Definition elem_strip (el : elem) : strip :=
  match el with
  | ElLit _ => StripNone
  | ElInterp _ s => s
  | ElIf _ _ _ s _ e => strip_of (strip_start s, strip_end e)
  | ElFor _ _ _ _ s e => strip_of (strip_start s, strip_end e)
  end.

(** The strip modes next to the element at [i] (template.rs:13-22); an index out of range is a
    panic. *)
Definition neighbours (els : list elem) (prev next : strip) (i : nat) : eres (strip * strip) :=
  let len := length els in
  let at_ j := match nth_error els j with Some el => Ok (elem_strip el) | None => Fail FPanic end in
  if Nat.eqb i 0 && Nat.eqb len 1 then Ok (prev, next)
  else if Nat.eqb i 0 then emap (fun n => (prev, n)) (at_ (i + 1)%nat)
  else if Nat.eqb i (len - 1) then emap (fun p => (p, next)) (at_ (i - 1)%nat)
  else ebind (at_ (i - 1)%nat) (fun p => emap (fun n => (p, n)) (at_ (i + 1)%nat)).

(** The loop of [evaluate_template], template.rs:13-25; [out el prev next] is what an element
    appends to the result. *)
Section TplLoop.
  Context (out : elem -> strip -> strip -> eres str) (all : list elem) (prev next : strip).
  Fixpoint tpl_loop (i : nat) (els : list elem) (acc : str) : eres str :=
    match els with
    | [] => Ok acc
    | el :: els =>
        ebind (neighbours all prev next i) (fun pn =>
          ebind (out el (fst pn) (snd pn)) (fun s => tpl_loop (S i) els (acc ++ s)))
    end.
End TplLoop.

(** ** The evaluator *)
Section Eval.
  Context (bd : build) (parse_tpl : str -> option template)
          (show_value : value -> str) (show_num : num -> str).

  (** [evaluate_object_key], expr.rs:14-21 (on the evaluated key). *)
  Definition object_key (v : value) : eres str :=
    match v with
    | VStr s => Ok s
    | VBool b => Ok (bool_str b)
    | VNum n => Ok (show_num n)
    | _ => Err (KUnexpected v (lit "a string, boolean or number"))
    end.

  (** What an interpolation prints, template.rs:86-89. *)
  Definition interp_str (v : value) : str := match v with VStr s => s | _ => show_value v end.

  (** [Evaluate::evaluate] for [Expression], impls.rs:85-100, and for its parts: [Vec] 143-145,
      [Object] 170-174, [ObjectKey] 201-206, [Traversal] 286-290, [FuncCall] 308-324, [Conditional]
      336-342, [Operation] 361-437, [ForExpr] 444-485.  [tpl] evaluates the text of a template
      expression. *)
  Section Expr.
    Context (tpl : ctx -> str -> eres value).
    Fixpoint eval_expr (c : ctx) (e : expr) {struct e} : eres value :=
      match e with
      | ENull => Ok VNull
      | EBool b => Ok (VBool b)
      | ENum n => Ok (VNum n)
      | EStr s => Ok (VStr s)
      | EArr l => emap VArr (collect (eval_expr c) l)
      | EObj m =>
          emap (fun l => VObj (MapModel.from_iter seqb l))
            (collect (fun p =>
               ebind (match fst p with KIdent s => Ok s | KExpr e => ebind (eval_expr c e) object_key end)
                 (fun k => emap (fun v => (k, v)) (eval_expr c (snd p)))) m)
      | ETpl t => tpl c (tpl_text t)
      | EVar x => lookup_var c x
      | ETrav e ops =>
          ebind (eval_expr c e)
            (traverse false (map (fun o => match o with
                                           | AttrSplat => AttrSplat
                                           | FullSplat => FullSplat
                                           | GetAttr s => GetAttr s
                                           | LegacyIndex i => LegacyIndex i
                                           | Index e => Index (eval_expr c e)
                                           end) ops))
      | ECall f args expand =>
          ebind (lookup_func c f) (fun fd =>
            ebind (call_args expand (map (eval_expr c) args)) (fun vs =>
              match call_func fd vs with inl v => Ok v | inr err => Err (KFuncCall f err) end))
      | EParen e => eval_expr c e
      | ECond a t f =>
          ebind (eval_expr c a) (fun v => ebind (as_bool v) (fun b =>
            if b then eval_expr c t else eval_expr c f))
      | EUnary o e => ebind (eval_expr c e) (eval_unary bd o)
      | EBinary l o r => ebind (eval_expr c l) (fun v => ebind (eval_expr c r) (eval_binary bd v o))
      | EFor kv vv coll key val grouping cond =>
          let test := fun c => match cond with None => Ok true | Some e => ebind (eval_expr c e) as_bool end in
          ebind (ebind (eval_expr c coll) collection) (fun items =>
            match key with
            | Some key =>
                emap VObj (for_loop (next_ctx c kv vv) test
                  (fun acc c => ebind (ebind (eval_expr c key) object_key) (fun k =>
                     ebind (eval_expr c val) (fun v => entry_insert grouping k v acc))) items [])
            | None =>
                emap VArr (for_loop (next_ctx c kv vv) test
                  (fun acc c => emap (fun v => acc ++ [v]) (eval_expr c val)) items [])
            end)
      end.
  End Expr.

  (** Template evaluation, template.rs, given the evaluator [ev] of the expressions inside. *)
  Section Template.
    Context (ev : ctx -> expr -> eres value).

    (** [evaluate_element], template.rs:30-45, with [evaluate_interpolation] 81-93,
        [evaluate_if_directive] 102-115 and [evaluate_for_directive] 117-135: the text appended. *)
    Fixpoint eval_elem (c : ctx) (el : elem) (prev next : strip) {struct el} : eres str :=
      match el with
      | ElLit s => Ok (strip_literal s prev next)
      | ElInterp e _ => emap interp_str (ev c e)
      | ElIf cond t f if_s else_s endif_s =>
          ebind (ebind (ev c cond) as_bool) (fun b =>
            if b then
              tpl_loop (eval_elem c) t if_s (match f with Some _ => else_s | None => endif_s end) 0 t []
            else match f with
                 | Some f => tpl_loop (eval_elem c) f else_s endif_s 0 f []
                 | None => Ok []
                 end)
      | ElFor kv vv coll t for_s endfor_s =>
          ebind (ebind (ev c coll) collection) (fun items =>
            for_loop (next_ctx c kv vv) (fun _ => Ok true)
              (fun acc c => emap (fun s => acc ++ s) (tpl_loop (eval_elem c) t for_s endfor_s 0 t []))
              items [])
      end.

    (** [Template::evaluate], impls.rs:245-249, via [evaluate_template], template.rs:3-28. *)
    Definition eval_template (c : ctx) (t : template) : eres str :=
      tpl_loop (eval_elem c) t StripNone StripNone 0 t [].

    (** [TemplateExpr::evaluate], impls.rs:222-237: a template that consists of exactly one
        interpolation yields the value itself. *)
    Definition eval_tpl_text (c : ctx) (s : str) : eres value :=
      match parse_tpl s with
      | None => Err KMessage
      | Some [ElInterp e _] => ev c e
      | Some t => emap VStr (eval_template c t)
      end.
  End Template.

  (** [Expression::evaluate]; [n] bounds the nesting of templates. *)
  Fixpoint eval (n : nat) : ctx -> expr -> eres value :=
    eval_expr (match n with
               | O => fun _ _ => Fail FFuel
               | S n => eval_tpl_text (eval n)
               end).

  (** ** Evaluation in place (impls.rs)

      [EvalResult<(), Errors>] is the list of the errors, empty for [Ok]: [add_errors]
      (error.rs:11-21) is concatenation and [Errors] are never empty. *)
  Section InPlace.
    Context (ev : ctx -> expr -> eres value).

    (** impls.rs:108-110: the nested expressions have been evaluated in place with errors [errs]
        ([?]); evaluate the result and replace it by its value. *)
    Definition replace (c : ctx) (e : expr) (errs : list fail) : expr * list fail :=
      match errs with
      | _ :: _ => (e, errs)
      | [] => match ev c e with Ok v => (expr_of_value v, []) | Fail f => (e, [f]) end
      end.

    (** [Expression::evaluate_in_place], impls.rs:102-115, [evaluate_nested_exprs] 118-133, and
        the nested [evaluate_in_place]s: [Vec] 147-152, [Object] 176-193, [ObjectKey] 208-214,
        [Traversal] 292-300, [FuncCall] 326-328, [Conditional] 344-354, [UnaryOp] 396-398,
        [BinaryOp] 432-436, [ForExpr] 487-489. *)
    Fixpoint in_place (c : ctx) (e : expr) {struct e} : expr * list fail :=
      match e with
      | ENull | EBool _ | ENum _ | EStr _ => (e, [])
      | EArr l =>
          let rs := map (in_place c) l in
          replace c (EArr (map fst rs)) (flat_map snd rs)
      | EObj m =>
          let rs := map (fun p =>
            let (k, ek) := match fst p with
                           | KIdent s => (KIdent s, [])
                           | KExpr e => let (e, errs) := in_place c e in (KExpr e, errs)
                           end in
            let (v, ev) := in_place c (snd p) in
            ((k, v), ek ++ ev)) m in
          replace c (EObj (eobj_collect (map fst rs))) (flat_map snd rs)
      | ETpl _ | EVar _ => replace c e []
      | ETrav e ops =>
          let rs := map (fun o => match o with
                                  | Index e => let (e, errs) := in_place c e in (Index e, errs)
                                  | o => (o, [])
                                  end) ops in
          replace c (ETrav e (map fst rs)) (flat_map snd rs)
      | ECall f args expand =>
          let rs := map (in_place c) args in
          replace c (ECall f (map fst rs) expand) (flat_map snd rs)
      | EParen e => let (e, errs) := in_place c e in replace c (EParen e) errs
      | ECond a t f =>
          match ebind (ev c a) as_bool with
          | Fail err => (e, [err])
          | Ok true => let (t, errs) := in_place c t in replace c (ECond (EBool true) t f) errs
          | Ok false => let (f, errs) := in_place c f in replace c (ECond (EBool false) t f) errs
          end
      | EUnary o e => let (e, errs) := in_place c e in replace c (EUnary o e) errs
      | EBinary l o r =>
          let (l, e1) := in_place c l in
          let (r, e2) := in_place c r in
          replace c (EBinary l o r) (e1 ++ e2)
      | EFor kv vv coll key val g cond =>
          let (coll, errs) := in_place c coll in
          replace c (EFor kv vv coll key val g cond) errs
      end.

    (** [Template::evaluate_in_place], impls.rs:251-278. *)
    Fixpoint in_place_elem (c : ctx) (el : elem) {struct el} : elem * list fail :=
      match el with
      | ElLit _ => (el, [])
      | ElInterp e s => let (e, errs) := in_place c e in (ElInterp e s, errs)
      | ElIf cond t f s1 s2 s3 =>
          let (cond, e1) := in_place c cond in
          let ts := map (in_place_elem c) t in
          match f with
          | Some f => let fs := map (in_place_elem c) f in
                      (ElIf cond (map fst ts) (Some (map fst fs)) s1 s2 s3,
                       e1 ++ flat_map snd ts ++ flat_map snd fs)
          | None => (ElIf cond (map fst ts) None s1 s2 s3, e1 ++ flat_map snd ts)
          end
      | ElFor kv vv coll t s1 s2 =>
          let (coll, e1) := in_place c coll in
          let ts := map (in_place_elem c) t in
          (ElFor kv vv coll (map fst ts) s1 s2, e1 ++ flat_map snd ts)
      end.
    Definition in_place_template (c : ctx) (t : template) : template * list fail :=
      let rs := map (in_place_elem c) t in (map fst rs, flat_map snd rs).

    (** [Body::evaluate], impls.rs:11-15, [Structure] 27-32, [Attribute] 47-52, [Block] 64-70. *)
    Fixpoint eval_struct (c : ctx) (s : struct_) {struct s} : eres struct_ :=
      match s with
      | SAttribute k e => emap (fun v => SAttribute k (expr_of_value v)) (ev c e)
      | SBlk i ls b => emap (SBlk i ls) (collect (eval_struct c) b)
      end.
    Definition eval_body (c : ctx) (b : rbody) : eres rbody := collect (eval_struct c) b.

    (** [Body::evaluate_in_place], impls.rs:17-22, [Structure] 34-39, [Attribute] 54-56, [Block]
        72-74. *)
    Fixpoint in_place_struct (c : ctx) (s : struct_) {struct s} : struct_ * list fail :=
      match s with
      | SAttribute k e => let (e, errs) := in_place c e in (SAttribute k e, errs)
      | SBlk i ls b =>
          let rs := map (in_place_struct c) b in (SBlk i ls (map fst rs), flat_map snd rs)
      end.
    Definition in_place_body (c : ctx) (b : rbody) : rbody * list fail :=
      let rs := map (in_place_struct c) b in (map fst rs, flat_map snd rs).
  End InPlace.

  Definition evaluate_in_place (n : nat) : ctx -> expr -> expr * list fail := in_place (eval n).
End Eval.

(** [From<Expression> for Value], expr/mod.rs:94-108.  [show] is [Display for Expression]
    (280-287), used for object keys (314-340); [interp] is [format::to_interpolated_string]. *)
Section ValueOf.
  Context (show interp : expr -> str).
  Definition key_str (k : okey expr) : str :=
    match k with KIdent s => s | KExpr (EStr s) => s | KExpr e => show e end.
  Fixpoint value_of_expr (e : expr) {struct e} : value :=
    match e with
    | ENull => VNull
    | EBool b => VBool b
    | ENum n => VNum n
    | EStr s => VStr s
    | EArr l => VArr (map value_of_expr l)
    | EObj m => VObj (MapModel.from_iter seqb (map (fun p => (key_str (fst p), value_of_expr (snd p))) m))
    | ETpl t => VStr (tpl_text t)
    | EParen e => value_of_expr e
    | e => VStr (interp e)
    end.
End ValueOf.

(** Specifications for the evaluation properties (C24-C33), stated without the evaluator. *)
From Coq Require Import ZArith NArith Bool String List.
From Verif Require Import Str NumberModel PrimModel Ast EvalModel.
Import ListNotations.

(** ** Contexts *)

(** Everything declared in [c] is declared with the same value in [c']. *)
Definition extends (c c' : ctx) : Prop :=
  (forall x v, ctx_var c x = Some v -> ctx_var c' x = Some v) /\
  (forall f d, ctx_func c f = Some d -> ctx_func c' f = Some d).

(** What a context means: the innermost declaration of every name, as a pair of functions. *)
Record env := Env { env_var : str -> option value; env_func : funcname -> option funcdef }.
Definition env_of (c : ctx) : env := Env (ctx_var c) (ctx_func c).

(** ** Values *)

(** The keys of an object are distinct, at every depth: what [Map] (an IndexMap) guarantees. *)
Fixpoint wf_value (v : value) : Prop :=
  match v with
  | VArr l => fold_right (fun v P => wf_value v /\ P) True l
  | VObj m => NoDup (map fst m) /\ fold_right (fun e P => wf_value (snd e) /\ P) True m
  | _ => True
  end.

(** ** Literals: null, booleans, numbers, strings, and arrays and objects of literals. *)
Fixpoint literal (e : expr) : Prop :=
  match e with
  | ENull | EBool _ | ENum _ | EStr _ => True
  | EArr l => fold_right (fun e P => literal e /\ P) True l
  | EObj m => fold_right (fun p P =>
      (match fst p with KExpr (EStr _) => True | _ => False end) /\ literal (snd p) /\ P) True m
  | _ => False
  end.

(** ** Free variables *)

Definition bound_by (kv : option str) (vv x : str) : bool :=
  seqb x vv || match kv with Some k => seqb x k | None => false end.
Definition optb {A} (f : A -> bool) (o : option A) : bool :=
  match o with Some a => f a | None => false end.

Section Free.
  Context (parse_tpl : str -> option template).

  (** Variable [x] occurs free in an expression; [ft] says so for the text of a template. *)
  Section Expr.
    Context (ft : str -> str -> bool).
    Fixpoint free_expr (x : str) (e : expr) {struct e} : bool :=
      match e with
      | ENull | EBool _ | ENum _ | EStr _ => false
      | EArr l => existsb (free_expr x) l
      | EObj m => existsb (fun p => match fst p with KIdent _ => false | KExpr e => free_expr x e end
                                    || free_expr x (snd p)) m
      | ETpl t => ft x (tpl_text t)
      | EVar y => seqb x y
      | ETrav e ops => free_expr x e ||
          existsb (fun o => match o with Index e => free_expr x e | _ => false end) ops
      | ECall _ args _ => existsb (free_expr x) args
      | EParen e => free_expr x e
      | ECond a t f => free_expr x a || free_expr x t || free_expr x f
      | EUnary _ e => free_expr x e
      | EBinary l _ r => free_expr x l || free_expr x r
      | EFor kv vv coll key val _ cond =>
          free_expr x coll ||
          (negb (bound_by kv vv x) &&
           (optb (free_expr x) key || free_expr x val || optb (free_expr x) cond))
      end.
  End Expr.
  Section Tpl.
    Context (fe : str -> expr -> bool).
    Fixpoint free_elem (x : str) (el : elem) {struct el} : bool :=
      match el with
      | ElLit _ => false
      | ElInterp e _ => fe x e
      | ElIf cond t f _ _ _ =>
          fe x cond || existsb (free_elem x) t || match f with Some f => existsb (free_elem x) f | None => false end
      | ElFor kv vv coll t _ _ => fe x coll || (negb (bound_by kv vv x) && existsb (free_elem x) t)
      end.
    Definition free_text (x s : str) : bool :=
      match parse_tpl s with Some t => existsb (free_elem x) t | None => false end.
  End Tpl.
  Fixpoint free_in (n : nat) : str -> expr -> bool :=
    free_expr (match n with O => fun _ _ => false | S n => free_text (free_in n) end).
End Free.

(** ** Contexts hold well-formed values *)

(** The values of the variables are well-formed, and the functions return well-formed values when
    they are given some.  In Rust both follow from the type of [Value]. *)
Definition wf_ctx (c : ctx) : Prop :=
  (forall x v, ctx_var c x = Some v -> wf_value v) /\
  (forall f d a v, ctx_func c f = Some d -> Forall wf_value (fa_values a) -> fd_func d a = inl v -> wf_value v).

(** ** Operators *)

(** An operator of the expression language, and whether it can panic on some numbers. *)
Definition op_panics (bd : build) (o : unop + binop) : Prop :=
  match o with
  | inl Neg => exists n, num_neg bd n = Res.Panic
  | inr OpPlus => exists x y, num_add bd x y = Res.Panic
  | inr OpMinus => exists x y, num_sub bd x y = Res.Panic
  | inr OpMul => exists x y, num_mul bd x y = Res.Panic
  | inr OpDiv => exists x y, num_div bd x y = Res.Panic
  | inr OpMod => exists x y, num_rem bd x y = Res.Panic
  | _ => False
  end.

(** Operator [o] occurs in an expression (also inside the templates in it). *)
Section Occurs.
  Context (parse_tpl : str -> option template) (o : unop + binop).
  Section Expr.
    Context (ft : str -> Prop).
    Fixpoint op_expr (e : expr) {struct e} : Prop :=
      match e with
      | ENull | EBool _ | ENum _ | EStr _ | EVar _ => False
      | EArr l => fold_right (fun e P => op_expr e \/ P) False l
      | EObj m => fold_right (fun p P =>
          match fst p with KIdent _ => False | KExpr e => op_expr e end \/ op_expr (snd p) \/ P) False m
      | ETpl t => ft (tpl_text t)
      | ETrav e ops => op_expr e \/
          fold_right (fun o P => match o with Index e => op_expr e | _ => False end \/ P) False ops
      | ECall _ args _ => fold_right (fun e P => op_expr e \/ P) False args
      | EParen e => op_expr e
      | ECond a t f => op_expr a \/ op_expr t \/ op_expr f
      | EUnary u e => o = inl u \/ op_expr e
      | EBinary l b r => o = inr b \/ op_expr l \/ op_expr r
      | EFor _ _ coll key val _ cond =>
          op_expr coll \/ match key with Some e => op_expr e | None => False end \/ op_expr val \/
          match cond with Some e => op_expr e | None => False end
      end.
  End Expr.
  Section Tpl.
    Context (fe : expr -> Prop).
    Fixpoint op_elem (el : elem) {struct el} : Prop :=
      match el with
      | ElLit _ => False
      | ElInterp e _ => fe e
      | ElIf cond t f _ _ _ =>
          fe cond \/ fold_right (fun el P => op_elem el \/ P) False t \/
          match f with Some f => fold_right (fun el P => op_elem el \/ P) False f | None => False end
      | ElFor _ _ coll t _ _ => fe coll \/ fold_right (fun el P => op_elem el \/ P) False t
      end.
    Definition op_text (s : str) : Prop :=
      match parse_tpl s with Some t => exists el, In el t /\ op_elem el | None => False end.
  End Tpl.
  Fixpoint op_occurs (n : nat) : expr -> Prop :=
    op_expr (match n with O => fun _ => False | S n => op_text (op_occurs n) end).
End Occurs.

(** ** In-place evaluation *)

(** No two keys of an object compare equal. *)
Fixpoint keys_differ (ks : list (okey expr)) : Prop :=
  match ks with
  | [] => True
  | k :: ks => Forall (fun k' => okey_eqb expr_eqb k' k = false) ks /\ keys_differ ks
  end.

(** [simp] simplifies expressions.  At every object that in-place evaluation visits, simplifying the
    keys does not make two of them equal. *)
Section NoMerge.
  Context (simp : expr -> expr).
  Definition simp_key (k : okey expr) : okey expr :=
    match k with KIdent s => KIdent s | KExpr e => KExpr (simp e) end.
  Fixpoint no_merge (e : expr) {struct e} : Prop :=
    match e with
    | ENull | EBool _ | ENum _ | EStr _ | ETpl _ | EVar _ => True
    | EArr l => fold_right (fun e P => no_merge e /\ P) True l
    | EObj m =>
        keys_differ (map (fun p => simp_key (fst p)) m) /\
        fold_right (fun p P => match fst p with KIdent _ => True | KExpr e => no_merge e end
                               /\ no_merge (snd p) /\ P) True m
    | ETrav _ ops => fold_right (fun o P => match o with Index e => no_merge e | _ => True end /\ P) True ops
    | ECall _ args _ => fold_right (fun e P => no_merge e /\ P) True args
    | EParen e => no_merge e
    | ECond _ t f => no_merge t /\ no_merge f
    | EUnary _ e => no_merge e
    | EBinary l _ r => no_merge l /\ no_merge r
    | EFor _ _ coll _ _ _ _ => no_merge coll
    end.
  Fixpoint no_merge_struct (s : struct_) : Prop :=
    match s with
    | SAttribute _ e => no_merge e
    | SBlk _ _ b => fold_right (fun s P => no_merge_struct s /\ P) True b
    end.
  (** The expressions of a template. *)
  Fixpoint no_merge_elem (el : elem) : Prop :=
    match el with
    | ElLit _ => True
    | ElInterp e _ => no_merge e
    | ElIf cond t f _ _ _ =>
        no_merge cond /\ fold_right (fun el P => no_merge_elem el /\ P) True t /\
        match f with Some f => fold_right (fun el P => no_merge_elem el /\ P) True f | None => True end
    | ElFor _ _ coll t _ _ => no_merge coll /\ fold_right (fun el P => no_merge_elem el /\ P) True t
    end.
End NoMerge.

(** The variables of the loops of a template satisfy [P]. *)
Fixpoint loop_vars (P : str -> Prop) (el : elem) : Prop :=
  match el with
  | ElLit _ | ElInterp _ _ => True
  | ElIf _ t f _ _ _ =>
      fold_right (fun el Q => loop_vars P el /\ Q) True t /\
      match f with Some f => fold_right (fun el Q => loop_vars P el /\ Q) True f | None => True end
  | ElFor kv vv _ t _ _ =>
      P vv /\ match kv with Some k => P k | None => True end /\
      fold_right (fun el Q => loop_vars P el /\ Q) True t
  end.

(** Two bodies with the same blocks and attributes, in the same order; the expressions of the
    second are literals. *)
Fixpoint literal_skeleton (s t : struct_) {struct s} : Prop :=
  match s, t with
  | SAttribute k _, SAttribute k' e' => k = k' /\ literal e'
  | SBlk i ls b, SBlk i' ls' b' =>
      i = i' /\ ls = ls' /\
      (fix go (b b' : list struct_) {struct b} : Prop :=
         match b, b' with
         | [], [] => True
         | s :: b, s' :: b' => literal_skeleton s s' /\ go b b'
         | _, _ => False
         end) b b'
  | _, _ => False
  end.

(** ** Declarations *)

(** A declaration history of one scope, oldest first; scopes from the innermost outwards. *)
Inductive decl := DVar (x : str) (v : value) | DFunc (f : funcname) (d : funcdef).
Definition declare (c : ctx) (d : decl) : ctx :=
  match d with DVar x v => declare_var x v c | DFunc f d => declare_func f d c end.
Fixpoint ctx_of (scopes : list (list decl)) : ctx :=
  match scopes with
  | [] => []
  | h :: scopes => fold_left declare h (child (ctx_of scopes))
  end.
(** The most recent declaration of [x] in a history; the innermost scope that has one. *)
Fixpoint last_var (x : str) (h : list decl) : option value :=
  match h with
  | [] => None
  | d :: h => match last_var x h with
              | Some v => Some v
              | None => match d with DVar y v => if seqb x y then Some v else None | DFunc _ _ => None end
              end
  end.
Fixpoint innermost_var (x : str) (scopes : list (list decl)) : option value :=
  match scopes with
  | [] => None
  | h :: scopes => match last_var x h with Some v => Some v | None => innermost_var x scopes end
  end.
Fixpoint last_func (f : funcname) (h : list decl) : option funcdef :=
  match h with
  | [] => None
  | d :: h => match last_func f h with
              | Some v => Some v
              | None => match d with DFunc g v => if funcname_eqb f g then Some v else None | DVar _ _ => None end
              end
  end.
Fixpoint innermost_func (f : funcname) (scopes : list (list decl)) : option funcdef :=
  match scopes with
  | [] => None
  | h :: scopes => match last_func f h with Some v => Some v | None => innermost_func f scopes end
  end.

(** ** For expressions *)

(** What a for expression iterates over: (key, value) pairs in order. *)
Inductive iterates : value -> list (value * value) -> Prop :=
| it_array l items : length items = length l ->
    (forall i x, nth_error l i = Some x -> nth_error items i = Some (VNum (PosInt (Z.of_nat i)), x)) ->
    iterates (VArr l) items
| it_object m : iterates (VObj m) (map (fun e => (VStr (fst e), snd e)) m).

(** The elements for which the condition evaluates to true; it evaluates to a boolean for all. *)
Inductive selects {A} (test : A -> value -> Prop) : list A -> list A -> Prop :=
| sel_nil : selects test [] []
| sel_true a l l' : test a (VBool true) -> selects test l l' -> selects test (a :: l) (a :: l')
| sel_false a l l' : test a (VBool false) -> selects test l l' -> selects test (a :: l) l'.

(** The values with key [k], in order; the keys in order of first occurrence. *)
Definition values_of (k : str) (kvs : list (str * value)) : list value :=
  map snd (filter (fun e => seqb (fst e) k) kvs).
Fixpoint distinct (ks : list str) : list str :=
  match ks with
  | [] => []
  | k :: ks => k :: filter (fun k' => negb (seqb k' k)) (distinct ks)
  end.
Definition grouped (kvs : list (str * value)) : list (str * value) :=
  map (fun k => (k, VArr (values_of k kvs))) (distinct (map fst kvs)).

(** How a value becomes an object key. *)
Inductive key_of (show_num : num -> str) : value -> str -> Prop :=
| key_string s : key_of show_num (VStr s) s
| key_true : key_of show_num (VBool true) (lit "true")
| key_false : key_of show_num (VBool false) (lit "false")
| key_number n : key_of show_num (VNum n) (show_num n).

(** ** Function signatures *)

(** Parameter types as documented (func.rs:11-36). *)
Fixpoint has_type (t : ptype) (v : value) : Prop :=
  match t with
  | PAny => True
  | PBool => exists b, v = VBool b
  | PNumber => exists n, v = VNum n
  | PString => exists s, v = VStr s
  | PArray t => exists l, v = VArr l /\ forall x, In x l -> has_type t x
  | PObject t => exists m, v = VObj m /\ forall k x, In (k, x) m -> has_type t x
  | PNullable t => v = VNull \/ has_type t v
  | POneOf ts => ts = [] \/ fold_right (fun t P => has_type t v \/ P) False ts
  end.
(** No empty list of alternatives, at any depth. *)
Fixpoint alternatives (t : ptype) : Prop :=
  match t with
  | PArray t | PObject t | PNullable t => alternatives t
  | POneOf ts => ts <> [] /\ fold_right (fun t P => alternatives t /\ P) True ts
  | _ => True
  end.
(** The arguments fit the signature. *)
Definition fits (fd : funcdef) (args : list value) : Prop :=
  exists pos var, args = pos ++ var /\ Forall2 has_type (fd_params fd) pos /\
    match fd_variadic fd with None => var = [] | Some t => Forall (has_type t) var end.

(** ** Template text *)

(** Leading spaces and one line break have been removed from [s], giving [s']. *)
Definition line_break (b : str) : Prop := b = [10%N] \/ b = [13%N; 10%N].
Definition space (c : N) : Prop := is_whitespace c = true /\ c <> 13%N /\ c <> 10%N.
Definition starts_break (s : str) : Prop := exists b r, line_break b /\ s = b ++ r.
Definition strips_left (s s' : str) : Prop :=
  exists sp, Forall space sp /\
    ((exists b, line_break b /\ s = sp ++ b ++ s') \/
     (s = sp ++ s' /\ ~ starts_break s' /\ match s' with c :: _ => ~ space c | [] => True end)).
(** The same at the end. *)
Definition ends_break (s : str) : Prop := exists b r, line_break b /\ s = r ++ b.
Definition strips_right (s s' : str) : Prop :=
  exists sp, Forall space sp /\
    ((exists b, line_break b /\ s = s' ++ b ++ sp /\ (b = [10%N] -> forall r, s' <> r ++ [13%N])) \/
     (s = s' ++ sp /\ ~ ends_break s' /\ (forall c r, s' = r ++ [c] -> ~ space c))).

(** The markers at the left and right edge of an element. *)
Definition left_edge (el : elem) : bool :=
  match el with
  | ElLit _ => false
  | ElInterp _ s => strip_start s
  | ElIf _ _ _ s _ _ => strip_start s
  | ElFor _ _ _ _ s _ => strip_start s
  end.
Definition right_edge (el : elem) : bool :=
  match el with
  | ElLit _ => false
  | ElInterp _ s => strip_end s
  | ElIf _ _ _ _ _ s => strip_end s
  | ElFor _ _ _ _ _ s => strip_end s
  end.

Section Render.
  Context (show_value : value -> str) (ev : ctx -> expr -> eres value).
  (** [left]/[right]: there is a marker directly before/after. *)
  Section Seq.
    Context (out : elem -> bool -> bool -> eres str).
    Fixpoint render_seq (left : bool) (els : list elem) (right : bool) : eres str :=
      match els with
      | [] => Ok []
      | el :: els =>
          ebind (out el left (match els with [] => right | el' :: _ => left_edge el' end)) (fun s =>
            emap (app s) (render_seq (right_edge el) els right))
      end.
  End Seq.
  Fixpoint concat_res (l : list (eres str)) : eres str :=
    match l with [] => Ok [] | r :: l => ebind r (fun s => emap (app s) (concat_res l)) end.
  Fixpoint render_elem (c : ctx) (el : elem) (left right : bool) {struct el} : eres str :=
    match el with
    | ElLit s => Ok (let s := if left then trim_start s else s in if right then trim_end s else s)
    | ElInterp e _ => emap (fun v => match v with VStr s => s | v => show_value v end) (ev c e)
    | ElIf cond t f if_s else_s endif_s =>
        ebind (ebind (ev c cond) as_bool) (fun b =>
          match b, f with
          | true, Some _ => render_seq (render_elem c) (strip_end if_s) t (strip_start else_s)
          | true, None => render_seq (render_elem c) (strip_end if_s) t (strip_start endif_s)
          | false, Some f => render_seq (render_elem c) (strip_end else_s) f (strip_start endif_s)
          | false, None => Ok []
          end)
    | ElFor kv vv coll t for_s endfor_s =>
        ebind (ebind (ev c coll) collection) (fun items =>
          concat_res (map (fun it =>
            render_seq (render_elem (next_ctx c kv vv (fst it) (snd it))) (strip_end for_s) t (strip_start endfor_s))
            items))
    end.
  Definition render (c : ctx) (t : template) : eres str := render_seq (render_elem c) false t false.
End Render.

(** Every object key that in-place evaluation visits is an identifier or a string, and no two keys
    of an object compare equal. *)
Definition plain_key (k : okey expr) : Prop :=
  match k with KIdent _ | KExpr (EStr _) => True | _ => False end.
Fixpoint plain_keys (e : expr) {struct e} : Prop :=
  match e with
  | ENull | EBool _ | ENum _ | EStr _ | ETpl _ | EVar _ => True
  | EArr l => fold_right (fun e P => plain_keys e /\ P) True l
  | EObj m => keys_differ (map fst m) /\ fold_right (fun p P => plain_key (fst p) /\ plain_keys (snd p) /\ P) True m
  | ETrav _ ops => fold_right (fun o P => match o with Index e => plain_keys e | _ => True end /\ P) True ops
  | ECall _ args _ => fold_right (fun e P => plain_keys e /\ P) True args
  | EParen e => plain_keys e
  | ECond _ t f => plain_keys t /\ plain_keys f
  | EUnary _ e => plain_keys e
  | EBinary l _ r => plain_keys l /\ plain_keys r
  | EFor _ _ coll _ _ _ _ => plain_keys coll
  end.

(** A signature without an empty list of alternatives. *)
Definition well_declared (fd : funcdef) : Prop :=
  Forall alternatives (fd_params fd) /\ match fd_variadic fd with Some t => alternatives t | None => True end.

(** The rest after an attribute splat does not start with an attribute access. *)
Definition no_attr (ops : list (trop expr)) : Prop := match ops with GetAttr _ :: _ => False | _ => True end.

Section WithEval.
  Context (bd : build) (parse_tpl : str -> option template)
          (show_value : value -> str) (show_num : num -> str).
  Notation eval := (eval bd parse_tpl show_value show_num).
  (** The condition of a for expression evaluates to [v] in scope [c]. *)
  Definition test_in (n : nat) (cond : option expr) (c : ctx) (v : value) : Prop :=
    match cond with None => v = VBool true | Some e => eval n c e = Ok v end.
  (** [value.rest], for a value instead of an expression. *)
  Definition rest (n : nat) (c : ctx) (ops : list (trop expr)) (v : value) : eres value := eval n c (ETrav (expr_of_value v) ops).
End WithEval.

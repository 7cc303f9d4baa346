(** * What it means that an error names the right expression

    Stated with the evaluator of [EvalModel], which knows nothing about named expressions. *)
From Coq Require Import ZArith NArith Bool String List.
From Verif Require Import Res Str NumberModel PrimModel Ast EvalModel.
Import ListNotations.
Open Scope nat_scope.

Section Spec.
  Context (parse_tpl : str -> option template) (ev : ctx -> expr -> eres value).

  (** The collection [coll] has an element [v] under the key [k]. *)
  Definition item (c : ctx) (coll : expr) (k v : value) : Prop :=
    exists w items, ev c coll = Ok w /\ collection w = Ok items /\ In (k, v) items.

  (** [tpl_part c t c' e]: the template [t], evaluated in [c], evaluates the expression [e] in
      [c'] if it gets there. *)
  Inductive tpl_part : ctx -> template -> ctx -> expr -> Prop :=
  | tp_interp c t e s : In (ElInterp e s) t -> tpl_part c t c e
  | tp_test c t e x f s1 s2 s3 : In (ElIf e x f s1 s2 s3) t -> tpl_part c t c e
  | tp_then c t a x f s1 s2 s3 c' e : In (ElIf a x f s1 s2 s3) t -> tpl_part c x c' e -> tpl_part c t c' e
  | tp_else c t a x f s1 s2 s3 c' e : In (ElIf a x (Some f) s1 s2 s3) t -> tpl_part c f c' e -> tpl_part c t c' e
  | tp_coll c t kv vv e x s1 s2 : In (ElFor kv vv e x s1 s2) t -> tpl_part c t c e
  | tp_loop c t kv vv coll x s1 s2 k v c' e : In (ElFor kv vv coll x s1 s2) t -> item c coll k v ->
      tpl_part (next_ctx c kv vv k v) x c' e -> tpl_part c t c' e.

  (** [part c e c' e']: [e'] is directly inside of [e], and is evaluated in [c'] when [e] is
      evaluated in [c]: [c'] is [c], or [c] with the variables of the loop around [e']. *)
  Inductive part : ctx -> expr -> ctx -> expr -> Prop :=
  | p_element c l e : In e l -> part c (EArr l) c e
  | p_key c m k v : In (KExpr k, v) m -> part c (EObj m) c k
  | p_value c m k v : In (k, v) m -> part c (EObj m) c v
  | p_operand c e ops : part c (ETrav e ops) c e
  | p_index c e ops i : In (Index i) ops -> part c (ETrav e ops) c i
  | p_arg c f args b e : In e args -> part c (ECall f args b) c e
  | p_paren c e : part c (EParen e) c e
  | p_test c a t f : part c (ECond a t f) c a
  | p_true c a t f : part c (ECond a t f) c t
  | p_false c a t f : part c (ECond a t f) c f
  | p_unary c o e : part c (EUnary o e) c e
  | p_left c l o r : part c (EBinary l o r) c l
  | p_right c l o r : part c (EBinary l o r) c r
  | p_coll c kv vv coll key val g cond : part c (EFor kv vv coll key val g cond) c coll
  | p_for_key c kv vv coll key val g cond k v : item c coll k v ->
      part c (EFor kv vv coll (Some key) val g cond) (next_ctx c kv vv k v) key
  | p_for_value c kv vv coll key val g cond k v : item c coll k v ->
      part c (EFor kv vv coll key val g cond) (next_ctx c kv vv k v) val
  | p_for_test c kv vv coll key val g cond k v : item c coll k v ->
      part c (EFor kv vv coll key val g (Some cond)) (next_ctx c kv vv k v) cond
  | p_tpl c t els c' e : parse_tpl (tpl_text t) = Some els -> tpl_part c els c' e -> part c (ETpl t) c' e.

  (** [e'] is [e] or inside of it at any depth. *)
  Inductive within : ctx -> expr -> ctx -> expr -> Prop :=
  | w_self c e : within c e c e
  | w_part c e c1 e1 c2 e2 : part c e c1 e1 -> within c1 e1 c2 e2 -> within c e c2 e2.

  (** [raises c k e]: [e] is an expression which itself, and not one of its parts, can fail with [k]
      in [c]: as far as they are involved, the parts have values. *)
  Inductive raises (c : ctx) : ekind -> expr -> Prop :=
  | r_var x : ctx_var c x = None -> raises c (KUndefinedVar x) (EVar x)
  | r_func f args b : ctx_func c f = None -> raises c (KUndefinedFunc f) (ECall f args b)
  | r_call f args b fd vs err : ctx_func c f = Some fd -> call_func fd vs = inr err ->
      raises c (KFuncCall f err) (ECall f args b)
  | r_expand f args e v : ev c e = Ok v -> raises c (KUnexpected v (lit "an array")) (ECall f (args ++ [e]) true)
  | r_cond a t f v : ev c a = Ok v -> raises c (KUnexpected v (lit "a boolean")) (ECond a t f)
  | r_unary o e v : ev c e = Ok v -> raises c (KUnaryOp o v) (EUnary o e)
  | r_binary l o r v w : ev c l = Ok v -> ev c r = Ok w -> raises c (KBinaryOp v o w) (EBinary l o r)
  | r_key m e w v : In (KExpr e, w) m -> ev c e = Ok v ->
      raises c (KUnexpected v (lit "a string, boolean or number")) (EObj m)
  | r_bounds e ops i v : ev c e = Ok v -> raises c (KIndex i) (ETrav e ops)
  | r_attr e ops k v : ev c e = Ok v -> raises c (KNoSuchKey k) (ETrav e ops)
  | r_step e ops w what v : ev c e = Ok v ->
      In what [lit "an array"; lit "an object"; lit "an unsigned integer"; lit "an unsigned integer or string"] ->
      raises c (KUnexpected w what) (ETrav e ops)
  | r_coll kv vv coll key val g cond v : ev c coll = Ok v ->
      raises c (KUnexpected v (lit "an array or object")) (EFor kv vv coll key val g cond)
  | r_for_test kv vv coll key val g cond k w v : item c coll k w -> ev (next_ctx c kv vv k w) cond = Ok v ->
      raises c (KUnexpected v (lit "a boolean")) (EFor kv vv coll key val g (Some cond))
  | r_for_key kv vv coll key val g cond k w v : item c coll k w -> ev (next_ctx c kv vv k w) key = Ok v ->
      raises c (KUnexpected v (lit "a string, boolean or number")) (EFor kv vv coll (Some key) val g cond)
  | r_twice kv vv coll key val cond s : raises c (KKeyExists s) (EFor kv vv coll (Some key) val false cond)
  | r_directive t els c' e v what : parse_tpl (tpl_text t) = Some els -> tpl_part c els c' e -> ev c' e = Ok v ->
      In what [lit "a boolean"; lit "an array or object"] -> raises c (KUnexpected v what) (ETpl t)
  | r_parse t : parse_tpl (tpl_text t) = None -> raises c KMessage (ETpl t).

  (** Errors a for expression or a template raises for an element of the collection it runs over. *)
  Definition in_loop (k : ekind) (e : expr) : Prop :=
    match e, k with
    | EFor _ _ _ _ _ _ _, KKeyExists _ => True
    | EFor _ _ _ _ _ _ _, KUnexpected _ what => what <> lit "an array or object"
    | ETpl _, KUnexpected _ _ => True
    | _, _ => False
    end.

  (** The error [k] of evaluating [e] in [c] names [b]:
      - [b] is [e] or an expression inside of it, and evaluating [b] fails with this very error;
      - the expression that raised it is directly inside of [b], or is [b] itself: then [b] is all
        of [e], or the error came up in its loop. *)
  Definition names (c : ctx) (e : expr) (k : ekind) (b : expr) : Prop :=
    exists cb, within c e cb b /\ ev cb b = Err k /\
    exists cf f, raises cf k f /\ ev cf f = Err k /\
      (part cb b cf f \/ (f = b /\ cf = cb /\ (b = e \/ in_loop k b))).

  (** An error without an expression is that of a template whose text is not a template. *)
  Definition blames (c : ctx) (e : expr) (k : ekind) (ob : option expr) : Prop :=
    match ob with
    | Some b => names c e k b
    | None => k = KMessage /\ exists cf t, within c e cf (ETpl t) /\ parse_tpl (tpl_text t) = None
    end.
End Spec.

(** The expressions of the attributes of a body, those in nested blocks included. *)
Inductive attribute_of : rbody -> expr -> Prop :=
| ao_here b k e : In (SAttribute k e) b -> attribute_of b e
| ao_block b i ls b' e : In (SBlk i ls b') b -> attribute_of b' e -> attribute_of b e.

(** The expressions that occur in [e], inside of templates as well: no contexts. *)
Section Occurs.
  Context (parse_tpl : str -> option template).
  Inductive tpl_has : template -> expr -> Prop :=
  | th_interp t e s : In (ElInterp e s) t -> tpl_has t e
  | th_test t e x f s1 s2 s3 : In (ElIf e x f s1 s2 s3) t -> tpl_has t e
  | th_then t a x f s1 s2 s3 e : In (ElIf a x f s1 s2 s3) t -> tpl_has x e -> tpl_has t e
  | th_else t a x f s1 s2 s3 e : In (ElIf a x (Some f) s1 s2 s3) t -> tpl_has f e -> tpl_has t e
  | th_coll t kv vv e x s1 s2 : In (ElFor kv vv e x s1 s2) t -> tpl_has t e
  | th_loop t kv vv coll x s1 s2 e : In (ElFor kv vv coll x s1 s2) t -> tpl_has x e -> tpl_has t e.
  Definition has (e e' : expr) : Prop :=
    match e with
    | EArr l => In e' l
    | EObj m => exists k v, In (k, v) m /\ (k = KExpr e' \/ v = e')
    | ETrav e ops => e' = e \/ In (Index e') ops
    | ECall _ args _ => In e' args
    | EParen e => e' = e
    | ECond a t f => e' = a \/ e' = t \/ e' = f
    | EUnary _ e => e' = e
    | EBinary l _ r => e' = l \/ e' = r
    | EFor _ _ coll key val _ cond => e' = coll \/ key = Some e' \/ e' = val \/ cond = Some e'
    | ETpl t => exists els, parse_tpl (tpl_text t) = Some els /\ tpl_has els e'
    | _ => False
    end.
  Inductive occurs : expr -> expr -> Prop :=
  | o_self e : occurs e e
  | o_part e e1 e2 : has e e1 -> occurs e1 e2 -> occurs e e2.
End Occurs.

(** * What visiting a tree means

    The parts of a node in the order in which they are written in the source, and the depth-first
    walk over them. *)
From Coq Require Import NArith Bool List Sorting.Sorted.
From Verif Require Import Str NumberModel PrimModel EAst VisitModel.
Import ListNotations.

Definition idents (o : option did) : list node := match o with Some i => [NIdent i] | None => [] end.

(** The direct parts of a node, from left to right.  Every struct and enum of the syntax tree that
    [Visit] has a method for is a node of its own. *)
Definition children (n : node) : list node :=
  match n with
  | NIdent _ | NNull _ | NBool _ _ | NU64 _ _ | NNumber _ _ _ | NString _ _ | NSplat _ | NLiteral _ _
  | NUnaryOperator _ _ | NBinaryOperator _ _ | NEndif _ _ _ | NEndfor _ _ _ => []
  | NBody (XBody _ l _ _) => map NStructure l
  | NStructure (XAttr m k v) => [NAttr m k v]
  | NStructure (XBlock m i ls b) => [NBlock m i ls b]
  | NAttr _ k v => [NIdent k; NExpr v]
  | NBlock _ i ls b => NIdent i :: map NBlockLabel ls ++ [NBody b]
  | NBlockLabel (XLStr m x) => [NString m x]
  | NBlockLabel (XLId i) => [NIdent i]
  | NExpr (XNull m) => [NNull m]
  | NExpr (XBool m b) => [NBool m b]
  | NExpr (XNum m n r) => [NNumber m n r]
  | NExpr (XStr m x) => [NString m x]
  | NExpr (XArr _ l _ _) => [NArray l]
  | NExpr (XObj _ l _) => [NObject l]
  | NExpr (XTpl _ es) => [NStringTemplate es]
  | NExpr (XHeredoc _ _ t _ _) => [NHeredocTemplate t]
  | NExpr (XParen _ e) => [NParenthesis e]
  | NExpr (XVar m x) => [NIdent (Did m x)]
  | NExpr (XCond _ c t f) => [NConditional c t f]
  | NExpr (XCall _ ns n _ args _ _ _) => [NFuncCall ns n args]
  | NExpr (XTrav _ e ops) => [NTraversal e ops]
  | NExpr (XUnary _ sp o e) => [NUnaryOp sp o e]
  | NExpr (XBinary _ l m o r) => [NBinaryOp l m o r]
  | NExpr (XFor _ _ kv vv coll key val _ cond) => [NForExpr kv vv coll key val cond]
  | NArray l => map NExpr l
  | NObject l => map (fun i => match i with XItem k _ _ _ => NObjectItem k i end) l
  | NObjectItem k i => [NObjectKey k; NObjectValue i]
  | NObjectKey (XKId i) => [NIdent i]
  | NObjectKey (XKExpr e) => [NExpr e]
  | NObjectValue (XItem _ _ v _) => [NExpr v]
  | NParenthesis e => [NExpr e]
  | NConditional c t f => [NExpr c; NExpr t; NExpr f]
  | NUnaryOp sp o e => [NUnaryOperator sp o; NExpr e]
  | NBinaryOp l m o r => [NExpr l; NBinaryOperator m o; NExpr r]
  | NTraversal e ops => NExpr e :: map NTraversalOperator ops
  | NTraversalOperator (XTrop _ (XAttrSplat m)) | NTraversalOperator (XTrop _ (XFullSplat m)) => [NSplat m]
  | NTraversalOperator (XTrop _ (XGetAttr i)) => [NIdent i]
  | NTraversalOperator (XTrop _ (XIndex e)) => [NExpr e]
  | NTraversalOperator (XTrop _ (XLegacy m n)) => [NU64 m n]
  | NFuncCall ns n args => [NFuncName ns n; NFuncArgs args]
  | NFuncName ns n => map NIdent ns ++ [NIdent n]
  | NFuncArgs args => map NExpr args
  | NForExpr kv vv coll key val cond =>
      NForIntro kv vv coll :: match key with Some k => [NExpr k] | None => [] end ++
      NExpr val :: match cond with Some c => [NForCond c] | None => [] end
  | NForIntro kv vv coll => idents kv ++ [NIdent vv; NExpr coll]
  | NForCond (XForCond _ e) => [NExpr e]
  | NStringTemplate es => map NElement es
  | NHeredocTemplate t => [NTemplate t]
  | NTemplate (XTempl es _) => map NElement es
  | NElement (XLit sp x) => [NLiteral sp x]
  | NElement (XInterp _ e s) => [NInterpolation e s]
  | NElement e => [NDirective e]
  | NInterpolation e _ => [NExpr e]
  | NDirective (XIfD _ _ _ _ _ _ _ _ _ as e) => [NIfDirective e]
  | NDirective (XForD _ _ _ _ _ _ _ _ _ _ as e) => [NForDirective e]
  | NDirective _ => []
  | NIfDirective (XIfD _ _ c t _ el ep et es) =>
      NIfTemplateExpr c t :: match el with Some e => [NElseTemplateExpr e] | None => [] end ++ [NEndif ep et es]
  | NIfDirective _ => []
  | NForDirective (XForD _ _ kv vv coll t _ ep et es) => [NForTemplateExpr kv vv coll t; NEndfor ep et es]
  | NForDirective _ => []
  | NIfTemplateExpr c t => [NExpr c; NTemplate t]
  | NElseTemplateExpr (XElse _ _ t _) => [NTemplate t]
  | NForTemplateExpr kv vv coll t => idents kv ++ [NIdent vv; NExpr coll; NTemplate t]
  end.

(** The parts without the collection of a [for] directive. *)
Definition children' (n : node) : list node :=
  match n with
  | NForTemplateExpr kv vv _ t => idents kv ++ [NIdent vv; NTemplate t]
  | n => children n
  end.

(** [below ch n m]: [m] is [n] or a part of it. *)
Inductive below (ch : node -> list node) : node -> node -> Prop :=
| Below_self n : below ch n n
| Below_part n c m : In c (ch n) -> below ch c m -> below ch n m.
Definition no_for_directive (n : node) : Prop :=
  forall m, below children n m -> match m with NForTemplateExpr _ _ _ _ => False | _ => True end.

(** [Walk n s s']: the hook is called for [n]; if it says so, the parts of [n] are walked one after
    the other. *)
Section Walk.
  Context {S : Type} (ch : node -> list node) (hook : node -> S -> S * bool).
  Inductive Walk : node -> S -> S -> Prop :=
  | Walk_stop n s s' : hook n s = (s', false) -> Walk n s s'
  | Walk_go n s s1 s' : hook n s = (s1, true) -> Walks (ch n) s1 s' -> Walk n s s'
  with Walks : list node -> S -> S -> Prop :=
  | Walks_nil s : Walks [] s s
  | Walks_cons n l s s1 s' : Walk n s s1 -> Walks l s1 s' -> Walks (n :: l) s s'.
End Walk.

(** The part of a node at a position. *)
Fixpoint at_pos (ch : node -> list node) (n : node) (p : list nat) : option node :=
  match p with
  | [] => Some n
  | i :: p => match nth_error (ch n) i with Some m => at_pos ch m p | None => None end
  end.
(** The order in which the nodes at these positions are met when reading the source: a node comes
    before its parts, and before everything to the right of it. *)
Inductive before : list nat -> list nat -> Prop :=
| Before_part i p : before [] (i :: p)
| Before_right (i j : nat) p q : (i < j)%nat -> before (i :: p) (j :: q)
| Before_in i p q : before p q -> before (i :: p) (i :: q).
(** [l] lists every position of [n] exactly once, in that order. *)
Definition enumerates (ch : node -> list node) (n : node) (l : list (list nat * node)) : Prop :=
  StronglySorted (fun a b => before (fst a) (fst b)) l /\ forall p m, In (p, m) l <-> at_pos ch n p = Some m.

(** The keys of the objects in a list of items. *)
Definition item_key (i : xitem) : xkey := match i with XItem k _ _ _ => k end.

(** ** What visiting a tree mutably means

    The keys of attributes and objects are not visited, nor is the collection of a [for] directive. *)
Definition children_mut (n : node) : list node :=
  match n with
  | NAttr _ _ v => [NExpr v]
  | NObjectItem _ i => [NObjectValue i]
  | n => children' n
  end.
Section Mut.
  Context {S : Type} (h : hooks S).
  (** What the hooks make of a leaf; nothing for the other nodes. *)
  Definition new_leaf (n : node) (s : S) : option (S * node) :=
    match n with
    | NIdent i => let (s, i) := h_ident h i s in Some (s, NIdent i)
    | NNull m => let (s, m) := h_null h m s in Some (s, NNull m)
    | NBool m b => let (s, p) := h_bool h (m, b) s in Some (s, NBool (fst p) (snd p))
    | NU64 m n => let (s, p) := h_u64 h (m, n) s in Some (s, NU64 (fst p) (snd p))
    | NNumber m n r => let (s, p) := h_number h (m, n, r) s in Some (s, NNumber (fst (fst p)) (snd (fst p)) (snd p))
    | NString m x => let (s, p) := h_string h (m, x) s in Some (s, NString (fst p) (snd p))
    | NSplat m => let (s, m) := h_splat h m s in Some (s, NSplat m)
    | NLiteral sp x => let (s, p) := h_literal h (sp, x) s in Some (s, NLiteral (fst p) (snd p))
    | NUnaryOperator sp o => let (s, p) := h_unop h (sp, o) s in Some (s, NUnaryOperator (fst p) (snd p))
    | NBinaryOperator m o => let (s, p) := h_binop h (m, o) s in Some (s, NBinaryOperator (fst p) (snd p))
    | NEndif a z t => let (s, p) := h_endif h (a, z, t) s in Some (s, NEndif (fst (fst p)) (snd (fst p)) (snd p))
    | NEndfor a z t => let (s, p) := h_endfor h (a, z, t) s in Some (s, NEndfor (fst (fst p)) (snd (fst p)) (snd p))
    | _ => None
    end.
  (** Changes the state as the hooks do, and writes down the new leaves. *)
  Definition replace (n : node) (s : S * list node) : (S * list node) * bool :=
    match new_leaf n (fst s) with
    | Some (s', n') => ((s', snd s ++ [n']), true)
    | None => (s, true)
    end.
End Mut.
(** Writes down the leaves. *)
Definition leaves (n : node) (l : list node) : list node * bool :=
  (match n with
   | NIdent _ | NNull _ | NBool _ _ | NU64 _ _ | NNumber _ _ _ | NString _ _ | NSplat _ | NLiteral _ _
   | NUnaryOperator _ _ | NBinaryOperator _ _ | NEndif _ _ _ | NEndfor _ _ _ => l ++ [n]
   | _ => l
   end, true).
(** [replaced h n n' s s']: in the walk over the leaves of [n] the hooks, starting in state [s], end up
    in [s'], and what they make of the leaves are the leaves of [n'], in the same order. *)
Definition replaced {S} (h : hooks S) (n n' : node) (s s' : S) : Prop :=
  exists l, Walk children_mut (replace h) n (s, []) (s', l) /\ Walk children_mut leaves n' [] l.

(** The parts first, then the node itself. *)
Section Post.
  Context {S : Type} (ch : node -> list node) (f : node -> S -> S).
  Inductive Post : node -> S -> S -> Prop :=
  | Post_node n s s' : Posts (ch n) s s' -> Post n s (f n s')
  with Posts : list node -> S -> S -> Prop :=
  | Posts_nil s : Posts [] s s
  | Posts_cons n l s s1 s' : Post n s s1 -> Posts l s1 s' -> Posts (n :: l) s s'.
End Post.

(** * Which hcl-rs trees survive the conversion to hcl-edit and back *)
From Coq Require Import NArith Bool String List.
From Verif Require Import Res Str NumberModel PrimModel Ast.
Import ListNotations.

(** Expressions with neither an object nor a template in them. *)
Fixpoint plain (e : expr) : bool :=
  match e with
  | ENull | EBool _ | ENum _ | EStr _ | EVar _ => true
  | EArr l => forallb plain l
  | EObj _ | ETpl _ => false
  | ETrav e ops => plain e && forallb (fun o => match o with Index e => plain e | _ => true end) ops
  | ECall _ args _ => forallb plain args
  | EParen e => plain e
  | ECond c t f => plain c && plain t && plain f
  | EUnary _ e => plain e
  | EBinary l _ r => plain l && plain r
  | EFor _ _ coll key val _ cond =>
      plain coll && (match key with Some k => plain k | None => true end) && plain val &&
      (match cond with Some k => plain k | None => true end)
  end.
Definition plain_key (k : okey expr) : bool := match k with KIdent _ => true | KExpr e => plain e end.

(** The expression with the [...] of every function call removed. *)
Fixpoint unexpand (e : expr) : expr :=
  match e with
  | ENull | EBool _ | ENum _ | EStr _ | EVar _ | EObj _ | ETpl _ => e
  | EArr l => EArr (map unexpand l)
  | ETrav e ops =>
      ETrav (unexpand e) (map (fun o => match o with Index e => Index (unexpand e) | o => o end) ops)
  | ECall f args _ => ECall f (map unexpand args) false
  | EParen e => EParen (unexpand e)
  | ECond c t f => ECond (unexpand c) (unexpand t) (unexpand f)
  | EUnary o e => EUnary o (unexpand e)
  | EBinary l o r => EBinary (unexpand l) o (unexpand r)
  | EFor kv vv coll key val g cond =>
      EFor kv vv (unexpand coll) (option_map unexpand key) (unexpand val) g (option_map unexpand cond)
  end.
Definition unexpand_key (k : okey expr) : okey expr :=
  match k with KIdent s => KIdent s | KExpr e => KExpr (unexpand e) end.

(** Two object keys are apart if they differ in more than the [...] of a call in them. *)
Definition apart_keys (k k' : okey expr) : Prop :=
  okey_eqb expr_eqb (unexpand_key k) (unexpand_key k') = false.

(** [keeps ok e]: the objects of [e] have keys without objects and templates in them, pairwise apart,
    and its templates satisfy [ok]. *)
Section Keeps.
  Context (ok : tplexpr -> Prop).
  Inductive keeps : expr -> Prop :=
  | K_null : keeps ENull
  | K_bool b : keeps (EBool b)
  | K_num n : keeps (ENum n)
  | K_str s : keeps (EStr s)
  | K_arr l : Forall keeps l -> keeps (EArr l)
  | K_obj m : Forall (fun p => plain_key (fst p) = true /\ keeps (snd p)) m ->
      ForallOrdPairs apart_keys (map fst m) -> keeps (EObj m)
  | K_tpl t : ok t -> keeps (ETpl t)
  | K_var x : keeps (EVar x)
  | K_trav e ops : keeps e ->
      (forall i, In (Index i) ops -> keeps i) -> keeps (ETrav e ops)
  | K_call f args b : Forall keeps args -> keeps (ECall f args b)
  | K_paren e : keeps e -> keeps (EParen e)
  | K_cond c t f : keeps c -> keeps t -> keeps f -> keeps (ECond c t f)
  | K_unary o e : keeps e -> keeps (EUnary o e)
  | K_binary l o r : keeps l -> keeps r -> keeps (EBinary l o r)
  | K_for kv vv coll key val g cond : keeps coll ->
      (forall k, key = Some k -> keeps k) -> keeps val ->
      (forall c, cond = Some c -> keeps c) -> keeps (EFor kv vv coll key val g cond).

  (** Templates: a directive without an [else] has no [else] strip mode. *)
  Inductive keeps_elem : elem -> Prop :=
  | KE_lit s : keeps_elem (ElLit s)
  | KE_interp e s : keeps e -> keeps_elem (ElInterp e s)
  | KE_if c t f s1 s2 s3 : keeps c -> Forall keeps_elem t ->
      (forall t', f = Some t' -> Forall keeps_elem t') -> (f = None -> s2 = StripNone) ->
      keeps_elem (ElIf c t f s1 s2 s3)
  | KE_for kv vv coll t s1 s2 : keeps coll -> Forall keeps_elem t -> keeps_elem (ElFor kv vv coll t s1 s2).

  (** Bodies: no two attributes of a body have the same key. *)
  Definition attr_keys (b : rbody) : list str :=
    flat_map (fun s => match s with SAttribute k _ => [k] | SBlk _ _ _ => [] end) b.
  Inductive keeps_struct : struct_ -> Prop :=
  | KS_attr k e : keeps e -> keeps_struct (SAttribute k e)
  | KS_block i ls b : Forall keeps_struct b -> NoDup (attr_keys b) -> keeps_struct (SBlk i ls b).
  Definition keeps_body (b : rbody) : Prop := Forall keeps_struct b /\ NoDup (attr_keys b).
End Keeps.

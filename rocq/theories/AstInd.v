(** Induction principles for the nested syntax tree types of [Ast]. *)
From Coq Require Import NArith Bool String List.
From Verif Require Import Str NumberModel PrimModel Ast.
Import ListNotations.

Definition okey_all {E} (P : E -> Prop) (k : okey E) : Prop :=
  match k with KIdent _ => True | KExpr e => P e end.
Definition trop_all {E} (P : E -> Prop) (o : trop E) : Prop :=
  match o with Index e => P e | _ => True end.
Definition opt_all {E} (P : E -> Prop) (o : option E) : Prop :=
  match o with Some e => P e | None => True end.

Section ValueInd.
  Context (P : value -> Prop).
  Hypothesis Hnull : P VNull.
  Hypothesis Hbool : forall b, P (VBool b).
  Hypothesis Hnum : forall n, P (VNum n).
  Hypothesis Hstr : forall s, P (VStr s).
  Hypothesis Harr : forall l, Forall P l -> P (VArr l).
  Hypothesis Hobj : forall m, Forall (fun e => P (snd e)) m -> P (VObj m).
  Fixpoint value_ind' (v : value) : P v :=
    match v with
    | VNull => Hnull | VBool b => Hbool b | VNum n => Hnum n | VStr s => Hstr s
    | VArr l => Harr l ((fix go l : Forall P l :=
        match l with [] => Forall_nil _ | x :: l => Forall_cons _ (value_ind' x) (go l) end) l)
    | VObj m => Hobj m ((fix go m : Forall (fun e => P (snd e)) m :=
        match m with [] => Forall_nil _ | (k, x) :: m => Forall_cons (k, x) (value_ind' x) (go m) end) m)
    end.
End ValueInd.

Section ExprInd.
  Context (P : expr -> Prop).
  Hypothesis Hnull : P ENull.
  Hypothesis Hbool : forall b, P (EBool b).
  Hypothesis Hnum : forall n, P (ENum n).
  Hypothesis Hstr : forall s, P (EStr s).
  Hypothesis Harr : forall l, Forall P l -> P (EArr l).
  Hypothesis Hobj : forall m, Forall (fun e => okey_all P (fst e) /\ P (snd e)) m -> P (EObj m).
  Hypothesis Htpl : forall t, P (ETpl t).
  Hypothesis Hvar : forall x, P (EVar x).
  Hypothesis Htrav : forall e ops, P e -> Forall (trop_all P) ops -> P (ETrav e ops).
  Hypothesis Hcall : forall f args b, Forall P args -> P (ECall f args b).
  Hypothesis Hparen : forall e, P e -> P (EParen e).
  Hypothesis Hcond : forall a b c, P a -> P b -> P c -> P (ECond a b c).
  Hypothesis Hunary : forall o e, P e -> P (EUnary o e).
  Hypothesis Hbinary : forall l o r, P l -> P r -> P (EBinary l o r).
  Hypothesis Hfor : forall k v coll key val g cond,
    P coll -> opt_all P key -> P val -> opt_all P cond -> P (EFor k v coll key val g cond).
  Fixpoint expr_ind' (e : expr) : P e :=
    match e with
    | ENull => Hnull | EBool b => Hbool b | ENum n => Hnum n | EStr s => Hstr s
    | EArr l => Harr l ((fix go l : Forall P l :=
        match l with [] => Forall_nil _ | x :: l => Forall_cons _ (expr_ind' x) (go l) end) l)
    | EObj m => Hobj m ((fix go m : Forall (fun e => okey_all P (fst e) /\ P (snd e)) m :=
        match m with
        | [] => Forall_nil _
        | (k, x) :: m => Forall_cons (k, x)
            (conj (match k return okey_all P k with KIdent _ => I | KExpr e => expr_ind' e end)
                  (expr_ind' x)) (go m)
        end) m)
    | ETpl t => Htpl t
    | EVar x => Hvar x
    | ETrav e ops => Htrav e ops (expr_ind' e) ((fix go l : Forall (trop_all P) l :=
        match l with
        | [] => Forall_nil _
        | x :: l => Forall_cons _ (match x return trop_all P x with Index e => expr_ind' e | _ => I end) (go l)
        end) ops)
    | ECall f args b => Hcall f args b ((fix go l : Forall P l :=
        match l with [] => Forall_nil _ | x :: l => Forall_cons _ (expr_ind' x) (go l) end) args)
    | EParen e => Hparen e (expr_ind' e)
    | ECond a b c => Hcond a b c (expr_ind' a) (expr_ind' b) (expr_ind' c)
    | EUnary o e => Hunary o e (expr_ind' e)
    | EBinary l o r => Hbinary l o r (expr_ind' l) (expr_ind' r)
    | EFor k v coll key val g cond =>
        Hfor k v coll key val g cond (expr_ind' coll)
          (match key return opt_all P key with Some e => expr_ind' e | None => I end)
          (expr_ind' val)
          (match cond return opt_all P cond with Some e => expr_ind' e | None => I end)
    end.
End ExprInd.

Section ElemInd.
  Context (P : elem -> Prop).
  Hypothesis Hlit : forall s, P (ElLit s).
  Hypothesis Hinterp : forall e s, P (ElInterp e s).
  Hypothesis Hif : forall e t f s1 s2 s3, Forall P t -> opt_all (Forall P) f -> P (ElIf e t f s1 s2 s3).
  Hypothesis Hfor : forall k v e t s1 s2, Forall P t -> P (ElFor k v e t s1 s2).
  Fixpoint elem_ind' (el : elem) : P el :=
    match el with
    | ElLit s => Hlit s
    | ElInterp e s => Hinterp e s
    | ElIf e t f s1 s2 s3 => Hif e t f s1 s2 s3
        ((fix go l : Forall P l :=
          match l with [] => Forall_nil _ | x :: l => Forall_cons _ (elem_ind' x) (go l) end) t)
        (match f return opt_all (Forall P) f with
         | None => I
         | Some t => (fix go l : Forall P l :=
            match l with [] => Forall_nil _ | x :: l => Forall_cons _ (elem_ind' x) (go l) end) t
         end)
    | ElFor k v e t s1 s2 => Hfor k v e t s1 s2
        ((fix go l : Forall P l :=
          match l with [] => Forall_nil _ | x :: l => Forall_cons _ (elem_ind' x) (go l) end) t)
    end.
End ElemInd.

Section StructInd.
  Context (P : struct_ -> Prop).
  Hypothesis Hattr : forall k e, P (SAttribute k e).
  Hypothesis Hblk : forall i ls b, Forall P b -> P (SBlk i ls b).
  Fixpoint struct_ind' (s : struct_) : P s :=
    match s with
    | SAttribute k e => Hattr k e
    | SBlk i ls b => Hblk i ls b
        ((fix go l : Forall P l :=
          match l with [] => Forall_nil _ | x :: l => Forall_cons _ (struct_ind' x) (go l) end) b)
    end.
End StructInd.

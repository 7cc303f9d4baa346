(** * Where handles may be, and what a balanced state is *)
From Coq Require Import NArith Bool String List.
From Verif Require Import Str NumberModel Ast SerModel.
Import ListNotations.
Open Scope list_scope.

(** Every handle that is alive has been given out, so the next one is new. *)
Definition fresh_reg {T} (r : reg T) : Prop := forall h x, In (h, x) (live r) -> (h < last r)%N.
Definition fresh (s : tls) : Prop := fresh_reg (exprs s) /\ fresh_reg (structs s).
(** The same flag and the same handles alive. *)
Definition balanced (s s' : tls) : Prop :=
  flag s' = flag s /\ live (exprs s') = live (exprs s) /\ live (structs s') = live (structs s).

(** The places a value can be in: a map key (or block label), or a value seen by one of the
    serializers. *)
Inductive pos := AtKey | AtValue | AtExpr | AtBody | AtStructure | AtBlock | AtLabeled.
(** Where the values of maps, structs and newtype variants end up. *)
Definition inner (p : pos) : pos :=
  match p with AtBody | AtBlock => AtStructure | AtStructure => AtExpr | AtLabeled => AtBlock | p => p end.
Definition inner_tuple (p : pos) : pos :=
  match p with AtBody | AtStructure => AtExpr | AtLabeled => AtBlock | p => p end.
Definition inner_seq (p : pos) : pos := match p with AtStructure => AtExpr | p => p end.
Definition inner_newtype (name : str) (p : pos) : pos :=
  match p with
  | AtStructure => if seqb name block_marker then AtBlock else if seqb name labeled_marker then AtLabeled else AtExpr
  | AtBlock => if seqb name labeled_marker then AtLabeled else AtBlock
  | p => p
  end.
Definition pos_of (t : top) : pos := match t with ToExpr => AtExpr | ToBody => AtBody | ToValue => AtValue end.
(** An [Expression] can be where an expression is expected or make up a body; an [Attribute] or a
    [Block] can only be part of a body. *)
Definition accepts (p : pos) (h : hval) : bool :=
  match p, h with
  | AtExpr, HExpr _ | AtStructure, HExpr _ | AtBody, _ => true
  | _, _ => false
  end.
(** The types of the crate occur only where they are accepted; [i]: inside an internal
    serialization.  No struct has the name of an internal marker. *)
Fixpoint placed (i : bool) (p : pos) (d : sd) : bool :=
  match d with
  | DSome d => placed i p d
  | DNewtypeStruct name d => placed i (inner_newtype name p) d
  | DNewtypeVariant _ d => placed i (inner p) d
  | DSeq l => forallb (placed i (inner_seq p)) l
  | DTupleVariant _ l => forallb (placed i (inner_tuple p)) l
  | DMap l => forallb (fun e => match e with (k, d) => placed i AtKey k && placed i (inner p) d end) l
  | DStruct name l =>
      negb (seqb name expr_marker) && negb (seqb name struct_marker) &&
      forallb (fun e => match e with (_, d) => placed i (inner p) d end) l
  | DStructVariant _ l => forallb (fun e => match e with (_, d) => placed i (inner p) d end) l
  | DHandle h d => if i then accepts p h else placed i p d
  | DMarked labeled d => placed i (if i then inner_newtype (if labeled then labeled_marker else block_marker) p else p) d
  | DCall t d ok bad =>
      placed (match t with ToValue => i | _ => true end) (pos_of t) d && placed i p ok && placed i p bad
  | _ => true
  end.

(** No type panics by itself. *)
Fixpoint calm (d : sd) : bool :=
  match d with
  | DPanic => false
  | DSome d | DNewtypeStruct _ d | DNewtypeVariant _ d | DHandle _ d | DMarked _ d => calm d
  | DSeq l | DTupleVariant _ l => forallb calm l
  | DMap l => forallb (fun e => match e with (k, d) => calm k && calm d end) l
  | DStruct _ l | DStructVariant _ l => forallb (fun e => match e with (_, d) => calm d end) l
  | DCall _ d ok bad => calm d && calm ok && calm bad
  | _ => true
  end.

(** A program: any number of calls, one after the other. *)
Section Program.
  Context (u : PrimModel.unicode) (b : NumberModel.build).
  Definition run_top (t : top) (d : sd) (s : tls) : tls :=
    match t with
    | ToExpr => snd (run_expr u b d s)
    | ToBody => snd (run_body u b d s)
    | ToValue => snd (run_value u b d s)
    end.
  Definition run_all (l : list (top * sd)) (s : tls) : tls := fold_left (fun s c => run_top (fst c) (snd c) s) l s.
End Program.

(** ** Values *)

(** Every number in [v] satisfies [P]. *)
Fixpoint numbers (P : num -> Prop) (v : value) : Prop :=
  match v with
  | VNum n => P n
  | VArr l => fold_right (fun v Q => numbers P v /\ Q) True l
  | VObj m => fold_right (fun e Q => numbers P (snd e) /\ Q) True m
  | _ => True
  end.

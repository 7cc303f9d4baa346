(** * Trees which satisfy the invariants of the types of hcl-rs

    Identifiers are valid, numbers satisfy the invariant of [Number] (NumberProofs.num_wf), the index
    of [x.1] is a [u64], and no two keys of an object are equal. *)
From Coq Require Import NArith ZArith Bool String List.
From Verif Require Import Str NumberModel NumberProofs PrimModel Ast ConvFromSpec.
Import ListNotations.

Section Fine.
  Context (u : unicode).
  Definition name (s : str) : Prop := is_ident u s = true.
  Definition maybe {A} (P : A -> Prop) (o : option A) : Prop := forall x, o = Some x -> P x.
  Inductive fine : expr -> Prop :=
  | F_null : fine ENull
  | F_bool b : fine (EBool b)
  | F_num n : num_wf n -> fine (ENum n)
  | F_str s : fine (EStr s)
  | F_arr l : Forall fine l -> fine (EArr l)
  | F_obj m : Forall (fun p => fine_key (fst p) /\ fine (snd p)) m -> keys_apart m -> fine (EObj m)
  | F_quoted s : fine (ETpl (QuotedString s))
  | F_heredoc d t m : name d -> fine (ETpl (Heredoc d t m))
  | F_var x : name x -> fine (EVar x)
  | F_trav e l : fine e -> Forall fine_op l -> fine (ETrav e l)
  | F_call f l x : Forall name (fn_namespace f) -> name (fn_name f) -> Forall fine l -> fine (ECall f l x)
  | F_paren e : fine e -> fine (EParen e)
  | F_cond c t f : fine c -> fine t -> fine f -> fine (ECond c t f)
  | F_unary o e : fine e -> fine (EUnary o e)
  | F_binary l o r : fine l -> fine r -> fine (EBinary l o r)
  | F_for kv vv c k v g co : maybe name kv -> name vv -> fine c -> maybe fine k -> fine v -> maybe fine co ->
      fine (EFor kv vv c k v g co)
  with fine_key : okey expr -> Prop :=
  | F_kid s : name s -> fine_key (KIdent s)
  | F_kexpr e : fine e -> fine_key (KExpr e)
  with fine_op : trop expr -> Prop :=
  | F_attrsplat : fine_op AttrSplat
  | F_fullsplat : fine_op FullSplat
  | F_getattr s : name s -> fine_op (GetAttr s)
  | F_index e : fine e -> fine_op (Index e)
  | F_legacy n : (Z.of_N n <= u64_max)%Z -> fine_op (LegacyIndex n).

  Definition fine_label (l : blabel) : Prop := match l with BLIdent s => name s | BLString _ => True end.
  Inductive fine_struct : struct_ -> Prop :=
  | F_attr k e : name k -> fine e -> fine_struct (SAttribute k e)
  | F_block i ls b : name i -> Forall fine_label ls -> Forall fine_struct b -> fine_struct (SBlk i ls b).
  Definition fine_body (b : rbody) : Prop := Forall fine_struct b.
End Fine.

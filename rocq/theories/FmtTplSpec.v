(** * Which templates are read back from their text

    [tpl_readable]: the template of hcl-rs can be told from its text.  The theorems [C21_tpl_*_refuted]
    of FmtTplProps show that the clauses about literals cannot be dropped. *)
From Coq Require Import NArith ZArith Bool String List.
From Verif Require Import Res Str Dec NumberModel PrimModel PrimProofs Ast.
From Verif Require Import EqSpec FmtModel FmtReadSpec.
Import ListNotations.
Open Scope N_scope.

(** The first character of a template sequence, of what follows a template if there is none. *)
Definition sign_of (k : N) (l : list elem) : N :=
  match l with ElInterp _ _ :: _ => 36 | ElIf _ _ _ _ _ _ :: _ | ElFor _ _ _ _ _ _ :: _ => 37 | _ => k end.
(** Literals are not empty, are not followed by another literal, can be escaped, and do not end with the
    character with which the sequence after them starts (a dollar sign before an interpolation: the text would be that of an escaped
    dollar sign, and nothing is interpolated). *)
Fixpoint literals_ok (k : N) (l : list elem) : Prop :=
  match l with
  | [] => True
  | ElLit s :: r =>
      s <> [] /\ escape_ok s = true /\ last s 0 <> sign_of k r /\
      match r with ElLit _ :: _ => False | _ => True end /\ literals_ok k r
  | _ :: r => literals_ok k r
  end.

Section Readable.
  Context (u : unicode) (b : build) (pf : str -> f64) (sf : f64 -> str) (c : cfg).
  (** The parts of a directive are followed by another one, that is, by a percent sign.  If there is no
      [else], its strip mode is not printed. *)
  Fixpoint elem_readable (e : elem) : Prop :=
    match e with
    | ElLit _ => True
    | ElInterp e _ => readable u b pf sf c e
    | ElIf a t f _ s2 _ =>
        readable u b pf sf c a /\ (lall elem_readable t /\ literals_ok 37 t) /\
        match f with
        | Some t => lall elem_readable t /\ literals_ok 37 t
        | None => s2 = StripNone
        end
    | ElFor kv vv coll t _ _ =>
        oallp (fun x => is_ident u x = true) kv /\ is_ident u vv = true /\ readable u b pf sf c coll /\
        lall elem_readable t /\ literals_ok 37 t
    end.
  Definition tpl_readable (t : template) : Prop := lall elem_readable t /\ literals_ok 0 t.

  (** With [prefer_ident_keys], keys of objects are read as identifiers; see [as_read]. *)
  Fixpoint elem_as_read (e : elem) : elem :=
    match e with
    | ElLit s => ElLit s
    | ElInterp e s => ElInterp (as_read u c e) s
    | ElIf a t f s1 s2 s3 =>
        ElIf (as_read u c a) (map elem_as_read t) (option_map (map elem_as_read) f) s1 s2 s3
    | ElFor kv vv coll t s1 s2 => ElFor kv vv (as_read u c coll) (map elem_as_read t) s1 s2
    end.
  Fixpoint elem_strict (e : elem) : Prop :=
    match e with
    | ElLit _ => True
    | ElInterp e _ => strict e
    | ElIf a t f _ _ _ => strict a /\ lall elem_strict t /\ oallp (lall elem_strict) f
    | ElFor _ _ coll t _ _ => strict coll /\ lall elem_strict t
    end.
End Readable.

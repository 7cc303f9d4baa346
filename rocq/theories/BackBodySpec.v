(** * Which bodies are read back from the text they are printed as *)
From Coq Require Import NArith ZArith Bool String List.
From Verif Require Import Res Str Dec NumberModel PrimModel PrimProofs EAst EncModel EqSpec ParseBase ParseModel BackSpec.
Import ListNotations.
Open Scope N_scope.

Definition label_meta (l : xlabel) : meta := match l with XLStr m _ => m | XLId i => i_meta i end.
(** The text of a label. *)
Definition label_core (l : xlabel) : str := match l with XLStr _ s => quoted s | XLId i => i_name i end.
Definition label_text (l : xlabel) : str := around TRAILING (label_meta l) (label_core l).
Definition attr_names (l : list xstruct) : list str :=
  flat_map (fun s => match s with XAttr _ k _ => [i_name k] | XBlock _ _ _ _ => [] end) l.
(** An identifier is separated from what precedes it, which ends with [g]. *)
Fixpoint spaced (g : str) (ls : list xlabel) : Prop :=
  match ls with
  | [] => True
  | l :: r => match l with XLId _ => g ++ pre TRAILING (label_meta l) <> [] | XLStr _ _ => True end /\
              spaced (suf TRAILING (label_meta l)) r
  end.

Section Ok.
  Context (u : unicode) (b : build) (pf : str -> f64) (sf : f64 -> str).
  Definition label_ok (l : xlabel) : Prop :=
    tidy false (label_meta l) /\ match l with XLId i => is_ident u (i_name i) = true | XLStr _ s => escape_ok s = true end.
  (** [key = value]; line breaks may precede if [nl]. *)
  Definition attr_ok (nl : bool) (k : did) (v : xexpr) : Prop :=
    is_ident u (i_name k) = true /\ gap nl (pre NO (i_meta k)) = true /\ gap false (suf NO (i_meta k)) = true /\
    tidy false (x_meta v) /\ sub (ok u b pf sf false) false v.
  (** A line: comments may precede it, and one may follow. *)
  Definition line_ok (m : meta) : Prop := gap true (pre NO m) = true /\ last_gap false (suf NO m) = true.
  Fixpoint struct_ok (s : xstruct) : Prop :=
    match s with
    | XAttr m k v => line_ok m /\ attr_ok true k v
    | XBlock m i ls b =>
        line_ok m /\ is_ident u (i_name i) = true /\ gap true (pre NO (i_meta i)) = true /\ gap false (suf NO (i_meta i)) = true /\
        lall label_ok ls /\ spaced (suf TRAILING (i_meta i)) ls /\
        match b with
        | XBody bm l true omit =>                        (* on one line *)
            omit = false /\ tidy false bm /\
            match l with [] => True | [XAttr am k v] => tidy false am /\ attr_ok false k v | _ => False end
        | XBody bm l false omit =>
            omit = false /\ last_gap false (pre NO bm) = true /\ gap true (suf NO bm) = true /\
            lall struct_ok l /\ NoDup (attr_names l)
        end
    end.
  (** A body on its own.  If the last line is not terminated, nothing may follow. *)
  Definition body_ok (b : xbody) : Prop :=
    match b with
    | XBody m l one omit =>
        one = false /\ gap true (pre NO m) = true /\ last_gap true (suf NO m) = true /\
        lall struct_ok l /\ NoDup (attr_names l) /\ (omit = true -> l <> [] /\ suf NO m = [])
    end.
End Ok.

(** ** Texts in which a key is repeated

    [repeats t r]: the text [t ++ r] has, at the beginning of [r], the key of an attribute which occurred
    before in the same body.  What precedes it are lines printed by hcl-edit ([lines]) and headers of
    blocks; whatever follows. *)
Section Repeats.
  Context (u : unicode) (b : build) (pf : str -> f64) (sf : f64 -> str).
  Definition lines_of (l : list xstruct) (t : str) : Prop :=
    lall (struct_ok u b pf sf) l /\ NoDup (attr_names l) /\ t = show_body sf (XBody no_meta l false false).
  Inductive repeats : str -> str -> Prop :=
  | R_here l t g k w r : lines_of l t -> In k (attr_names l) -> gap true g = true -> gap false w = true ->
      repeats (t ++ g) (k ++ w ++ [61] ++ r)
  | R_block l t g i w ls c t' r : lines_of l t -> gap true g = true ->
      is_ident u i = true -> gap false w = true -> lall (label_ok u) ls -> spaced w ls -> last_gap false c = true ->
      repeats t' r ->
      repeats (t ++ g ++ i ++ w ++ flat_map label_text ls ++ [123] ++ c ++ [10] ++ t') r.
End Repeats.

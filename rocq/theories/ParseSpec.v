(** * What parsing is expected to guarantee

    Independent of the parser: texts, trees and positions. *)
From Coq Require Import NArith ZArith List String.
From Verif Require Import Str PrimModel NumberModel EAst Grammar.
Import ListNotations.
Open Scope N_scope.

(** [resolved I r r']: the raw string [r] recorded the byte range of whitespace and comments of the
    input [I] (or nothing), and [r'] is the text found there. *)
Inductive resolved (I : str) : raw -> raw -> Prop :=
| Resolved_empty : resolved I REmpty REmpty
| Resolved pre t post :
    I = pre ++ t ++ post -> t <> [] -> triv t -> resolved I (RSpanned (blen pre) (blen pre + blen t)) (RText t).
Definition forget (_ : raw) : raw := REmpty.
Definition leave (r : raw) : raw := r.
Definition is_spanned (r : raw) : Prop := match r with RSpanned _ _ => True | _ => False end.

(** A byte offset at which a character of the input starts, or the end of the input. *)
Definition boundary (I : str) (k : N) : Prop := exists pre post, I = pre ++ post /\ blen pre = k.

(** No two attributes of a body have the same name, and so for the bodies of its blocks. *)
Definition attr_names (l : list xstruct) : list str :=
  flat_map (fun s => match s with XAttr _ k _ => [i_name k] | XBlock _ _ _ _ => [] end) l.
Inductive unique_keys : xbody -> Prop :=
| Unique_keys m l o n :
    NoDup (attr_names l) -> (forall m i ls bd, In (XBlock m i ls bd) l -> unique_keys bd) ->
    unique_keys (XBody m l o n).

(** The input contains a minus sign followed, after whitespace and comments, by a number literal of
    value 2^63 (or, if [parse_f64] returned a negative number, of value -2^63). *)
Definition minus_2_63 (b : build) (parse_f64 : str -> f64) (I : str) : Prop :=
  exists x z d y n, I = x ++ lit "-" ++ z ++ d ++ y /\ triv z /\ gnum b parse_f64 d n /\
    (n = PosInt (2 ^ 63) \/ n = NegInt (- 2 ^ 63)).

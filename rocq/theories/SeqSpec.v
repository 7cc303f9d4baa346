(** * Editing lists: specification (C57) *)
From Coq Require Import NArith Bool String List.
From Verif Require Import Res Str NumberModel PrimModel EAst EncModel EqSpec EatLeaf ParseBase BackSpec SeqModel.
Import ListNotations.
Open Scope nat_scope.

Section Spec.
  Context {A : Type}.
  (** What one call does to the list of elements, and what it returns. *)
  Inductive does : op A -> list A -> list A -> option A -> Prop :=
  | does_clear l : does OClear l [] None
  | does_insert a b x : does (OInsert (List.length a) x) (a ++ b) (a ++ x :: b) None
  | does_push l x : does (OPush x) l (l ++ [x]) None
  | does_pop_empty : does OPop [] [] None
  | does_pop l x : does OPop (l ++ [x]) l (Some x)
  | does_remove a b x : does (ORemove (List.length a)) (a ++ x :: b) (a ++ b) (Some x)
  | does_get_mut a b x y : does (OGetMut (List.length a) y) (a ++ x :: b) (a ++ y :: b) (Some x)
  | does_get_none l i y : List.length l <= i -> does (OGetMut i y) l l None
  | does_iter_mut l l' f : Forall2 (fun x y => y = f x) l l' -> does (OIterMut f) l l' None
  | does_extend l l' : does (OExtend l') l (l ++ l') None
  | does_trailing l r : does (OTrailing r) l l None
  | does_comma l y : does (OComma y) l l None
  | does_expand l y : does (OExpand y) l l None.
  (** The calls that panic. *)
  Definition out_of_bounds (o : op A) (l : list A) : Prop :=
    match o with
    | OInsert i _ => List.length l < i
    | ORemove i => List.length l <= i
    | _ => False
    end.
  (** A history of calls. *)
  Inductive history : list (op A) -> list A -> list A -> list (option A) -> Prop :=
  | history_nil l : history [] l l []
  | history_cons o os l l1 l2 r rs : does o l l1 r -> history os l1 l2 rs -> history (o :: os) l l2 (r :: rs).

  (** Everything that the calls put in satisfies [P], the trailing text [T]. *)
  Definition puts (P : A -> Prop) (T : raw -> Prop) (o : op A) : Prop :=
    match o with
    | OInsert _ x | OPush x | OGetMut _ x => P x
    | OIterMut f => forall x, P x -> P (f x)
    | OExtend l => Forall P l
    | OTrailing r => T r
    | _ => True
    end.
  Definition good (P : A -> Prop) (T : raw -> Prop) (s : seq A) : Prop := Forall P (items s) /\ T (trailing s).

  (** The setting which was made last. *)
  Fixpoint latest {B} (f : op A -> option B) (os : list (op A)) (old : B) : B :=
    match os with [] => old | o :: os => latest f os (match f o with Some new => new | None => old end) end.
End Spec.

(** Elements of an array and arguments of a call which are read back from their text, and names of
    functions (BackSpec.v). *)
Definition elem (u : unicode) (b : build) (pf : str -> f64) (sf : f64 -> str) (q : bool) (e : xexpr) : Prop :=
  elem_in (ok u b pf sf q) true e.
Definition callee (u : unicode) (ns : list did) (n : did) (am : meta) : Prop :=
  lall (fun i => is_ident u (i_name i) = true /\ tidy false (i_meta i)) (ns ++ [n]) /\
  match ns ++ [n] with i :: _ => pre NO (i_meta i) = [] /\ i_name i <> lit "for" | [] => True end /\ snug am.

(** Templates: literals one after the other are one literal, empty ones are none. *)
Fixpoint joined (es : list xelem) : list xelem :=
  match es with
  | [] => []
  | XLit _ [] :: r => joined r
  | XLit _ s :: r => match joined r with XLit _ s' :: j => XLit None (s ++ s') :: j | j => XLit None s :: j end
  | e :: r => e :: joined r
  end.
(** No marker [${] or [%{] where two literals meet. *)
Fixpoint seams (es : list xelem) : Prop :=
  match es with
  | [] => True
  | e :: r =>
      match e, joined r with
      | XLit _ s, XLit _ (c :: _) :: _ => is_mark (last s 0%N) && (c =? 123)%N = false
      | _, _ => True
      end /\ seams r
  end.

(** * Editing arrays, function arguments and templates of hcl-edit

    Models crates/hcl-edit/src/expr/array.rs, expr/func_call.rs and template/mod.rs: three types which
    wrap a vector in the same way. *)
From Coq Require Import NArith Bool List.
From Verif Require Import Res EAst.
Import ListNotations.
Open Scope nat_scope.

Section Seq.
  Context {A : Type}.

  (** [Array], array.rs:32-38, and [FuncArgs], func_call.rs:97-104, without decor and span, which no
      function here looks at; an array has no [expand_final].  [Template], template/mod.rs:235-238, has
      the elements only. *)
  Record seq := Seq { items : list A; trailing : raw; comma : bool; expand : bool }.

  (** [Default], [new], [with_capacity] (array.rs:43-54, func_call.rs:109-120, template/mod.rs:243-254;
      capacities are not modelled); [From<Vec<_>>], array.rs:185-192, func_call.rs:262-269,
      template/mod.rs:460-467. *)
  Definition new : seq := Seq [] REmpty false false.
  Definition of_vec (l : list A) : seq := Seq l REmpty false false.
  Definition with_items (s : seq) (l : list A) : seq := Seq l (trailing s) (comma s) (expand s).

  (** [len], [is_empty], [get]: array.rs:58-79, func_call.rs:124-145, template/mod.rs:258-279. *)
  Definition len (s : seq) : nat := length (items s).
  Definition is_empty (s : seq) : bool := match items s with [] => true | _ => false end.
  Definition get (s : seq) (i : nat) : option A := nth_error (items s) i.
  (** template/mod.rs:361-366. *)
  Definition as_single_element (s : seq) : option A := match len s with 1 => get s 0 | _ => None end.

  (** [Vec::insert] and [Vec::remove] of the standard library, which shift the elements behind; panics are
      documented for an index above the length, or not below it. *)
  Fixpoint vec_insert (l : list A) (i : nat) (x : A) : res (list A) :=
    match i, l with
    | 0, l => Done (x :: l)
    | S i, y :: l => rmap (cons y) (vec_insert l i x)
    | S _, [] => Panic
    end.
  Fixpoint vec_remove (l : list A) (i : nat) : res (list A * A) :=
    match l, i with
    | [], _ => Panic
    | x :: l, 0 => Done (l, x)
    | x :: l, S i => rmap (fun p => (x :: fst p, snd p)) (vec_remove l i)
    end.
  (** [Vec::pop]. *)
  Fixpoint vec_pop (l : list A) : list A * option A :=
    match l with
    | [] => ([], None)
    | [x] => ([], Some x)
    | x :: l => let (l, y) := vec_pop l in (x :: l, y)
    end.
  (** Writing through the reference of [get_mut]. *)
  Fixpoint vec_set (l : list A) (i : nat) (x : A) : list A :=
    match l, i with
    | [], _ => []
    | _ :: l, 0 => x :: l
    | y :: l, S i => y :: vec_set l i x
    end.

  (** One call: [clear], [insert], [push], [pop], [remove], [get_mut], [iter_mut] (array.rs:70-141,
      func_call.rs:136-206, template/mod.rs:270-341), [extend] (array.rs:194-211, func_call.rs:271-288,
      template/mod.rs:484-501), [set_trailing], [set_trailing_comma], [set_expand_final] (array.rs:151-165,
      func_call.rs:216-242).  Space is reserved without effect on the elements.
      A client of [get_mut] and [iter_mut] replaces the elements it gets. *)
  Inductive op :=
  | OClear | OInsert (i : nat) (x : A) | OPush (x : A) | OPop | ORemove (i : nat)
  | OGetMut (i : nat) (x : A) | OIterMut (f : A -> A) | OExtend (l : list A)
  | OTrailing (r : raw) | OComma (yes : bool) | OExpand (yes : bool).

  Definition push (s : seq) (x : A) : seq := with_items s (items s ++ [x]).
  (** The new state and the element which is returned; [Panic] if the call panics. *)
  Definition step (s : seq) (o : op) : res (seq * option A) :=
    match o with
    | OClear => Done (with_items s [], None)
    | OInsert i x => rmap (fun l => (with_items s l, None)) (vec_insert (items s) i x)
    | OPush x => Done (push s x, None)
    | OPop => let (l, x) := vec_pop (items s) in Done (with_items s l, x)
    | ORemove i => rmap (fun p => (with_items s (fst p), Some (snd p))) (vec_remove (items s) i)
    | OGetMut i x => Done (with_items s (vec_set (items s) i x), get s i)
    | OIterMut f => Done (with_items s (map f (items s)), None)
    | OExtend l => Done (fold_left push l s, None)
    | OTrailing r => Done (Seq (items s) r (comma s) (expand s), None)
    | OComma yes => Done (Seq (items s) (trailing s) yes (expand s), None)
    | OExpand yes => Done (Seq (items s) (trailing s) (comma s) yes, None)
    end.
  (** A program: the state at the end and what was returned. *)
  Fixpoint run (s : seq) (os : list op) : res (seq * list (option A)) :=
    match os with
    | [] => Done (s, [])
    | o :: os =>
        match step s o with
        | Done (s, r) => rmap (fun p => (fst p, r :: snd p)) (run s os)
        | Panic => Panic
        end
    end.
  (** [FromIterator], array.rs:213-227, func_call.rs:290-304, template/mod.rs:503-517. *)
  Definition from_iter (l : list A) : seq := fold_left push l new.
End Seq.
Arguments seq : clear implicits.
Arguments op : clear implicits.

(** The expressions with these parts. *)
Definition array_of (m : meta) (s : seq xexpr) : xexpr := XArr m (items s) (comma s) (trailing s).
Definition call_of (m : meta) (ns : list did) (n : did) (am : meta) (s : seq xexpr) : xexpr :=
  XCall m ns n am (items s) (expand s) (comma s) (trailing s).

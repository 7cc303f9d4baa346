(** * Iterators over the bodies of hcl-rs, builders

    Models crates/hcl-rs/src/structure/iter.rs, body.rs (iterators, [BodyBuilder]) and block.rs
    ([BlockBuilder]).  Iterators of the standard library over slices and vectors are double-ended queues
    of the elements that are left. *)
From Coq Require Import NArith Arith Bool List.
From Verif Require Import Str Ast.
Import ListNotations.

(** ** Iterators *)

(** [slice::Iter] and [vec::IntoIter]: [next] and [next_back]. *)
Definition next {A} (l : list A) : option A * list A :=
  match l with [] => (None, []) | x :: l => (Some x, l) end.
Definition next_back {A} (l : list A) : option A * list A :=
  match rev l with [] => (None, []) | x :: r => (Some x, rev r) end.

Section FindMap.
  Context {A B : Type} (f : A -> option B).
  (** [impl_find_map_iterator!], iter.rs:8-35: [next] is [Iterator::find_map]. *)
  Fixpoint find_map (l : list A) : option B * list A :=
    match l with
    | [] => (None, [])
    | x :: l => match f x with Some y => (Some y, l) | None => find_map l end
    end.
  (** The loop of [next_back], iter.rs:19-30.  The number of rounds is a parameter; [find_back] has one
      for each element and one for the end. *)
  Fixpoint back_loop (n : nat) (l : list A) : option B * list A :=
    match n with
    | O => (None, l)
    | S n =>
        match next_back l with
        | (Some x, l) => match f x with Some y => (Some y, l) | None => back_loop n l end
        | (None, l) => (None, l)
        end
    end.
  Definition find_back (l : list A) : option B * list A := back_loop (S (length l)) l.
End FindMap.

(** [Structure::as_attribute], [into_attribute], [as_block], [into_block], structure/mod.rs:92-138. *)
Definition attribute := (str * expr)%type.
Definition block := (str * list blabel * rbody)%type.
Definition as_attribute (s : struct_) : option attribute :=
  match s with SAttribute k e => Some (k, e) | SBlk _ _ _ => None end.
Definition as_block (s : struct_) : option block :=
  match s with SBlk i ls b => Some (i, ls, b) | SAttribute _ _ => None end.

(** The calls of a client: from the front or from the back. *)
Inductive side := Front | Back.
(** [Iter], [IntoIter], iter.rs:37-65 with 125-183: the iterator of the standard library. *)
Definition step_all (s : side) (l : rbody) : option struct_ * rbody :=
  match s with Front => next l | Back => next_back l end.
(** [Iter::len], [size_hint], iter.rs:46-48, 58-60. *)
Definition len_all (l : rbody) : nat := length l.
Definition size_hint_all (l : rbody) : nat * option nat := (length l, Some (length l)).
(** [Attributes], [IntoAttributes], [Blocks], [IntoBlocks], iter.rs:185-297. *)
Definition step_attributes (s : side) (l : rbody) : option attribute * rbody :=
  match s with Front => find_map as_attribute l | Back => find_back as_attribute l end.
Definition step_blocks (s : side) (l : rbody) : option block * rbody :=
  match s with Front => find_map as_block l | Back => find_back as_block l end.

(** A history of calls: the answers, and what is left in the iterator. *)
Section Run.
  Context {S A : Type} (step : side -> S -> option A * S).
  Fixpoint run (h : list side) (s : S) : list (side * option A) * S :=
    match h with
    | [] => ([], s)
    | d :: h => let (a, s) := step d s in let (r, s) := run h s in ((d, a) :: r, s)
    end.
End Run.

(** ** Mutable iterators

    [IterMut], [AttributesMut] and [BlocksMut], iter.rs:144-161, 202-223, 261-278: they go through
    references into the body.  A reference is the position of the structure; writing through it changes
    the body.  Each call of a history comes with what the client writes to the element it gets; an answer
    is the element and what was written.  (The borrow checker of Rust allows the client to write later,
    while the iterator goes on; as no position is returned twice, this makes no difference.) *)
Definition set_nth {A} (i : nat) (x : A) (l : list A) : list A :=
  match skipn i l with [] => l | _ :: r => firstn i l ++ x :: r end.
Definition of_attribute (a : attribute) : struct_ := SAttribute (fst a) (snd a).
Definition of_block (x : block) : struct_ := SBlk (fst (fst x)) (snd (fst x)) (snd x).
Section Mut.
  Context {A : Type} (view : struct_ -> option A) (put : A -> struct_).
  (** The map of the iterator at a position of the body, [Structure::as_attribute_mut] and
      [as_block_mut], structure/mod.rs:108-113, 133-138. *)
  Definition view_at (l : rbody) (i : nat) : option (nat * A) :=
    match nth_error l i with Some s => option_map (fun a => (i, a)) (view s) | None => None end.
  Definition find_at (d : side) (l : rbody) (todo : list nat) : option (nat * A) * list nat :=
    match d with Front => find_map (view_at l) todo | Back => find_back (view_at l) todo end.
  Fixpoint run_at (h : list (side * (A -> A))) (l : rbody) (todo : list nat)
    : list (side * option (A * A)) * rbody :=
    match h with
    | [] => ([], l)
    | (d, w) :: h =>
        match find_at d l todo with
        | (Some (i, a), todo) => let (r, l) := run_at h (set_nth i (put (w a)) l) todo in ((d, Some (a, w a)) :: r, l)
        | (None, todo) => let (r, l) := run_at h l todo in ((d, None) :: r, l)
        end
    end.
  (** The answers of a history of calls, and the body afterwards. *)
  Definition run_mut (h : list (side * (A -> A))) (l : rbody) : list (side * option (A * A)) * rbody :=
    run_at h l (seq 0 (length l)).
End Mut.
(** [body.iter_mut()], [body.attributes_mut()], [body.blocks_mut()], body.rs:93-95, 143-145, 214-216.
    ([IterMut] is the iterator of the standard library; it is modelled as one that skips nothing.) *)
Definition iter_mut := run_mut (fun s => Some s) (fun s => s).
Definition attributes_mut := run_mut as_attribute of_attribute.
Definition blocks_mut := run_mut as_block of_block.

(** ** Builders *)

(** [Extend] and [FromIterator], iter.rs:67-93 (capacities are left out). *)
Definition extend (b : rbody) (l : list struct_) : rbody := b ++ l.
Definition from_iter (l : list struct_) : rbody := extend [] l.
(** The calls of [BodyBuilder], body.rs:318-388, and of [BlockBuilder], block.rs:204-317. *)
Inductive bcall :=
| AddAttribute (a : attribute) | AddAttributes (l : list attribute)
| AddBlock (x : block) | AddBlocks (l : list block)
| AddStructure (s : struct_) | AddStructures (l : list struct_)
| AddLabel (l : blabel) | AddLabels (l : list blabel).
Definition add_structure (s : struct_) (b : rbody) : rbody := b ++ [s].
Definition add_structures (l : list struct_) (b : rbody) : rbody := b ++ l.
Definition body_call (c : bcall) (b : rbody) : rbody :=
  match c with
  | AddAttribute a => add_structure (of_attribute a) b
  | AddAttributes l => add_structures (map of_attribute l) b
  | AddBlock x => add_structure (of_block x) b
  | AddBlocks l => add_structures (map of_block l) b
  | AddStructure s => add_structure s b
  | AddStructures l => add_structures l b
  | AddLabel _ | AddLabels _ => b   (* not a call of [BodyBuilder] *)
  end.
(** [Body::builder()], calls, [build()]. *)
Definition build_body (cs : list bcall) : rbody := from_iter (fold_left (fun b c => body_call c b) cs []).
(** [Block::builder(i)], calls, [build()]. *)
Definition block_call (c : bcall) (st : list blabel * rbody) : list blabel * rbody :=
  match c with
  | AddLabel l => (fst st ++ [l], snd st)
  | AddLabels ls => (fst st ++ ls, snd st)
  | c => (fst st, body_call c (snd st))
  end.
Definition build_block (i : str) (cs : list bcall) : block :=
  let st := fold_left (fun st c => block_call c st) cs ([], []) in (i, fst st, from_iter (snd st)).

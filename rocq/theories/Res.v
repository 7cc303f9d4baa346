(** Outcome of a Rust computation which may panic.  A panic is data, never a default value. *)
From Coq Require Import List.
Import ListNotations.

Inductive res (A : Type) : Type :=
| Done (a : A)
| Panic.
Arguments Done {A} _.
Arguments Panic {A}.

Definition rbind {A B} (x : res A) (f : A -> res B) : res B :=
  match x with Done a => f a | Panic => Panic end.
Definition rmap {A B} (f : A -> B) (x : res A) : res B :=
  match x with Done a => Done (f a) | Panic => Panic end.

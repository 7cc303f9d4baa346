(** * Where a position in a text is: specification

    A position is given by the text before it and the text from it on. *)
From Coq Require Import NArith Arith Bool List.
From Verif Require Import Str.
Import ListNotations.
Open Scope nat_scope.

Definition newline : chr := 10%N.

(** One more than the number of newlines before the position. *)
Definition line_number (before : str) : nat := 1 + count_occ N.eq_dec before newline.

(** [rest] is the part of the current line before the position: what follows the last newline. *)
Definition line_start (before rest : str) : Prop :=
  ~ In newline rest /\ (before = rest \/ exists above, before = above ++ newline :: rest).
(** [rest] is the part of the current line from the position on: what precedes the next newline. *)
Definition line_end (after rest : str) : Prop :=
  ~ In newline rest /\ (after = rest \/ exists below, after = rest ++ newline :: below).

(** * What a shown parse error looks like *)
From Coq Require Import NArith Arith Bool Ascii String List.
From Verif Require Import Str Dec LocSpec ErrShowModel.
Import ListNotations.
Open Scope nat_scope.
Open Scope list_scope.

(** Six lines. *)
Fixpoint unlines (l : list str) : str :=
  match l with [] => [] | [x] => x | x :: l => x ++ newline :: unlines l end.
Definition no_newline (s : str) : Prop := ~ In newline s.
(** [n] in decimal. *)
Definition is_number (s : str) (n : nat) : Prop :=
  forallb is_digit s = true /\ digits_val s = N.of_nat n /\ s <> [].

(** The report of an error in line [line]: the source line is [l ++ r], the error is at [r].  [src] shows
    the source line after a margin, [under] is the line below it: it has a caret, and the caret is below
    the first character of [r]. *)
Definition report_of (line : nat) (l r message text : str) : Prop :=
  exists num head bar src under bar' msg margin,
    text = unlines [head; bar; src; under; bar'; msg] /\
    is_number num line /\
    src = num ++ lit " | " ++ l ++ r /\
    under = margin ++ lit " | " ++ repeat 32%N (List.length l) ++ lit "^---" /\
    margin = repeat 32%N (List.length num) /\
    msg = margin ++ lit " = " ++ message /\
    (exists col, is_number col (1 + List.length l) /\
       head = margin ++ lit "--> HCL parse error in line " ++ num ++ lit ", column " ++ col) /\
    bar = margin ++ lit " |" /\ bar' = bar.

(** A list of alternatives. *)
Fixpoint commas (l : list str) : str :=
  match l with [] => [] | [x] => x | x :: l => x ++ lit ", " ++ commas l end.
Definition alternatives (l : list str) (s : str) : Prop :=
  (exists x, l = [x] /\ s = x) \/
  (exists front x, front <> [] /\ l = front ++ [x] /\ s = commas front ++ lit " or " ++ x).
(** The label comes from the innermost context that has one. *)
Definition first_label (cs : list context) (l : option str) : Prop :=
  match l with
  | None => forall s, ~ In (Label s) cs
  | Some s => exists a b, cs = a ++ Label s :: b /\ forall t, ~ In (Label t) a
  end.
Fixpoint wanted (cs : list context) : list str :=
  match cs with [] => [] | Expected s :: cs => s :: wanted cs | Label _ :: cs => wanted cs end.

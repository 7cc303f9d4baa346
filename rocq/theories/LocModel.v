(** * Location of parse errors

    Models [locate_error], crates/hcl-edit/src/parser/error.rs:118-166.  The input is the byte
    sequence of a [&str]; [err_offset] is [ParseError::offset].  Indexing a slice out of range panics. *)
From Coq Require Import NArith Arith Bool List.
From Verif Require Import Res Str Utf8.
Import ListNotations.
Open Scope nat_scope.

Record location := { loc_line : nat; loc_column : nat; loc_offset : nat }.

(** [&input[..n]] and [&input[n..]]. *)
Definition slice_to {A} (l : list A) (n : nat) : res (list A) :=
  if Nat.leb n (length l) then Done (firstn n l) else Panic.
Definition slice_from {A} (l : list A) (n : nat) : res (list A) :=
  if Nat.leb n (length l) then Done (skipn n l) else Panic.
(** [&input[a..b]]. *)
Definition slice {A} (l : list A) (a b : nat) : res (list A) :=
  if Nat.leb a b && Nat.leb b (length l) then Done (firstn (b - a) (skipn a l)) else Panic.

(** [Iterator::position]. *)
Fixpoint position {A} (p : A -> bool) (l : list A) : option nat :=
  match l with
  | [] => None
  | x :: l => if p x then Some 0 else option_map S (position p l)
  end.
Definition is_nl (b : N) : bool := N.eqb b 10.

(** [a - b] on [usize] (the debug profile panics on underflow). *)
Definition usub (a b : nat) : res nat := if Nat.leb b a then Done (a - b) else Panic.

Definition locate_error (input : list N) (err_offset : nat) : res (list N * location) :=
  match input with
  | [] => Done (input, {| loc_line := 1; loc_column := 1; loc_offset := 0 |})
  | _ =>
      rbind (usub (length input) 1) (fun last =>
      let offset := Nat.min err_offset last in
      rbind (usub err_offset offset) (fun column_offset =>
      rbind (slice_to input offset) (fun before =>
      rbind (match position is_nl (rev before) with
             | Some pos => usub offset pos
             | None => Done 0
             end) (fun line_begin =>
      rbind (slice_from input line_begin) (fun tail =>
      rbind (match position is_nl tail with
             | Some pos => slice input line_begin (line_begin + pos)
             | None => Done tail
             end) (fun line_context =>
      rbind (slice_to input line_begin) (fun above =>
      let line := length (filter is_nl above) + 1 in
      rbind (slice input line_begin (offset + 1)) (fun cols =>
      rbind (match decode cols with
             | Some s => Done (length s)
             | None => rmap (fun x => x + 1) (usub offset line_begin)
             end) (fun column =>
      Done (line_context,
            {| loc_line := line; loc_column := column + column_offset; loc_offset := offset |}))))))))))
  end.

(** * How parse errors are shown

    Models [Error], [ErrorInner::from_parse_error], [spacing], [Display for ErrorInner] and
    [format_context_error], crates/hcl-edit/src/parser/error.rs:6-91, 171-221.  The texts of labels,
    expected values and causes come from the crate winnow and from the callers: they are given as they
    are shown. *)
From Coq Require Import NArith Arith Bool Ascii String List.
From Verif Require Import Res Str Dec Utf8 LocModel.
Import ListNotations.
Open Scope nat_scope.
Open Scope list_scope.

(** [StrContext]. *)
Inductive context := Label (s : str) | Expected (s : str).

(** The loop over the expectations, error.rs:200-211: [i] of [n]. *)
Fixpoint expectations (n i : nat) (l : list str) : str :=
  match l with
  | [] => []
  | e :: l =>
      (if Nat.eqb i (n - 1) then lit " or " else if Nat.ltb 0 i then lit ", " else []) ++ e ++
      expectations n (S i) l
  end.
Fixpoint label_of (cs : list context) : option str :=
  match cs with [] => None | Label s :: _ => Some s | _ :: cs => label_of cs end.
Definition expected_of (cs : list context) : list str :=
  flat_map (fun c => match c with Expected s => [s] | _ => [] end) cs.
(** [format_context_error], error.rs:171-221. *)
Definition format_context_error (cs : list context) (cause : option str) : str :=
  (match label_of cs with Some l => lit "invalid " ++ l ++ lit "; " | None => [] end) ++
  (match expected_of cs with
   | [] => lit "unexpected token"
   | [e] => lit "expected " ++ e
   | es => lit "expected " ++ expectations (List.length es) 0 es
   end) ++
  (match cause with Some c => lit "; " ++ c | None => [] end).

(** [ErrorInner], error.rs:50-54. *)
Record error_inner := { e_message : str; e_line : str; e_location : location }.
(** [String::from_utf8_lossy].  Simplified for bytes that are no text: all of them are replaced, not only
    the wrong ones.  A line of a [&str] is text. *)
Definition from_utf8_lossy (b : list N) : str := match decode b with Some s => s | None => [65533%N] end.
(** [ErrorInner::from_parse_error], error.rs:57-65. *)
Definition from_parse_error (input : list N) (offset : nat) (cs : list context) (cause : option str)
  : res error_inner :=
  rmap (fun r => {| e_message := format_context_error cs cause; e_line := from_utf8_lossy (fst r);
                    e_location := snd r |})
       (locate_error input offset).
Definition show_nat (n : nat) : str := show_N (N.of_nat n).
(** [spacing], error.rs:67-69. *)
Definition spacing (e : error_inner) : str := repeat 32%N (List.length (show_nat (loc_line (e_location e)))).
(** [{caret:>c$}]: a character, padded on the left to a width. *)
Definition pad_left (width : nat) (c : chr) : str := repeat 32%N (width - 1) ++ [c].
Definition nl : str := [10%N].
(** [Display for ErrorInner], error.rs:72-91. *)
Definition display (e : error_inner) : str :=
  let s := spacing e in
  let l := show_nat (loc_line (e_location e)) in
  let c := loc_column (e_location e) in
  s ++ lit "--> HCL parse error in line " ++ l ++ lit ", column " ++ show_nat c ++ nl ++
  s ++ lit " |" ++ nl ++
  l ++ lit " | " ++ e_line e ++ nl ++
  s ++ lit " | " ++ pad_left c 94%N ++ lit "---" ++ nl ++
  s ++ lit " |" ++ nl ++
  s ++ lit " = " ++ e_message e.
(** [Display for Error], error.rs:44-48. *)
Definition show_error (input : list N) (offset : nat) (cs : list context) (cause : option str) : res str :=
  rmap display (from_parse_error input offset cs cause).

(** * How a quoted string is read

    From the HCL syntax (string literals): "$${" and "%%{" stand
    for "${" and "%{", a backslash starts an escape sequence, every other character stands for itself
    unless it is a quote or begins a template sequence. *)
From Coq Require Import NArith Bool String List.
From Verif Require Import Str Dec PrimModel ParseModel.
Import ListNotations.
Open Scope N_scope.

(** Unicode scalar values: code points but for the surrogates. *)
Definition scalar (c : N) : Prop := c < 55296 \/ 57343 < c <= 1114111.
(** Escape sequences. *)
Inductive escape_seq : str -> N -> Prop :=
| Esc_n : escape_seq (lit "\n") 10 | Esc_r : escape_seq (lit "\r") 13 | Esc_t : escape_seq (lit "\t") 9
| Esc_b : escape_seq (lit "\b") 8 | Esc_f : escape_seq (lit "\f") 12
| Esc_quote : escape_seq [92; 34] 34 | Esc_backslash : escape_seq [92; 92] 92 | Esc_slash : escape_seq [92; 47] 47
| Esc_u4 h c : List.length h = 4%nat -> forallb is_hex h = true -> c = hex_value h -> scalar c ->
    escape_seq ([92; 117] ++ h) c
| Esc_u8 h c : List.length h = 8%nat -> forallb is_hex h = true -> c = hex_value h -> scalar c ->
    escape_seq ([92; 85] ++ h) c.

(** "$${" or "%%{"; a template sequence begins. *)
Definition esc_marker (t : str) : bool := starts_with (lit "$${") t || starts_with (lit "%%{") t.
Definition live_marker (t : str) : bool := starts_with (lit "${") t || starts_with (lit "%{") t.
(** The first character stands for itself. *)
Definition ordinary (t : str) : bool :=
  match t with
  | [] => false
  | c :: _ => negb ((c =? 34) || (c =? 92) || live_marker t || esc_marker t)
  end.
(** [reads r t v]: the text [t], which is followed by [r], stands for the characters [v]. *)
Inductive reads (r : str) : str -> str -> Prop :=
| Reads_end : reads r [] []
| Reads_marker m t v : (m = 36 \/ m = 37) -> reads r t v -> reads r (m :: m :: 123 :: t) (m :: 123 :: v)
| Reads_escape e c t v : escape_seq e c -> reads r t v -> reads r (e ++ t) (c :: v)
| Reads_char c t v : ordinary (c :: t ++ r) = true -> reads r t v -> reads r (c :: t) (c :: v).

(** Property theorems about identifiers (C05), operators (C06) and template markers (C07). *)
From Coq Require Import NArith Bool Ascii String List Lia.
From Verif Require Import Str PrimModel PrimProofs.
Import ListNotations.
Open Scope N_scope.

(** ** C05 *)
Theorem C05_try_new_accepts_iff_valid (u : unicode) (s t : str) :
  ident_try_new u s = Some t <-> valid_ident u s /\ t = s.
Proof.
  unfold ident_try_new. rewrite <- is_ident_valid. destruct (is_ident u s); split.
  - intros H. injection H as <-. auto.
  - intros [_ ->]. reflexivity.
  - discriminate.
  - intros [H _]. discriminate.
Qed.
Print Assumptions C05_try_new_accepts_iff_valid.

Theorem C05_sanitized_valid (u : unicode) (s : str) :
  xid_tables_ok u -> valid_ident u (ident_new_sanitized u s).
Proof. intros U. apply is_ident_valid. exact (sanitized_is_ident u s U). Qed.
Print Assumptions C05_sanitized_valid.

Theorem C05_sanitized_keeps_valid (u : unicode) (s : str) :
  valid_ident u s -> ident_new_sanitized u s = s.
Proof. intros H. apply sanitized_id. apply is_ident_valid. exact H. Qed.
Print Assumptions C05_sanitized_keeps_valid.

Theorem C05_sanitized_idempotent (u : unicode) (s : str) :
  xid_tables_ok u -> ident_new_sanitized u (ident_new_sanitized u s) = ident_new_sanitized u s.
Proof. intros U. apply sanitized_id. exact (sanitized_is_ident u s U). Qed.
Print Assumptions C05_sanitized_idempotent.

(** Sanitizing replaces character by character: the only length change is one leading
    underscore; the empty string becomes "_". *)
Theorem C05_sanitized_length (u : unicode) (s : str) :
  (s = [] -> ident_new_sanitized u s = [95]) /\
  (s <> [] -> length (ident_new_sanitized u s) = length s \/
     (length (ident_new_sanitized u s) = S (length s) /\ hd 0 (ident_new_sanitized u s) = 95)).
Proof. split; [intros ->; reflexivity|exact (sanitized_length u s)]. Qed.
Print Assumptions C05_sanitized_length.

Example C05_example : xid_tables_ok ascii_unicode /\
  valid_ident ascii_unicode (lit "foo-bar_1") /\
  ident_new_sanitized ascii_unicode (lit "1two 3") = lit "_1two_3" /\
  ident_try_new ascii_unicode (lit "1two") = None.
Proof.
  repeat split; try (vm_compute; reflexivity).
  - intros c H. cbn in *. rewrite H. reflexivity.
  - apply is_ident_valid. vm_compute. reflexivity.
Qed.

(** ** C06 *)
Theorem C06_operator_spelling_round_trip :
  (forall o s, unop_from_str s = Some o <-> s = unop_str o) /\
  (forall o s, binop_from_str s = Some o <-> s = binop_str o).
Proof.
  split; intros o s; split.
  - exact (unop_from_inv s o).
  - intros ->. exact (unop_round o).
  - exact (binop_from_inv s o).
  - intros ->. exact (binop_round o).
Qed.
Print Assumptions C06_operator_spelling_round_trip.

Theorem C06_operator_spelling_injective :
  (forall a b, unop_str a = unop_str b -> a = b) /\ (forall a b, binop_str a = binop_str b -> a = b).
Proof.
  split; intros a b H.
  - pose proof (unop_round a) as R. rewrite H, unop_round in R. congruence.
  - pose proof (binop_round a) as R. rewrite H, binop_round in R. congruence.
Qed.
Print Assumptions C06_operator_spelling_injective.

(** The documented levels (HCL spec, "Operations"), loosest first. *)
Definition spec_levels : list (list binop) :=
  [[OpOr]; [OpAnd]; [OpEq; OpNotEq]; [OpLess; OpGreater; OpLessEq; OpGreaterEq]; [OpPlus; OpMinus]; [OpMul; OpDiv; OpMod]].
Theorem C06_precedence_levels (a b : binop) :
  exists i j la lb, nth_error spec_levels i = Some la /\ nth_error spec_levels j = Some lb /\
    In a la /\ In b lb /\ Nat.compare i j = Nat.compare (precedence a) (precedence b).
Proof.
  assert (P : forall o, exists l, nth_error spec_levels (precedence o - 1) = Some l /\ In o l).
  { intros o. destruct o; eexists; (split; [reflexivity|cbn; tauto]). }
  destruct (P a) as (la & A1 & A2). destruct (P b) as (lb & B1 & B2).
  exists (precedence a - 1)%nat, (precedence b - 1)%nat, la, lb.
  repeat split; try assumption. destruct a, b; reflexivity.
Qed.
Print Assumptions C06_precedence_levels.

(** ** C07 *)

(** Exact characterisation: escaped text is read back as the literal [s] if and only if, from
    the first marker on, no run of [$]/[%] of even length stands directly before a [{]. *)
Theorem C07_escape_reads_back_iff (s : str) :
  read_template (escape_markers s) = map TChar s <-> escape_ok s = true.
Proof. symmetry. exact (escape_markers_correct s). Qed.
Print Assumptions C07_escape_reads_back_iff.

(** Missing from the full claim: texts with two adjacent [$]/[%] (see the refutation). *)
Theorem C07_escape_reads_back_partial (s : str) :
  no_adjacent_marks s = true -> read_template (escape_markers s) = map TChar s.
Proof. intros H. apply escape_markers_correct. exact (no_adjacent_escape_ok s H). Qed.
Print Assumptions C07_escape_reads_back_partial.

Theorem C07_unescape_escape_partial (s : str) :
  spaced (from_first_marker s) = true -> unescape_markers (escape_markers s) = s.
Proof. exact (unescape_escape s). Qed.
Print Assumptions C07_unescape_escape_partial.

Theorem C07_unmarked_text_unchanged (s : str) : from_first_marker s = [] -> escape_markers s = s.
Proof. exact (escape_plain s). Qed.
Print Assumptions C07_unmarked_text_unchanged.

(** Both directions change markers only: escaping doubles the [$] or [%] of some [${] and [%{],
    unescaping undoes it for some [$${] and [%%{], and no other character is touched. *)
Theorem C07_escape_changes_markers_only (s : str) : unescaped (escape_markers s) s.
Proof. exact (escape_only s). Qed.
Print Assumptions C07_escape_changes_markers_only.
Theorem C07_unescape_changes_markers_only (s : str) : unescaped s (unescape_markers s).
Proof. exact (unescape_only s). Qed.
Print Assumptions C07_unescape_changes_markers_only.

(** [${a}%${b}] is escaped to [$${a}%${b}]: the literal text becomes an interpolation of [b]. *)
Theorem C07_escape_leaves_marker_refuted :
  exists s, In (TMarker 36) (read_template (escape_markers s)).
Proof. exists (lit "${a}%${b}"). vm_compute. tauto. Qed.
Print Assumptions C07_escape_leaves_marker_refuted.

(** [${a}$${b}] comes back as [${a}${b}]; [${a}$b${c}] comes back as [${a}$b$${c}]. *)
Theorem C07_round_trip_refuted :
  (exists s, unescape_markers (escape_markers s) <> s) /\
  (exists s, escape_ok s = true /\ unescape_markers (escape_markers s) <> s).
Proof.
  split.
  - exists (lit "${a}$${b}"). vm_compute. discriminate.
  - exists (lit "${a}$b${c}"). vm_compute. split; [reflexivity|discriminate].
Qed.
Print Assumptions C07_round_trip_refuted.

Example C07_example :
  no_adjacent_marks (lit "a $ b ${x} 5% %{if y}") = true /\
  spaced (from_first_marker (lit "a $ b ${x} 5%0 %{if y}")) = true /\
  escape_ok (lit "$$${x} $$%${") = false /\ escape_ok (lit "$$${x} $$${") = true.
Proof. repeat split; vm_compute; reflexivity. Qed.

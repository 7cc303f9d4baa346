(** * Properties of reading literals: C19, C20 *)
From Coq Require Import NArith ZArith Bool String List Lia.
From Verif Require Import Res Str Dec NumberModel PrimModel PrimProofs EAst EncModel ParseBase ParseModel StrSpec StrProofs EatLeaf ReadProofs.
Import ListNotations.
Open Scope N_scope.

Notation rd_expr s := (parse_expr ascii_unicode Release (fun _ => f64_of_Z 12) s).

(** ** C19: quoted strings *)

(** What any text between quotes stands for (StrSpec: escape sequences, doubled template markers and
    ordinary characters) is what the parser returns. *)
Theorem C19_string_literals : forall u b pf t v, reads [34] t v ->
  exists m, parse_expr u b pf ([34] ++ t ++ [34]) = Parsed (XStr m v).
Proof. intros u b pf. apply parse_string. Qed.
Print Assumptions C19_string_literals.

(** Printing a string and parsing it gives it back.  [quoted] is what the encoder prints.  Missing:
    strings in which [escape_markers] leaves a live template marker (see the refutation). *)
Theorem C19_quoted_round_trip_partial : forall u b pf s,
  read_template (escape_markers s) = map TChar s ->
  exists m, parse_expr u b pf (quoted s) = Parsed (XStr m s).
Proof. intros u b pf s H. apply parse_quoted. now apply escape_markers_correct. Qed.
Print Assumptions C19_quoted_round_trip_partial.

(** In particular every string in which no two of the characters '$' and '%' are adjacent. *)
Theorem C19_quoted_round_trip_no_adjacent_partial : forall u b pf s,
  no_adjacent_marks s = true -> exists m, parse_expr u b pf (quoted s) = Parsed (XStr m s).
Proof. intros u b pf s H. apply parse_quoted. now apply no_adjacent_escape_ok. Qed.
Print Assumptions C19_quoted_round_trip_no_adjacent_partial.

Example C19_example : exists m,
  rd_expr (quoted (lit "a${b}" ++ [10; 34; 92; 8364; 7] ++ lit "%{c}$")) = Parsed (XStr m (lit "a${b}" ++ [10; 34; 92; 8364; 7] ++ lit "%{c}$")).
Proof. apply C19_quoted_round_trip_partial. reflexivity. Qed.
Example C19_example_reads : reads [34] (lit "x" ++ [92; 117] ++ lit "00e9$${") (lit "x" ++ [233] ++ lit "${").
Proof.
  cbn [app lit map list_ascii_of_string]. apply Reads_char; [reflexivity|].
  apply (Reads_escape _ ([92; 117] ++ lit "00e9") 233 (lit "$${") (lit "${")); [apply (Esc_u4 (lit "00e9")); try reflexivity; now left|].
  apply (Reads_marker _ 36 [] []); [auto|constructor].
Qed.

(** A code point which is not a Unicode scalar value cannot be written: an escape sequence for a surrogate
    or a number above 0x10FFFF is an error. *)
Theorem C19_code_points : forall u b pf h, forallb is_hex h = true -> ~ scalar (hex_value h) ->
  (List.length h = 4%nat -> exists o, parse_expr u b pf ([34; 92; 117] ++ h ++ [34]) = ParseError o) /\
  (List.length h = 8%nat -> exists o, parse_expr u b pf ([34; 92; 85] ++ h ++ [34]) = ParseError o).
Proof. intros u b pf h H1 H2. split; intros H3; eapply parse_bad_escape; eauto. Qed.
Print Assumptions C19_code_points.
Example C19_example_surrogate : ~ scalar (hex_value (lit "d800")) /\ ~ scalar (hex_value (lit "00110000")).
Proof. split; vm_compute; intros [H|[H1 H2]]; (discriminate || now apply H2 || congruence). Qed.

(** But an unknown escape sequence after at least one character is dropped without an error: the error
    that it raises ends the string, and what follows it is the closing quote. *)
Theorem C19_unknown_escape_refuted : exists t s m, rd_expr ([34] ++ t ++ [34]) = Parsed (XStr m s) /\ ~ (exists v, reads [34] t v).
Proof.
  exists (lit "foo\q"), (lit "foo"). eexists. split; [vm_compute; reflexivity|]. intros (v & H). vm_compute in H.
  repeat match goal with
         | H : reads _ (_ :: _) _ |- _ => inversion H; clear H; subst
         | H : escape_seq _ _ |- _ => inversion H; clear H; subst; try discriminate
         | H : _ ++ _ = _ :: _ |- _ => cbn in H; try discriminate H; injection H; clear H; intros; subst
         | H : ordinary _ = true |- _ => first [discriminate H | clear H]
         end.
Qed.
Print Assumptions C19_unknown_escape_refuted.

(** The string "${a}%${b}" is printed as a template with a live interpolation. *)
Theorem C19_quoted_round_trip_refuted : exists s m es, rd_expr (quoted s) = Parsed (XTpl m es).
Proof. exists (lit "${a}%${b}"). vm_compute. eauto. Qed.
Print Assumptions C19_quoted_round_trip_refuted.

(** ** C20: integer literals *)

(** Every digit string is read as its value or rejected, never as another number. *)
Theorem C20_digits_exact : forall u b pf, ascii_exact u -> forall t, forallb is_digit t = true -> t <> [] ->
  if (Z.of_N (digits_val t) <=? u64_max)%Z
  then exists m, parse_expr u b pf t = Parsed (XNum m (PosInt (Z.of_N (digits_val t))) (Some (RText t)))
  else exists o, parse_expr u b pf t = ParseError o.
Proof.
  intros u b pf HU t H1 H2. destruct (Z.leb_spec (Z.of_N (digits_val t)) u64_max).
  - now apply parse_digits.
  - now apply parse_big.
Qed.
Print Assumptions C20_digits_exact.

(** Printing a non-negative integer and parsing it gives it back. *)
Theorem C20_print_parse : forall u b pf, ascii_exact u -> forall n show_f64, (0 <= n <= u64_max)%Z ->
  exists m r, parse_expr u b pf (show_num show_f64 (PosInt n)) = Parsed (XNum m (PosInt n) r).
Proof.
  intros u b pf HU n sf Hn. cbn [show_num]. unfold show_Z. destruct (Z.ltb_spec n 0); [lia|].
  assert (Hne : show_N (Z.to_N n) <> []) by (destruct (show_N_head (Z.to_N n)) as (c & r & -> & _); discriminate).
  destruct (parse_digits u b pf (show_N (Z.to_N n)) (show_N_digits _) Hne) as (m & E).
  - rewrite digits_show, Z2N.id; lia.
  - rewrite digits_show, Z2N.id in E by lia. eauto.
Qed.
Print Assumptions C20_print_parse.

(** Negative integers, except for the smallest one in debug builds, where parsing it panics. *)
Theorem C20_print_parse_negative_partial : forall u b pf, ascii_exact u -> forall n show_f64,
  (- 2 ^ 63 < n < 0)%Z \/ (n = - 2 ^ 63 /\ b = Release)%Z ->
  exists m r, parse_expr u b pf (show_num show_f64 (NegInt n)) = Parsed (XNum m (NegInt n) r).
Proof.
  intros u b pf HU n sf Hn. cbn [show_num]. unfold show_Z. destruct (Z.ltb_spec n 0); [|lia].
  assert (Hne : show_N (Z.to_N (- n)) <> []) by (destruct (show_N_head (Z.to_N (- n))) as (c & r & -> & _); discriminate).
  destruct (parse_neg_digits u b pf (show_N (Z.to_N (- n))) (NegInt n) (show_N_digits _) Hne) as (m & E).
  - rewrite digits_show, Z2N.id by lia. unfold u64_max. lia.
  - rewrite digits_show, Z2N.id by lia. destruct Hn as [Hn|[-> ->]]; [|reflexivity].
    unfold num_neg, wrap_i64. rewrite Z.mod_small by lia. replace (- (- n + 2 ^ 63 - 2 ^ 63))%Z with n by lia.
    unfold i64_arith, i64_ok, i64_min, i64_max. destruct (Z.leb_spec (- 2 ^ 63) n); [|lia]. destruct (Z.leb_spec n (2 ^ 63 - 1)); [|lia]. reflexivity.
  - eauto.
Qed.
Print Assumptions C20_print_parse_negative_partial.

Example C20_example : exists m r, rd_expr (lit "18446744073709551615") = Parsed (XNum m (PosInt 18446744073709551615) r).
Proof. vm_compute. eauto. Qed.
Example C20_example_big : exists o, rd_expr (lit "18446744073709551616") = ParseError o.
Proof. vm_compute. eauto. Qed.

(** Negating an integer literal above 2^63 wraps around: -18446744073709551615 is read as 1. *)
Theorem C20_negative_wraps_refuted : exists m r,
  rd_expr (lit "-18446744073709551615") = Parsed (XNum m (NegInt 1) r).
Proof. vm_compute. eauto. Qed.
Print Assumptions C20_negative_wraps_refuted.

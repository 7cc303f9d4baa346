(** * C16: printing what was parsed gives the text back, unless [faithful] names a reason why not

    [faithful] (LossSpec) is a decidable check of the tree against the text.  Its clauses are the ways
    in which the code loses text; each is shown to occur below. *)
From Coq Require Import NArith Bool String Ascii List.
From Verif Require Import Res Str NumberModel PrimModel EAst EncModel ParseBase ParseModel ParseProps FmtReadProps LossSpec LossFacts.
Import ListNotations.
Open Scope N_scope.

Theorem C16_body_partial : forall u b parse_f64 show_f64 (text : str) body,
  parse_body u b parse_f64 text = Parsed body -> ~ In 13 text ->
  body_is_faithful show_f64 text body ->
  show_body show_f64 body = text.
Proof. exact body_prints. Qed.
Print Assumptions C16_body_partial.

Theorem C16_expr_partial : forall u b parse_f64 show_f64 (text : str) e,
  parse_expr u b parse_f64 text = Parsed e -> ~ In 13 text ->
  expr_is_faithful show_f64 text e ->
  show_expr show_f64 e = text.
Proof. exact expr_prints. Qed.
Print Assumptions C16_expr_partial.

Theorem C16_template_partial : forall u b parse_f64 show_f64 (text : str) t,
  parse_template u b parse_f64 text = Parsed t -> ~ In 13 text ->
  tpl_is_faithful show_f64 text t ->
  show_tpl show_f64 t = text.
Proof. exact tpl_prints. Qed.
Print Assumptions C16_template_partial.

(** In the texts below ['] stands for a quotation mark, [^] for a line end, [@] for a carriage return
    and [_] for a tab. *)
Fixpoint txt (s : string) : str :=
  match s with
  | EmptyString => []
  | String c s => (if Ascii.eqb c "'" then 34 else if Ascii.eqb c "^" then 10 else if Ascii.eqb c "_" then 9
                   else if Ascii.eqb c "@" then 13 else N_of_ascii c) :: txt s
  end.
(** [text] is accepted, passes the check, and has no carriage return. *)
Definition no_cr (text : str) : bool := forallb (fun c => negb (c =? 13)) text.
Definition body_ok (s : string) : bool := no_cr (txt s) &&
  match parse_body ascii_unicode Release some_f64 (txt s) with Parsed x => fst (body_faithful no_floats (txt s) x false) | _ => false end.
Definition expr_ok (s : string) : bool := no_cr (txt s) &&
  match parse_expr ascii_unicode Release some_f64 (txt s) with Parsed x => fst (faithful no_floats (txt s) x false) | _ => false end.
Definition tpl_ok (s : string) : bool := no_cr (txt s) &&
  match parse_template ascii_unicode Release some_f64 (txt s) with Parsed x => fst (tpl_faithful no_floats (txt s) x false) | _ => false end.

Example C16_bodies : forallb body_ok [
  "a = 1 # c^^b 'l' x{^ c = [1, 2,] // d^}  /*e*/";
  "b {}^"; "b { a = 'x${ y }' }^^# end"; "a= <<EOT^text '${ x }'^ EOT^"; "a = b ? c : d";
  "x = { a = 1, 'b' : 2^ (c) = 3 }^y = [for v in w : v if v > 1]^"]%string = true.
Proof. vm_compute. reflexivity. Qed.
Example C16_exprs : forallb expr_ok [
  "<<-EOT^  foo^    bar^  EOT"; "a.b[ 1 ].*.c[*].3"; "f( x, y... )"; "a + b*-c"; "!a && (b || c)";
  "'a\n\'b${c}%{ if d }e%{ endif ~}'"; "{for k, v in w : k => v... if x }"; "1.50e3"; "( /*x*/ a ^ )"]%string = true.
Proof. vm_compute. reflexivity. Qed.
Example C16_templates : forallb tpl_ok [
  "a %{ if b ~} c %{else}d%{ endif } $${x}"; "%{ for a,b in c~}^${ a }%{ endfor}"; "$$ %% \n '"]%string = true.
Proof. vm_compute. reflexivity. Qed.

(** ** The losses *)
(** The expression [text] is accepted and printed as [text'], which is another text. *)
Definition becomes (text text' : string) : Prop :=
  exists e, parse_expr ascii_unicode Release some_f64 (txt text) = Parsed e /\ (forall show_f64, show_expr show_f64 e = txt text') /\ txt text' <> txt text.
Ltac witness := eexists; split; [vm_compute; reflexivity|]; split; [intros; vm_compute; reflexivity|vm_compute; discriminate].

(** An unknown escape sequence is dropped with its letter. *)
Theorem C16_unknown_escape_refuted : becomes "'foo\q'" "'foo'".
Proof. witness. Qed.
(** A short unicode escape becomes its digits. *)
Theorem C16_short_unicode_refuted : becomes "'foo\u12'" "'foo12'".
Proof. witness. Qed.
(** Escape sequences are printed in one way only. *)
Theorem C16_escape_choice_refuted : becomes "'A\/'" "'A/'" /\ becomes "'a_^'" "'a\t\n'".
Proof. split; witness. Qed.
(** Comments and white space around a binary operator. *)
Theorem C16_operator_trivia_refuted : becomes "a  /*x*/ + b" "a + b".
Proof. witness. Qed.
(** Comments and white space before a traversal operator. *)
Theorem C16_traversal_trivia_refuted : becomes "a.b /*x*/ .c" "a.b.c".
Proof. witness. Qed.
(** White space after the ellipsis of an object [for] expression moves. *)
Theorem C16_ellipsis_trivia_refuted : becomes "{for k in x : k => v... }" "{for k in x : k => v...} ".
Proof. witness. Qed.
(** An object with a repeated key: one entry is lost, the other takes its place, and the text is not an
    object any more. *)
Theorem C16_repeated_key_refuted : becomes "{a=1,b=2,a=3}" "{a=3b=2,}".
Proof. witness. Qed.
(** Chained comparisons lose operands (see C17). *)
Theorem C16_chained_comparison_refuted : becomes "a == b == c" "a == b".
Proof. witness. Qed.
(** An indented heredoc: the marker, tabs, blank lines and continuation lines of interpolations. *)
Theorem C16_heredoc_refuted :
  becomes "<<-EOT^foo^EOT" "<<EOT^foo^EOT" /\
  becomes "<<-EOT^_foo^_EOT" "<<-EOT^ foo^_EOT" /\
  becomes "<<-EOT^  foo^  ^  EOT" "<<-EOT^  foo^^  EOT" /\
  becomes "<<-EOT^  foo ${ a +^  b }^  EOT" "<<-EOT^  foo ${ a + b }^  EOT".
Proof. repeat match goal with |- _ /\ _ => split end; witness. Qed.
(** A heredoc inside a quoted template is printed with escape sequences; after a quoted template inside
    another, nothing is escaped any more. *)
Theorem C16_escape_flag_refuted :
  becomes "'${<<EOT^foo 'x'^EOT^}'" "'${<<EOT^foo \'x\'\nEOT^}'" /\
  becomes "'a${'${b}'}\n'" "'a${'${b}'}^'".
Proof. split; witness. Qed.
(** Windows line ends are lost. *)
Theorem C16_line_end_refuted : exists x, parse_body ascii_unicode Release some_f64 (txt "a = 1@^") = Parsed x /\ forall show_f64, show_body show_f64 x = txt "a = 1^".
Proof. eexists. split; [vm_compute; reflexivity|]. intros. vm_compute. reflexivity. Qed.

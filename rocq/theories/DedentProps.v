(** * C13: heredoc dedent *)
From Coq Require Import NArith Arith Bool String List Lia.
From Verif Require Import Str DedentModel DedentSpec DedentProofs.
Import ListNotations.
Open Scope nat_scope.

(** Dedenting removes from every non-empty line the largest common number of leading white space
    characters, and nothing else; the number is recorded as the heredoc's indent. *)
Theorem C13_common_indentation : forall (E : Type) (t : list (tel E)) (m : nat),
  wf_template false t ->
  least (indentations (symbols t)) m -> 1 <= m ->
  exists t', dedent t = (t', Some m)
    /\ symbols t' = drop_columns m (symbols t)
    /\ forall l, In l (slines (symbols t)) -> empty_line l = false ->
         Forall (fun x => sym_ws x = true) (firstn m l).
Proof.
  intros E t m Hwf Hm H1. destruct (dedent_common t m Hwf Hm H1) as [t' [Ha Hb]]. exists t'.
  split; [exact Ha|]. split; [exact Hb|]. intros l. apply dedent_columns_ws. apply Hm.
Qed.
Print Assumptions C13_common_indentation.

(** "  foo ${x}\n\n    bar\n" *)
Example C13_common_indentation_example :
  let t := [TLit (lit "  foo "); TOther tt; TLit (LF :: LF :: lit "    bar" ++ [LF])] in
  wf_template false t /\ least (indentations (symbols t)) 2 /\
  dedent t = ([TLit (lit "foo "); TOther tt; TLit (LF :: LF :: lit "  bar" ++ [LF])], Some 2).
Proof.
  vm_compute. repeat split; try (intros; discriminate); try (left; reflexivity).
  - intros H. repeat (destruct H as [H|H]; [discriminate H|]). exact H.
  - intros H. repeat (destruct H as [H|H]; [discriminate H|]). exact H.
  - intros x [<-|[<-|[]]]; lia.
Qed.

(** An interpolation or directive at the start of a line, or a template of empty lines only, has no
    common indentation: nothing changes. *)
Theorem C13_no_indentation : forall (E : Type) (t : list (tel E)),
  wf_template false t ->
  indentations (symbols t) = []
  \/ (exists v1 e v2, symbols t = v1 ++ El e :: v2 /\ (v1 = [] \/ exists k, v1 = k ++ [Ch LF])) ->
  dedent t = (t, None).
Proof.
  intros E t Hwf [H|[v1 [e [v2 [H1 H2]]]]].
  - apply dedent_blank; assumption.
  - apply (dedent_element t v1 e v2); assumption.
Qed.
Print Assumptions C13_no_indentation.
Example C13_no_indentation_example :
  let t := [TLit (lit "  foo" ++ [LF]); TOther tt; TLit [LF]] in
  wf_template false t /\ symbols t = map Ch (lit "  foo" ++ [LF]) ++ El tt :: [Ch LF].
Proof.
  vm_compute. repeat split; try (intros; discriminate).
  - intros H. repeat (destruct H as [H|H]; [discriminate H|]). exact H.
  - intros H. repeat (destruct H as [H|H]; [discriminate H|]). exact H.
Qed.

(** A heredoc without interpolations and with a line that has no indentation is left alone. *)
Theorem C13_literal_without_indentation : forall (E : Type) (s : str),
  s <> [] -> ~ In CR s -> In 0 (indentations (E := E) (symbols [TLit s])) ->
  dedent (E := E) [TLit s] = ([TLit s], None).
Proof. exact @dedent_single_zero. Qed.
Print Assumptions C13_literal_without_indentation.
Example C13_literal_without_indentation_example :
  In 0 (indentations (E := unit) (symbols [TLit (lit "foo" ++ LF :: lit "  bar")])).
Proof. left. reflexivity. Qed.

(** A heredoc without indented lines is left alone, interpolations or not. *)
Theorem C13_flat : forall (E : Type) (t : list (tel E)),
  wf_template false t -> Forall (fun n => n = 0) (indentations (symbols t)) -> dedent t = (t, None).
Proof. exact @dedent_flat. Qed.
Print Assumptions C13_flat.
Example C13_flat_example :
  let t := [TLit (lit "foo "); TOther tt; TLit (LF :: LF :: lit "bar" ++ [LF])] in
  wf_template false t /\ indentations (symbols t) = [0; 0].
Proof.
  vm_compute. repeat split; try (intros; discriminate).
  - intros H. repeat (destruct H as [H|H]; [discriminate H|]). exact H.
  - intros H. repeat (destruct H as [H|H]; [discriminate H|]). exact H.
Qed.

(** With interpolations a line without indentation is not enough: the unindented line in
<<
foo ${x}
  bar
>>
    does not stop dedenting, and loses two characters that are not white space. *)
Theorem C13_unindented_line_refuted :
  exists t : list (tel unit), wf_template false t /\ In 0 (indentations (symbols t))
    /\ dedent t = ([TLit (lit "o "); TOther tt; TLit (LF :: lit "bar" ++ [LF])], Some 2)
    /\ t = [TLit (lit "foo "); TOther tt; TLit (LF :: lit "  bar" ++ [LF])].
Proof.
  eexists. split; [|split; [|split; [|reflexivity]]].
  - cbn [wf_template]. repeat split; try (intros; discriminate).
    + vm_compute. intros H. repeat (destruct H as [H|H]; [discriminate H|]). exact H.
    + vm_compute. intros H. repeat (destruct H as [H|H]; [discriminate H|]). exact H.
  - left. reflexivity.
  - vm_compute. reflexivity.
Qed.
Print Assumptions C13_unindented_line_refuted.

(** Indenting and then dedenting by the same amount gives the text back. *)
Theorem C13_indent_then_dedent : forall (s : str) (n : nat) (skip_first : bool),
  ~ In CR s -> dedent_by (indent_by s n skip_first) n skip_first = s.
Proof. exact dedent_indent. Qed.
Print Assumptions C13_indent_then_dedent.
Example C13_indent_then_dedent_example :
  indent_by (lit "a" ++ LF :: LF :: lit " b" ++ [LF]) 2 false = lit "  a" ++ LF :: LF :: lit "   b" ++ [LF].
Proof. reflexivity. Qed.

(** Carriage returns at the end of a line are lost. *)
Theorem C13_carriage_return_refuted :
  exists s, dedent_by (indent_by s 2 false) 2 false <> s /\ s = lit "a" ++ [CR; LF] ++ lit "b".
Proof. eexists. split; [|reflexivity]. vm_compute. discriminate. Qed.
Print Assumptions C13_carriage_return_refuted.

(** Printing a dedented heredoc ([indent_by] applied to the rendered template,
    crates/hcl-edit/src/encode/template.rs:41-50) gives the original text, when the elements are
    rendered on one line, the indentation consists of spaces and no line consists of it alone. *)
Theorem C13_print_dedented : forall (E : Type) (render : E -> str) (t : list (tel E)) (m : nat),
  (forall e, ~ In LF (render e) /\ ~ In CR (render e) /\ render e <> []) ->
  wf_template false t -> least (indentations (symbols t)) m -> 1 <= m ->
  (forall l, In l (slines (symbols t)) -> empty_line l = false ->
     firstn m l = repeat (Ch 32%N) m /\ skipn m l <> [] /\ empty_line (skipn m l) = false) ->
  indent_by (concat (map (fun x => match x with TLit s => s | TOther e => render e end) (fst (dedent t)))) m false
  = concat (map (fun x => match x with TLit s => s | TOther e => render e end) t).
Proof. exact @dedent_print. Qed.
Print Assumptions C13_print_dedented.
Example C13_print_dedented_example :
  let t := [TLit (lit "  foo "); TOther tt; TLit (LF :: LF :: lit "    bar" ++ [LF])] in
  forall l, In l (slines (symbols t)) -> empty_line l = false ->
     firstn 2 l = repeat (Ch 32%N) 2 /\ skipn 2 l <> [] /\ empty_line (skipn 2 l) = false.
Proof.
  intros t l Hl He. vm_compute in Hl. destruct Hl as [<-|[<-|[<-|[]]]]; try discriminate;
  repeat split; discriminate.
Qed.

(** A line of spaces no longer than the indentation is not restored (its white space is lost). *)
Theorem C13_print_blank_line_refuted :
  exists t : list (tel unit), wf_template false t /\ least (indentations (symbols t)) 2
    /\ exists s, t = [TLit s] /\ indent_by (dedent_by s 2 false) 2 false <> s.
Proof.
  exists [TLit (lit "  a" ++ LF :: lit "  " ++ LF :: lit "  b" ++ [LF])].
  split; [|split].
  - vm_compute. repeat split; try discriminate. intros H. repeat (destruct H as [H|H]; [discriminate H|]). exact H.
  - vm_compute. split; [left; reflexivity|]. intros x [<-|[<-|[<-|[]]]]; lia.
  - eexists. split; [reflexivity|]. vm_compute. discriminate.
Qed.
Print Assumptions C13_print_blank_line_refuted.

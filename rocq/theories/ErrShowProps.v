(** * C53: shown parse errors *)
From Coq Require Import NArith Arith Bool Ascii String List Lia.
From Verif Require Import Res Str Dec Utf8 LocModel LocSpec LocProofs ErrShowModel ErrShowSpec ErrShowProofs.
Import ListNotations.
Open Scope nat_scope.
Open Scope list_scope.

(** The shown error has the source line with its number, and a caret below the character at which the
    error is, if that is an ASCII character. *)
Theorem C53_report : forall (before : str) (c : chr) (after l r : str) cs cause,
  forallb scalar (before ++ c :: after) = true -> (c < 128)%N ->
  line_start before l -> line_end (c :: after) r ->
  exists text,
    show_error (encode (before ++ c :: after)) (List.length (encode before)) cs cause = Done text /\
    report_of (line_number before) l r (format_context_error cs cause) text.
Proof.
  intros before c after l r cs cause Hs Hc Hl Hr.
  unfold show_error, from_parse_error. rewrite (locate_char before c after l r Hs Hl Hr).
  cbn [rmap rbind fst snd]. unfold from_utf8_lossy. rewrite decode_encode.
  - destruct (N.ltb_spec c 128); [|lia]. cbn [rmap rbind]. eexists. split; [reflexivity|]. apply display_report.
  - rewrite forallb_app in *. apply andb_true_iff in Hs as [H1 H2]. apply andb_true_iff. split.
    + destruct Hl as [_ [->|[a ->]]]; trivial. rewrite forallb_app in H1. apply andb_true_iff in H1 as [_ H1].
      cbn in H1. exact H1.
    + destruct Hr as [_ [<-|[b Hb]]]; trivial. rewrite Hb, forallb_app in H2. now apply andb_true_iff in H2 as [H2 _].
Qed.
Print Assumptions C53_report.

(** At the end of an input whose last line is not empty the caret is after the line. *)
Theorem C53_end : forall (before l : str) cs cause,
  forallb scalar before = true -> line_start before l -> l <> [] ->
  exists text,
    show_error (encode before) (List.length (encode before)) cs cause = Done text /\
    report_of (line_number before) l [] (format_context_error cs cause) text.
Proof.
  intros before l cs cause Hs Hl Hn.
  assert (Hne : before <> []).
  { intros ->. destruct Hl as [_ [H|[a H]]]; [congruence|]. destruct a; discriminate. }
  unfold show_error, from_parse_error. rewrite (locate_eof before l Hs Hne Hl Hn).
  cbn [rmap rbind fst snd]. unfold from_utf8_lossy. rewrite decode_encode.
  - cbn [rmap rbind]. eexists. split; [reflexivity|]. rewrite <- (app_nil_r l) at 2. apply display_report.
  - destruct Hl as [_ [->|[a ->]]]; trivial. rewrite forallb_app in Hs. apply andb_true_iff in Hs as [_ Hs].
    cbn in Hs. exact Hs.
Qed.
Print Assumptions C53_end.

(** The caret is not below the character if that is not an ASCII character: the error at the third
    character of the line is shown with the caret in the fifth column. *)
Theorem C53_multibyte_refuted :
  exists before c after l r text, forallb scalar (before ++ c :: after) = true /\
    line_start before l /\ line_end (c :: after) r /\
    show_error (encode (before ++ c :: after)) (List.length (encode before)) [] None = Done text /\
    ~ report_of (line_number before) l r (format_context_error [] None) text.
Proof.
  exists [228; 228]%N, 228%N, [], [228; 228]%N, [228]%N.
  eexists. split; [reflexivity|]. split; [split; [vm_compute; intuition discriminate|left; reflexivity]|].
  split; [split; [vm_compute; intuition discriminate|left; reflexivity]|].
  split; [vm_compute; reflexivity|].
  intros (num & head & bar & src & under & bar' & msg & margin & E & (D & V & N) & -> & -> & -> & -> & (col & (Dc & Vc & Nc) & ->) & -> & ->).
  change (line_number [228; 228]%N) with 1 in V. cbn [List.length plus] in Vc.
  assert (Hn : num = [49%N] \/ List.length num <> 1).
  { destruct num as [|a [|b num]]; [now right| |right; discriminate]. left. cbn in V.
    unfold digits_val in V. cbn in D, V. apply andb_true_iff in D as [D _]. unfold is_digit in D.
    apply andb_true_iff in D as [D1 D2]. apply N.leb_le in D1. apply N.leb_le in D2. f_equal.
    cbn in V. lia. }
  destruct Hn as [->|Hn].
  - cbn in E. destruct col as [|a col]; [now apply Nc|]. cbn in E, Dc.
    injection E as Ea E. subst a.
    destruct col as [|a col]; [discriminate Vc|]. injection E as Ea E. subst a. discriminate Dc.
  - destruct num as [|a [|b num]]; [now apply N|now apply Hn|].
    cbn [unlines List.length repeat app] in E. discriminate.
Qed.
Print Assumptions C53_multibyte_refuted.

(** The message names the label of the innermost context that has one, all the expected things in order,
    and the cause. *)
Theorem C53_message : forall cs cause,
  exists label what,
    first_label cs label /\
    (wanted cs = [] /\ what = lit "unexpected token" \/
     exists s, alternatives (wanted cs) s /\ what = lit "expected " ++ s) /\
    format_context_error cs cause =
    (match label with Some l => lit "invalid " ++ l ++ lit "; " | None => [] end) ++ what ++
    (match cause with Some c => lit "; " ++ c | None => [] end).
Proof.
  intros cs cause. exists (label_of cs).
  exists (match expected_of cs with
          | [] => lit "unexpected token" | [e] => lit "expected " ++ e
          | es => lit "expected " ++ expectations (List.length es) 0 es end).
  split; [apply label_first|]. split; [|reflexivity]. rewrite <- expected_wanted.
  destruct (expected_of cs) as [|e [|e' es]]; [now left| |]; right.
  - exists e. split; [left; now exists e|reflexivity].
  - eexists. split; [apply expectations_all; cbn; lia|reflexivity].
Qed.
Print Assumptions C53_message.

(** Showing an error never panics. *)
Theorem C53_never_panics : forall input n cs cause, show_error input n cs cause <> Panic.
Proof.
  intros input n cs cause. unfold show_error, from_parse_error.
  destruct (locate_total input n) as [e ->]. discriminate.
Qed.
Print Assumptions C53_never_panics.

Example report_example :
  show_error (lit "a = 1" ++ [10%N] ++ lit "b = ?" ++ [10%N]) 10
    [Label (lit "attribute"); Expected (lit "x"); Expected (lit "y"); Expected (lit "z")] None =
  Done (lit " --> HCL parse error in line 2, column 5" ++ [10%N] ++
        lit "  |" ++ [10%N] ++
        lit "2 | b = ?" ++ [10%N] ++
        lit "  |     ^---" ++ [10%N] ++
        lit "  |" ++ [10%N] ++
        lit "  = invalid attribute; expected x, y or z").
Proof. vm_compute. reflexivity. Qed.

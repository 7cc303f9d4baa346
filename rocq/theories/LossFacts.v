(** * Printing what was parsed: the public functions *)
From Coq Require Import NArith ZArith Arith Bool String List Lia.
From Verif Require Import Res Str Dec NumberModel PrimModel EAst EncModel ParseBase ParseModel Grammar ParseSpec ParseTop ParseFacts LossSpec LossProofs.
Import ListNotations.
Open Scope N_scope.

Section Facts.
  Context (u : unicode) (b : build) (pf : str -> f64) (sf : f64 -> str).
  Lemma finish_inv {A} (d : A -> res A) r y : finish d r = Parsed y -> exists x, r = Parsed x /\ d x = Done y.
  Proof. unfold finish. destruct r as [x| | |]; try discriminate. destruct (d x) eqn:E; try discriminate. intros [= <-]. eauto. Qed.
  Theorem body_prints (I : str) y : parse_body u b pf I = Parsed y -> ~ In 13 I -> body_is_faithful sf I y -> show_body sf y = I.
  Proof.
    intros E Hc Hf. assert (E2 := E). unfold parse_body, parse_body_with in E2. apply finish_inv in E2. destruct E2 as (x & Ex & _).
    pose proof (raw_body_spec u b pf I) as S. unfold raw_body in S. rewrite Ex in S.
    destruct (body_despan_ok u b pf I x Ex) as (E3 & _). rewrite E in E3. injection E3 as ->.
    now apply (body_lossless u b pf sf I Hc).
  Qed.
  Theorem expr_prints (I : str) y : parse_expr u b pf I = Parsed y -> ~ In 13 I -> expr_is_faithful sf I y -> show_expr sf y = I.
  Proof.
    intros E Hc Hf. assert (E2 := E). unfold parse_expr, parse_expr_with in E2. apply finish_inv in E2. destruct E2 as (x & Ex & _).
    pose proof (raw_expr_spec u b pf I) as S. unfold raw_expr in S. rewrite Ex in S.
    destruct (expr_despan_ok u b pf I x Ex) as (E3 & _). rewrite E in E3. injection E3 as ->.
    now apply (expr_lossless u b pf sf I Hc).
  Qed.
  Theorem tpl_prints (I : str) y : parse_template u b pf I = Parsed y -> ~ In 13 I -> tpl_is_faithful sf I y -> show_tpl sf y = I.
  Proof.
    intros E Hc Hf. assert (E2 := E). unfold parse_template, parse_tpl_with in E2. apply finish_inv in E2. destruct E2 as (x & Ex & _).
    pose proof (raw_tpl_spec u b pf I) as S. unfold raw_tpl in S. rewrite Ex in S. destruct S as (es & -> & S).
    destruct (tpl_despan_ok u b pf I _ Ex) as (E3 & _). rewrite E in E3. injection E3 as ->.
    now apply (tpl_lossless u b pf sf I Hc).
  Qed.
End Facts.

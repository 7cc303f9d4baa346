(** The expression an evaluation error names (C54).

    [beval n (public c) e] is [Expression::evaluate] of [e] in the context [c]; [BFail (FErr k) ob]
    is an error with [Error::kind] [k] and [Error::expr] [ob].  [n] bounds the nesting of templates
    within templates (C41). *)
From Coq Require Import ZArith NArith Bool String List Lia.
From Verif Require Import Res Str NumberModel PrimModel Ast EvalModel EvalSpec EvalProofs BlameModel BlameSpec BlameProofs BlameNames BlameInPlace.
Import ListNotations.
Open Scope nat_scope.

Section Props.
  Context (bd : build) (parse_tpl : str -> option template)
          (show_value : value -> str) (show_num : num -> str).
  Notation eval := (eval bd parse_tpl show_value show_num).
  Notation beval := (beval bd parse_tpl show_value show_num).
  Notation blames n := (blames parse_tpl (eval n)).

  (** Values and error kinds are those of [EvalModel]: what is proved there holds here. *)
  Theorem C54_same_results : forall n c e,
    eval n c e = match beval n (public c) e with BOk v => Ok v | BFail f _ => Fail f end.
  Proof.
    intros n c e. rewrite <- (beval_kind bd parse_tpl show_value show_num n (public c) c e (sim_public c)). reflexivity.
  Qed.
  Theorem C54_same_results_in_place : forall n c e,
    evaluate_in_place bd parse_tpl show_value show_num n c e =
    (fst (bin_place (beval n) (public c) e), map fst (snd (bin_place (beval n) (public c) e))).
  Proof.
    intros n c e. symmetry. apply (bin_place_kind (beval n) (eval n)); [|apply sim_public].
    intros. apply beval_kind. assumption.
  Qed.

  (** The named expression is the evaluated one or inside of it, it fails with this error, and the
      error was raised by it or by an expression directly inside of it ([names]); only a template
      that does not parse gives an error without an expression. *)
  Theorem C54_expression : forall n c e k ob,
    beval n (public c) e = BFail (FErr k) ob -> blames n c e k ob.
  Proof.
    intros n c e k ob H. eapply claim_blames; [apply expr_public| |apply beval_claim; [apply sim_public|exact H]].
    eapply beval_err; [apply sim_public|exact H].
  Qed.

  (** A body: the error is that of one of its attributes. *)
  Theorem C54_body : forall n c b k ob,
    beval_body (beval n) (public c) b = BFail (FErr k) ob ->
    exists e, attribute_of b e /\ eval n c e = Err k /\ blames n c e k ob.
  Proof.
    intros n c b k ob H. apply beval_body_attr in H. destruct H as [e [A H]]. exists e.
    split; [exact A|]. split; [|apply C54_expression; exact H]. eapply beval_err; [apply sim_public|exact H].
  Qed.

  (** A template: the error is that of an expression in it, or a directive outside of any expression
      got a value it cannot use; then it names nothing. *)
  Theorem C54_template : forall n c t k ob,
    beval_template show_value (beval n) (public c) t = BFail (FErr k) ob ->
    exists c' e, tpl_part (eval n) c t c' e /\
      ((eval n c' e = Err k /\ blames n c' e k ob) \/
       (ob = None /\ exists v what, eval n c' e = Ok v /\ k = KUnexpected v what /\
          In what [lit "a boolean"; lit "an array or object"])).
  Proof.
    intros n c t k ob H.
    eapply (beval_template_claim parse_tpl show_value (beval n) (eval n)) in H; [| |apply sim_public].
    2: { intros. apply beval_kind. assumption. }
    destruct H as [[bc1 [c1 [e1 [P [S [X H]]]]]]|[c1 [e1 [v [what [P [V [-> [W O]]]]]]]]]; exists c1, e1; (split; [exact P|]).
    - rewrite expr_public in X. left. assert (E : eval n c1 e1 = Err k) by (eapply beval_err; eassumption).
      split; [exact E|]. eapply claim_blames; [exact X|exact E|]. apply beval_claim; assumption.
    - right. split; [|eauto].
      destruct O as [-> | ->]; [|apply expr_public]. unfold named, public. destruct c as [|s c]; [reflexivity|].
      cbn. change (map (fun s => (s, None)) c) with (public c). rewrite expr_public. reflexivity.
  Qed.

  (** Evaluation in place: every reported error is that of what is left of some [e0] in [e].  It
      names that or an expression inside of it; or [e0] raised it, and it names the expression of
      [e] directly around [e0], as it was before. *)
  Theorem C54_in_place : forall n c e k ob,
    In (FErr k, ob) (snd (bin_place (beval n) (public c) e)) ->
    exists e0, occurs parse_tpl e e0 /\
      let e1 := fst (evaluate_in_place bd parse_tpl show_value show_num n c e0) in
      eval n c e1 = Err k /\
      ((e0 = e /\ blames n c e1 k ob) \/
       (k = KMessage /\ ob = None) \/
       (exists b, ob = Some b /\ BlameSpec.names parse_tpl (eval n) c e1 k b) \/
       (exists b, ob = Some b /\ occurs parse_tpl e b /\ has parse_tpl b e0 /\
          raises parse_tpl (eval n) c k e1)).
  Proof.
    intros n c e k ob H. eapply bin_place_origin in H; [|apply sim_public].
    destruct H as [e0 [bc1 [S [E [C D]]]]]. exists e0.
    assert (O : forall x a b, occurs parse_tpl x a -> has parse_tpl a b -> occurs parse_tpl x b).
    { clear. intros x a b A B. induction A as [a|x y a A1 A2 IH]; [econstructor; [exact B|constructor]|].
      econstructor; [exact A1|auto]. }
    split. { destruct D as [[-> _]|[p [A [B _]]]]; [constructor|eauto]. }
    split; [exact E|]. destruct D as [[-> X]|[p [A [B X]]]].
    - left. split; [reflexivity|]. rewrite expr_public in X. eapply claim_blames; eassumption.
    - right. destruct C as [[K [-> _]]|[[R ->]|[b [-> [cb [W [EB [cf [f [R [F P]]]]]]]]]]].
      + left. auto.
      + right. right. rewrite X. exists p. auto.
      + right. left. exists b. split; [reflexivity|]. exists cb. split; [exact W|]. split; [exact EB|].
        exists cf, f. split; [exact R|]. split; [exact F|]. tauto.
  Qed.
  Theorem C54_in_place_body : forall n c b x,
    In x (snd (bin_place_body (beval n) (public c) b)) ->
    exists e, attribute_of b e /\ In x (snd (bin_place (beval n) (public c) e)).
  Proof. intros n c b x. apply bin_place_body_attr. Qed.
  Theorem C54_in_place_template : forall n c t x,
    In x (snd (bin_place_template (beval n) (public c) t)) ->
    exists e, tpl_has t e /\ In x (snd (bin_place (beval n) (public c) e)).
  Proof. intros n c t x. apply bin_place_template_has. Qed.

  (** [a] alone is named itself; in [!(a)] it is the parenthesis around it. *)
  Example C54_variable : beval 0 (public new_ctx) (EVar (lit "a")) =
    BFail (FErr (KUndefinedVar (lit "a"))) (Some (EVar (lit "a"))).
  Proof. reflexivity. Qed.
  Example C54_around : beval 0 (public new_ctx) (EUnary Not (EParen (EVar (lit "a")))) =
    BFail (FErr (KUndefinedVar (lit "a"))) (Some (EParen (EVar (lit "a")))).
  Proof. reflexivity. Qed.
  (** [[[for x in [true] : 1 if null]]]: the condition of the loop is no boolean, the for expression
      is named; [[[for x in null : 1]]]: the collection is none, the array around it is named. *)
  Example C54_loop :
    let f := EFor None (lit "x") (EArr [EBool true]) None (ENum (PosInt 1)) false (Some ENull) in
    beval 0 (public new_ctx) (EArr [f]) = BFail (FErr (KUnexpected VNull (lit "a boolean"))) (Some f).
  Proof. reflexivity. Qed.
  Example C54_collection :
    let f := EFor None (lit "x") ENull None (ENum (PosInt 1)) false None in
    beval 0 (public new_ctx) (EArr [f]) =
      BFail (FErr (KUnexpected VNull (lit "an array or object"))) (Some (EArr [f])).
  Proof. reflexivity. Qed.
  (** In place, [[a, c[!true]]] has two errors; the second names what is left. *)
  Example C54_in_place_example :
    let e := EArr [EVar (lit "a"); ETrav (EVar (lit "c")) [Index (EUnary Not (EBool true))]] in
    bin_place (beval 0) (public new_ctx) e =
      (EArr [EVar (lit "a"); ETrav (EVar (lit "c")) [Index (EBool false)]],
       [(FErr (KUndefinedVar (lit "a")), Some e);
        (FErr (KUndefinedVar (lit "c")), Some (ETrav (EVar (lit "c")) [Index (EBool false)]))]).
  Proof. reflexivity. Qed.
  Example C54_body_example :
    beval_body (beval 0) (public new_ctx) [SBlk (lit "b") [] [SAttribute (lit "x") (EVar (lit "y"))]] =
      BFail (FErr (KUndefinedVar (lit "y"))) (Some (EVar (lit "y"))).
  Proof. reflexivity. Qed.
  Example C54_template_example :
    beval_template show_value (beval 0) (public new_ctx) [ElIf ENull [] None StripNone StripNone StripNone] =
      BFail (FErr (KUnexpected VNull (lit "a boolean"))) None.
  Proof. reflexivity. Qed.
End Props.

(** Templates inside of expressions: [["${y}!"]] names the template expression; text that does not
    parse gives an error without an expression. *)
Example C54_template_expression : forall bd sv sn,
  let parse s := if seqb s (lit "${y}!") then Some [ElInterp (EVar (lit "y")) StripNone; ElLit (lit "!")] else None in
  beval bd parse sv sn 1 (public new_ctx) (EArr [ETpl (QuotedString (lit "${y}!"))]) =
    BFail (FErr (KUndefinedVar (lit "y"))) (Some (ETpl (QuotedString (lit "${y}!")))) /\
  beval bd parse sv sn 1 (public new_ctx) (EArr [ETpl (QuotedString (lit "${"))]) = BFail (FErr KMessage) None.
Proof. split; reflexivity. Qed.

Print Assumptions C54_same_results.
Print Assumptions C54_same_results_in_place.
Print Assumptions C54_expression.
Print Assumptions C54_body.
Print Assumptions C54_template.
Print Assumptions C54_in_place.
Print Assumptions C54_in_place_body.
Print Assumptions C54_in_place_template.

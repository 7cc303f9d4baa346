(** The errors of bodies and of evaluation in place name the right expressions. *)
From Coq Require Import ZArith NArith Bool String List Lia.
From Verif Require Import Res Str NumberModel PrimModel Ast AstInd EvalModel EvalSpec EvalProofs BlameModel BlameSpec BlameProofs BlameNames.
Import ListNotations.
Open Scope nat_scope.

Section InPlace.
  Context (bd : build) (parse_tpl : str -> option template)
          (show_value : value -> str) (show_num : num -> str) (n : nat).
  Notation ev := (eval bd parse_tpl show_value show_num n).
  Notation bev := (beval bd parse_tpl show_value show_num n).
  Notation has := (has parse_tpl).
  Notation occurs := (occurs parse_tpl).

  (** Where an error of evaluating [e] in place comes from: [e0] is [e], or is directly inside of an
      expression [p] in [e]; what is left of it fails. *)
  Definition origin bc c e k ob : Prop :=
    exists e0 bc1, sim bc1 c /\ ev c (fst (in_place ev c e0)) = Err k /\
      claim parse_tpl ev bc1 c (fst (in_place ev c e0)) k ob /\
      ((e0 = e /\ ctx_expr bc1 = ctx_expr bc) \/ exists p, occurs e p /\ has p e0 /\ ctx_expr bc1 = Some p).

  Lemma origin_part bc bc0 c e e1 k ob : ctx_expr bc = Some e -> has e e1 ->
    origin bc c e1 k ob -> origin bc0 c e k ob.
  Proof.
    intros X P [e0 [bc1 [S [E [C D]]]]]. exists e0, bc1. split; [exact S|]. split; [exact E|]. split; [exact C|]. right.
    destruct D as [[-> Y]|[p [O [Q Y]]]].
    - exists e. split; [constructor|]. rewrite Y. auto.
    - exists p. split; [econstructor; eassumption|]. auto.
  Qed.
  (** After the nested expressions. *)
  Lemma breplace_origin bc c e e' errs k ob : sim bc c -> in_place ev c e = replace ev c e' (map fst errs) ->
    (errs <> [] -> In (FErr k, ob) errs -> origin bc c e k ob) ->
    In (FErr k, ob) (snd (breplace bev bc e' errs)) -> origin bc c e k ob.
  Proof.
    intros S E G I. unfold breplace in I. destruct errs as [|x errs]; [|apply G; [discriminate|exact I]].
    destruct (bev bc e') as [v|f b] eqn:B; [contradiction|]. destruct I as [I|[]].
    assert (f = FErr k) by congruence. assert (b = ob) by congruence. subst f b. clear I. pose proof (beval_err _ _ _ _ _ _ _ _ _ _ S B) as F.
    cbn [map replace] in E. rewrite F in E.
    exists e, bc. rewrite E. cbn [fst]. split; [exact S|]. split; [exact F|]. split; [|auto].
    apply beval_claim; assumption.
  Qed.

  Lemma flat_map_snd {A B} (f : A -> B * list (fail * option expr)) l x :
    In x (flat_map snd (map f l)) -> exists a, In a l /\ In x (snd (f a)).
  Proof.
    intros I. apply in_flat_map in I. destruct I as [r [I1 I2]]. apply in_map_iff in I1.
    destruct I1 as [a [<- I1]]. eauto.
  Qed.
  Ltac nest e H := let E := fresh "E" in
    destruct (bin_place bev _ e) as [?e' ?errs] eqn:E; pose proof (f_equal snd E) as H; cbn [snd] in H.

  Lemma bin_place_origin e : forall bc c k ob, sim bc c ->
    In (FErr k, ob) (snd (bin_place bev bc e)) -> origin bc c e k ob.
  Proof.
    assert (BK : forall e bc c, sim bc c -> errs_kind (bin_place bev bc e) = in_place ev c e).
    { intros e0 bc c S. apply bin_place_kind; [|exact S]. intros. apply beval_kind. assumption. }
    induction e as [ |b|m|s|l IH|m IH|t|x|e ops IHe IH|f args b IH|e IH|a b d IHa IHb IHd|o e IH
                   |l o r IHl IHr|kv vv coll key val g cond IHcoll IHkey IHval IHcond] using expr_ind';
      intros bc0 c k ob S0 I; cbn [bin_place] in I; try contradiction;
      try (match type of I with context [child_with_expr bc0 ?e] => pose proof (sim_child bc0 c e S0) as S;
             assert (X : ctx_expr (child_with_expr bc0 e) = Some e) by reflexivity;
             pose proof (claim_own parse_tpl ev bc0 c e k) as OWN;
             set (bc := child_with_expr bc0 e) in * ; clearbody bc end).
    - rewrite Forall_forall in IH.
      eapply breplace_origin; [exact S0| | |exact I].
      + cbn [in_place].
        destruct (flat_kind (bin_place bev bc) (in_place ev c) l (fun a _ => BK a bc c S)) as [E1 E2].
        rewrite <- E1, <- E2. reflexivity.
      + intros _ J. apply flat_map_snd in J. destruct J as [a [J1 J2]].
        apply (origin_part bc bc0 c (EArr l) a); auto.
    - rewrite Forall_forall in IH.
      eapply breplace_origin; [exact S0| | |exact I].
      + cbn [in_place]. symmetry.
        match goal with |- replace _ _ (EObj (eobj_collect (map fst (map ?F m)))) _ =
                           replace _ _ (EObj (eobj_collect (map fst (map ?G m)))) _ =>
          destruct (flat_kind F G m) as [E1 E2] end; [|rewrite E1, E2; reflexivity].
        intros [kk v] _. cbn [fst snd]. rewrite <- (BK v bc c S). destruct kk as [s|e].
        * destruct (bin_place bev bc v); reflexivity.
        * rewrite <- (BK e bc c S). destruct (bin_place bev bc e), (bin_place bev bc v).
          unfold errs_kind. cbn [fst snd]. rewrite map_app. reflexivity.
      + intros _ J. apply flat_map_snd in J. destruct J as [[kk v] [J1 J2]]. destruct (IH _ J1) as [IHk IHv].
        cbn [fst snd] in *. nest v Hv.
        assert (VV : In (FErr k, ob) errs -> origin bc0 c (EObj m) k ob).
        { intros J. apply (origin_part bc bc0 c (EObj m) v); auto.
          - exists kk, v. auto.
          - apply IHv; auto. rewrite Hv. exact J. }
        destruct kk as [s|ke].
        * cbn [snd app] in J2. auto.
        * nest ke Hk. cbn [snd] in J2. apply in_app_iff in J2. destruct J2 as [J2|J2]; [|auto].
          apply (origin_part bc bc0 c (EObj m) ke); auto.
          -- exists (KExpr ke), v. auto.
          -- apply IHk; auto. rewrite Hk. exact J2.
    - eapply breplace_origin; [exact S0| | |exact I]; [reflexivity|]. intros. contradiction.
    - eapply breplace_origin; [exact S0| | |exact I]; [reflexivity|]. intros. contradiction.
    - rewrite Forall_forall in IH.
      eapply breplace_origin; [exact S0| | |exact I].
      + cbn [in_place]. symmetry.
        match goal with |- replace _ _ (ETrav _ (map fst (map ?F ops))) _ =
                           replace _ _ (ETrav _ (map fst (map ?G ops))) _ =>
          destruct (flat_kind F G ops) as [E1 E2] end; [|rewrite E1, E2; reflexivity].
        intros o _. destruct o as [| | |i|]; try reflexivity.
        rewrite <- (BK i bc c S). destruct (bin_place bev bc i); reflexivity.
      + intros _ J. apply flat_map_snd in J. destruct J as [o [J1 J2]]. destruct o as [| | |i|]; try contradiction.
        nest i Hi. apply (origin_part bc bc0 c (ETrav e ops) i); auto; [right; exact J1|].
        apply (IH _ J1); auto. rewrite Hi. exact J2.
    - rewrite Forall_forall in IH.
      eapply breplace_origin; [exact S0| | |exact I].
      + cbn [in_place].
        destruct (flat_kind (bin_place bev bc) (in_place ev c) args (fun a _ => BK a bc c S)) as [E1 E2].
        rewrite <- E1, <- E2. reflexivity.
      + intros _ J. apply flat_map_snd in J. destruct J as [a [J1 J2]].
        apply (origin_part bc bc0 c (ECall f args b) a); auto.
    - nest e He. eapply breplace_origin; [exact S0| | |exact I].
      + cbn [in_place]. rewrite <- (BK e bc c S), E. reflexivity.
      + intros _ J. apply (origin_part bc bc0 c (EParen e) e); auto; [reflexivity|]. apply IH; auto. rewrite He. exact J.
    - assert (EA : kind (bbind (bev bc a) (fun v => at_ctx bc (as_bool v))) = ebind (ev c a) as_bool).
      { rewrite kind_bind. apply ebind_ext; [apply beval_kind; exact S|]. intros. apply kind_at. }
      destruct (bbind (bev bc a) (fun v => at_ctx bc (as_bool v))) as [[|]|ff b'] eqn:B; cbn [kind] in EA.
      + nest b Hb. eapply breplace_origin; [exact S0| | |exact I].
        * cbn [in_place]. rewrite <- EA, <- (BK b bc c S), E. reflexivity.
        * intros _ J. apply (origin_part bc bc0 c (ECond a b d) b); auto; [cbn; auto|]. apply IHb; auto. rewrite Hb. exact J.
      + nest d Hd. eapply breplace_origin; [exact S0| | |exact I].
        * cbn [in_place]. rewrite <- EA, <- (BK d bc c S), E. reflexivity.
        * intros _ J. apply (origin_part bc bc0 c (ECond a b d) d); auto; [cbn; auto|]. apply IHd; auto. rewrite Hd. exact J.
      + destruct I as [I|[]]. assert (ff = FErr k) by congruence. assert (b' = ob) by congruence. subst ff b'. clear I. exists (ECond a b d), bc0.
        assert (EP : in_place ev c (ECond a b d) = (ECond a b d, [FErr k])) by (cbn [in_place]; rewrite <- EA; reflexivity).
        assert (EV : ev c (ECond a b d) = Err k).
        { assert (U : ev c (ECond a b d) = ebind (ev c a) (fun v => ebind (as_bool v) (fun x =>
                        if x then ev c b else ev c d))) by (destruct n; reflexivity).
          rewrite U. destruct (ev c a) as [v|f]; cbn [ebind] in EA |- *; [rewrite <- EA; reflexivity|].
          injection EA as <-. reflexivity. }
        rewrite EP. cbn [fst]. split; [exact S0|]. split; [exact EV|]. split; [|auto].
        apply bbind_fail in B. destruct B as [B|[v [Hv B]]].
        * eapply (claim_part parse_tpl ev bc0 c (ECond a b d) bc c a); [constructor|exact X|exact EV| |apply beval_claim; assumption].
          eapply beval_err; eassumption.
        * apply at_fail in B. destruct B as [B ->]. apply as_bool_err in B. subst k.
          apply OWN. constructor.
          rewrite <- (beval_kind bd parse_tpl show_value show_num n bc c a S), Hv. reflexivity.
    - nest e He. eapply breplace_origin; [exact S0| | |exact I].
      + cbn [in_place]. rewrite <- (BK e bc c S), E. reflexivity.
      + intros _ J. apply (origin_part bc bc0 c (EUnary o e) e); auto; [reflexivity|]. apply IH; auto. rewrite He. exact J.
    - nest l Hl. nest r Hr. eapply breplace_origin; [exact S0| | |exact I].
      + cbn [in_place]. rewrite <- (BK l bc c S), <- (BK r bc c S), E, E0. unfold errs_kind. cbn [fst snd].
        rewrite map_app. reflexivity.
      + intros _ J. apply in_app_iff in J. destruct J as [J|J].
        * apply (origin_part bc bc0 c (EBinary l o r) l); auto; [left; reflexivity|]. apply IHl; auto. rewrite Hl. exact J.
        * apply (origin_part bc bc0 c (EBinary l o r) r); auto; [right; reflexivity|]. apply IHr; auto. rewrite Hr. exact J.
    - nest coll Hc. eapply breplace_origin; [exact S0| | |exact I].
      + cbn [in_place]. rewrite <- (BK coll bc c S), E. reflexivity.
      + intros _ J. apply (origin_part bc bc0 c (EFor kv vv coll key val g cond) coll); auto; [left; reflexivity|].
        apply IHcoll; auto. rewrite Hc. exact J.
  Qed.

  Lemma claim_blames bc c e k ob : ctx_expr bc = None -> ev c e = Err k ->
    claim parse_tpl ev bc c e k ob -> blames parse_tpl ev c e k ob.
  Proof.
    intros X E [[-> [-> [cf [f [W [R _]]]]]]|[[R ->]|[b [-> [cb [W [EB [cf [f [R [F P]]]]]]]]]]].
    - split; [reflexivity|]. inversion R; subst. eauto.
    - rewrite X. exists c. split; [constructor|]. split; [exact E|]. exists c, e. repeat split; auto.
    - exists cb. split; [exact W|]. split; [exact EB|]. exists cf, f. split; [exact R|]. split; [exact F|]. tauto.
  Qed.

  Lemma attribute_of_in s b e : attribute_of [s] e -> In s b -> attribute_of b e.
  Proof.
    intros A I. remember [s] as l. destruct A as [l k e J|l i ls b' e J A]; subst l; destruct J as [->|[]];
      econstructor; eassumption.
  Qed.
  Lemma beval_body_attr b bc f ob : beval_body bev bc b = BFail f ob ->
    exists e, attribute_of b e /\ bev bc e = BFail f ob.
  Proof.
    assert (G : forall s, beval_struct bev bc s = BFail f ob -> exists e, attribute_of [s] e /\ bev bc e = BFail f ob).
    { induction s as [k e|i ls b' IH] using struct_ind'; cbn [beval_struct]; intros H; apply bmap_fail in H.
      - exists e. split; [|exact H]. econstructor. left. reflexivity.
      - apply bcollect_fail in H. destruct H as [s [I H]]. rewrite Forall_forall in IH.
        destruct (IH s I H) as [e [A E]]. exists e. split; [|exact E]. eapply ao_block; [left; reflexivity|].
        eapply attribute_of_in; eassumption. }
    intros H. apply bcollect_fail in H. destruct H as [s [I H]]. destruct (G s H) as [e [A E]]. exists e.
    split; [|exact E].
    eapply attribute_of_in; eassumption.
  Qed.
  Lemma bin_place_body_attr b bc x : In x (snd (bin_place_body bev bc b)) ->
    exists e, attribute_of b e /\ In x (snd (bin_place bev bc e)).
  Proof.
    assert (G : forall s, In x (snd (bin_place_struct bev bc s)) ->
                exists e, attribute_of [s] e /\ In x (snd (bin_place bev bc e))).
    { induction s as [k e|i ls b' IH] using struct_ind'; cbn [bin_place_struct]; intros H.
      - exists e. split; [econstructor; left; reflexivity|]. destruct (bin_place bev bc e). exact H.
      - cbn [snd] in H. apply flat_map_snd in H. destruct H as [s [I H]]. rewrite Forall_forall in IH.
        destruct (IH s I H) as [e [A E]]. exists e. split; [|exact E]. eapply ao_block; [left; reflexivity|].
        eapply attribute_of_in; eassumption. }
    intros H. cbn [snd bin_place_body] in H. apply flat_map_snd in H. destruct H as [s [I H]].
    destruct (G s H) as [e [A E]]. exists e. split; [|exact E].
    eapply attribute_of_in; eassumption.
  Qed.
  Lemma bin_place_template_has t bc x : In x (snd (bin_place_template bev bc t)) ->
    exists e, tpl_has t e /\ In x (snd (bin_place bev bc e)).
  Proof.
    assert (G : forall el, In x (snd (bin_place_elem bev bc el)) ->
                forall t, In el t -> exists e, tpl_has t e /\ In x (snd (bin_place bev bc e))).
    { induction el as [s|e s|e t0 f s1 s2 s3 IHt IHf|kv vv e t0 s1 s2 IHt] using elem_ind';
        cbn [bin_place_elem]; intros H t1 J.
      - contradiction.
      - exists e. split; [eapply th_interp; exact J|]. destruct (bin_place bev bc e). exact H.
      - rewrite Forall_forall in IHt.
        assert (T : In x (flat_map snd (map (bin_place_elem bev bc) t0)) ->
                    exists e, tpl_has t1 e /\ In x (snd (bin_place bev bc e))).
        { intros K. apply flat_map_snd in K. destruct K as [a [K1 K2]].
          destruct (IHt a K1 K2 t0 K1) as [e0 [A B]]. exists e0. split; [eapply th_then; eassumption|exact B]. }
        nest e He.
        assert (C : In x errs -> exists e, tpl_has t1 e /\ In x (snd (bin_place bev bc e))).
        { intros K. exists e. split; [eapply th_test; exact J|]. rewrite He. exact K. }
        destruct f as [f|]; cbn [snd] in H; rewrite ?in_app_iff in H.
        + destruct H as [H|[H|H]]; auto. cbn in IHf. rewrite Forall_forall in IHf.
          apply flat_map_snd in H. destruct H as [a [K1 K2]].
          destruct (IHf a K1 K2 f K1) as [e0 [A B]]. exists e0. split; [eapply th_else; eassumption|exact B].
        + destruct H as [H|H]; auto.
      - rewrite Forall_forall in IHt. nest e He. cbn [snd] in H. rewrite in_app_iff in H. destruct H as [H|H].
        + exists e. split; [eapply th_coll; exact J|]. rewrite He. exact H.
        + apply flat_map_snd in H. destruct H as [a [K1 K2]].
          destruct (IHt a K1 K2 t0 K1) as [e0 [A B]]. exists e0. split; [eapply th_loop; eassumption|exact B]. }
    intros H. cbn [snd bin_place_template] in H. apply flat_map_snd in H. destruct H as [el [I H]]. eauto.
  Qed.
End InPlace.

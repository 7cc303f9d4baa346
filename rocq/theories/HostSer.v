(** Converting a Rust value with [From] and serializing it with serde agree (C59). *)
From Coq Require Import ZArith Reals NArith Bool String List Lia.
From Flocq Require Import Core IEEE754.BinarySingleNaN.
From Verif Require Import Res Str NumberModel NumberProofs PrimModel Ast EvalModel EvalSpec EvalSem EvalIp SerModel SerSpec SerProofs OpProofs HostModel HostSpec HostProofs.
From Verif Require MapModel.
Import ListNotations.

(** The calls made by serde's [Serialize] for the same Rust values: [()], bool, integers, floats
    (value/ser.rs:75-77 and expr/ser/mod.rs:132-134 widen f32), strings, sequences, maps with string
    keys, and the crate's [Number] and [Value] (as in SerModel.v).  A map type such as BTreeMap or
    IndexMap hands out its pairs in the order in which [FromIterator] gets them. *)
Fixpoint sd_host (h : host) : sd :=
  match h with
  | HUnit => DUnit
  | HBool b => DBool b
  | HSigned z => DI64 z
  | HUnsigned z => DU64 z
  | HF32 f => DF64 (f64_of_f32 f)
  | HF64 f => DF64 f
  | HNum n => sd_value (VNum n)
  | HStr s => DStr s
  | HVec l => DSeq (map sd_host l)
  | HPairs l => DMap (map (fun p => (DStr (fst p), sd_host (snd p))) l)
  | HVal v => sd_value v
  end.

(** Numbers inside satisfy the invariant of Number (C01). *)
Fixpoint regular (h : host) : Prop :=
  match h with
  | HNum n => num_wf n
  | HVal v => numbers num_wf v
  | HVec l => fold_right (fun h P => regular h /\ P) True l
  | HPairs l => fold_right (fun p P => regular (snd p) /\ P) True l
  | _ => True
  end.

Lemma mapm_rel {A B C D} (f : A -> res B) (g : D -> M C) (h : A -> D) (k : B -> C) l bs :
  Forall2 (fun a b => f a = Done b) l bs -> Forall (fun a => forall b, f a = Done b -> forall s, g (h a) s = (SOk (k b), s)) l ->
  forall s, mapm g (map h l) s = (SOk (map k bs), s).
Proof.
  induction 1 as [|a b l bs E _ IH]; intros F s; [reflexivity|]. apply Forall_cons_iff in F as [F1 F2]. cbn [map mapm]. unfold bind. rewrite (F1 b E). now rewrite IH.
Qed.

Section Ser.
  Context (u : unicode) (bd : build) (nested : top -> sd -> M bool).
  Lemma ser_host_value h : forall v, typed h -> regular h -> value_from bd h = Done v ->
    forall s, ser_value bd nested (sd_host h) s = (SOk v, s).
  Proof.
    induction h as [|b|z|z|f|f|n|x|l IH|l IH|w] using host_ind'; intros v T R E s; cbn [value_from typed regular sd_host] in *; try (injection E as <-; reflexivity).
    - cbn [ser_value]. rewrite of_f64_num. unfold value_of_f64 in E. destruct (num_from_f64 bd (f64_of_f32 f)) as [[n|]|]; [injection E as <-..|discriminate]; reflexivity.
    - cbn [ser_value]. rewrite of_f64_num. unfold value_of_f64 in E. destruct (num_from_f64 bd f) as [[n|]|]; [injection E as <-..|discriminate]; reflexivity.
    - injection E as <-. rewrite ser_value_value. cbn [de_value]. now rewrite hcl_num_wf.
    - destruct (rall (map (value_from bd) l)) as [vs|] eqn:Er; [|discriminate]. injection E as <-. apply rall_inv in Er. cbn [ser_value]. unfold fmap, bind.
      apply fold_all in T. apply fold_all in R. rewrite (mapm_rel (value_from bd) _ sd_host (fun v => v) l vs Er); [now rewrite map_id|].
      rewrite Forall_forall in *. intros a Ha b Eb s'. apply IH; auto.
    - destruct (rall _) as [m|] eqn:Er; [|discriminate]. injection E as <-. apply rall_inv in Er. cbn [ser_value]. unfold fmap. unfold bind at 1.
      apply (fold_all (fun p => typed (snd p))) in T. apply (fold_all (fun p => regular (snd p))) in R.
      rewrite (mapm_rel _ _ _ (fun q => q) l m Er); [now rewrite map_id|].
      rewrite Forall_forall in *. intros a Ha b Eb s'. destruct (value_from bd (snd a)) as [x|] eqn:Ex; [|discriminate]. injection Eb as <-.
      cbn [ser_string]. unfold bind, ret. now rewrite (IH a Ha x (T a Ha) (R a Ha) Ex).
    - injection E as <-. rewrite ser_value_value. now rewrite de_value_same.
  Qed.
  Lemma ser_host_expr h : forall v, typed h -> regular h -> value_from bd h = Done v ->
    forall s, ser_expr u bd nested (sd_host h) s = (SOk (expr_of_value v), s).
  Proof.
    induction h as [|b|z|z|f|f|n|x|l IH|l IH|w] using host_ind'; intros v T R E s; cbn [value_from typed regular sd_host] in *; try (injection E as <-; reflexivity).
    - cbn [ser_expr]. rewrite of_f64_num. unfold value_of_f64 in E. destruct (num_from_f64 bd (f64_of_f32 f)) as [[n|]|]; [injection E as <-..|discriminate]; reflexivity.
    - cbn [ser_expr]. rewrite of_f64_num. unfold value_of_f64 in E. destruct (num_from_f64 bd f) as [[n|]|]; [injection E as <-..|discriminate]; reflexivity.
    - injection E as <-. rewrite ser_expr_value by exact I. cbn [de_value]. now rewrite hcl_num_wf.
    - destruct (rall (map (value_from bd) l)) as [vs|] eqn:Er; [|discriminate]. injection E as <-. apply rall_inv in Er. cbn [ser_expr]. unfold fmap, bind.
      apply fold_all in T. apply fold_all in R. rewrite (mapm_rel (value_from bd) _ sd_host expr_of_value l vs Er); [reflexivity|].
      rewrite Forall_forall in *. intros a Ha b Eb s'. apply IH; auto.
    - destruct (rall _) as [m|] eqn:Er; [|discriminate]. injection E as <-. apply rall_inv in Er. cbn [ser_expr]. unfold fmap. unfold bind at 1.
      apply (fold_all (fun p => typed (snd p))) in T. apply (fold_all (fun p => regular (snd p))) in R.
      rewrite (mapm_rel _ _ _ (fun q => (skey (fst q), expr_of_value (snd q))) l m Er).
      + unfold ret, expr_obj. cbn [expr_of_value]. rewrite (obj_literal (MapModel.from_iter seqb m)); [rewrite <- collect_pairs; reflexivity|].
        destruct (from_iter_last m) as [-> _]. apply distinct_nodup.
      + rewrite Forall_forall in *. intros a Ha b Eb s'. destruct (value_from bd (snd a)) as [x|] eqn:Ex; [|discriminate]. injection Eb as <-.
        cbn [ser_key]. unfold bind, ret. now rewrite (IH a Ha x (T a Ha) (R a Ha) Ex).
    - injection E as <-. rewrite ser_expr_value by exact T. now rewrite de_value_same.
  Qed.
End Ser.

(** [to_value(&x)] is [Value::from(x)] and [to_expression(&x)] is [Expression::from(x)]; neither fails nor
    leaves anything in the thread-local state. *)
Theorem C59_serialized (u : unicode) (bd : build) (h : host) (s : tls) : typed h -> regular h ->
  exists v e, value_from bd h = Done v /\ expr_from bd h = Done e /\
    run_value u bd (sd_host h) s = (SOk v, s) /\ run_expr u bd (sd_host h) s = (SOk e, s).
Proof.
  intros T R. destruct (total bd h) as [v E]. exists v, (expr_of_value v). split; [exact E|]. split; [exact (host_expr bd h v T E)|]. split.
  - unfold run_value, to_value. now apply ser_host_value.
  - unfold run_expr, to_expr, with_internal. rewrite (ser_host_expr u bd _ h v T R E). now destruct s.
Qed.
Print Assumptions C59_serialized.

Example C59_serialized_example :
  let h := HPairs [(lit "a", HVec [HSigned (-3); HNum (PosInt 7); HVal (VObj [(lit "k", VNull)])]); (lit "b", HF64 B754_nan)] in
  typed h /\ regular h /\
  fst (run_value ascii_unicode Debug (sd_host h) tls_new) =
    SOk (VObj [(lit "a", VArr [VNum (NegInt (-3)); VNum (PosInt 7); VObj [(lit "k", VNull)]]); (lit "b", VNull)]).
Proof.
  split; [|split].
  - repeat split; try (intro; discriminate). constructor; [intros []|constructor].
  - repeat split; intro; discriminate.
  - vm_compute. reflexivity.
Qed.

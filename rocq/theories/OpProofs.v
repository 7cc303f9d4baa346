(** Proofs about the operators (C44). *)
From Coq Require Import ZArith Reals Lra NArith Bool String List Lia.
From Flocq Require Import Core IEEE754.BinarySingleNaN.
From Verif Require Import Res Str NumberModel PrimModel Ast AstInd NumberProofs EvalModel EvalSpec EvalProofs EvalWf EvalIp EvalSem
  SerSpec OpSpec.
From Verif Require MapModel MapProofs BodyProps.
Import ListNotations.
Open Scope nat_scope.

(** ** Equality *)
Lemma nodup_mwf (m : list (str * value)) : NoDup (map fst m) -> MapProofs.wf seqb m.
Proof.
  intros Hm. apply (MapProofs.wf_distinct seqb BodyProps.seqb_equivalence).
  intros i j k1 k2 v1 v2 H1 H2 E. apply seqb_eq in E. subst k2. rewrite NoDup_nth_error in Hm. apply Hm.
  - rewrite map_length. apply nth_error_Some. congruence.
  - rewrite (map_nth_error fst _ _ H1), (map_nth_error fst _ _ H2). reflexivity.
Qed.
Lemma get_nodup (m : list (str * value)) k v : NoDup (map fst m) -> (MapModel.get seqb k m = Some v <-> In (k, v) m).
Proof.
  intros Hm. split.
  - intros H. apply (MapProofs.get_entry seqb) in H as (k' & Hi & E). apply seqb_eq in E. now subst.
  - apply (MapProofs.in_get seqb BodyProps.seqb_equivalence). now apply nodup_mwf.
Qed.
Lemma get_none_in (m : list (str * value)) k : MapModel.get seqb k m = None <-> ~ In k (map fst m).
Proof. apply get_none. Qed.
Definition good (v : value) : Prop := wf_value v /\ numbers num_wf v.
Lemma good_arr l : good (VArr l) -> Forall good l.
Proof.
  unfold good. cbn. intros [H1 H2]. induction l as [|v l IH]; cbn in *; constructor; intuition.
Qed.
Lemma good_obj m : good (VObj m) -> NoDup (map fst m) /\ Forall (fun e => good (snd e)) m.
Proof.
  unfold good. cbn. intros [[H0 H1] H2]. split; [exact H0|]. clear H0. induction m as [|v l IH]; cbn in *; constructor; intuition.
Qed.
Lemma value_eqb_same a : forall b, good a -> good b -> (value_eqb a b = true <-> same a b).
Proof.
  induction a as [|x|n|x|l IH|m IH] using value_ind'; intros b Ga Gb.
  all: destruct b as [|y|n'|y|l'|m']; cbn [value_eqb same]; try (split; [discriminate|contradiction]).
  - tauto.
  - apply eqb_true_iff.
  - apply num_eqb_real; [apply Ga|apply Gb].
  - apply seqb_eq.
  - apply good_arr in Ga, Gb. clear -IH Ga Gb. revert l' Gb. induction l as [|v l IHl]; intros [|w l'] Gb; cbn; try (split; [discriminate|contradiction]).
    + tauto.
    + inversion IH; inversion Ga; inversion Gb; subst. rewrite andb_true_iff, IHl by assumption. rewrite H1 by assumption. tauto.
  - apply good_obj in Ga as [N1 Ga]. apply good_obj in Gb as [N2 Gb].
    rewrite (MapProofs.map_eqb_spec seqb BodyProps.seqb_equivalence) by now apply nodup_mwf.
    assert (G : forall x, (fix go x := match x with [] => True | (k, v) :: x => (forall w, In (k, w) m' -> same v w) /\ go x end) x <->
      forall k v w, In (k, v) x -> In (k, w) m' -> same v w).
    { clear. intros x. induction x as [|[k v] x IH]; [firstorder|]. rewrite IH. split.
      - intros [H1 H2] k' v' w [[= <- <-]|Hi]; eauto.
      - intros H. split; intros; eapply H; eauto; [left; reflexivity|right; assumption]. }
    rewrite G. rewrite Forall_forall in *. split.
    + intros H. split.
      * intros k. specialize (H k). split; intros Hk.
        -- destruct (MapModel.get seqb k m') eqn:E2.
           ++ apply get_nodup in E2; [|exact N2]. apply (in_map fst) in E2. exact E2.
           ++ destruct (MapModel.get seqb k m) eqn:E1; [contradiction|]. apply get_none_in in E1. contradiction.
        -- destruct (MapModel.get seqb k m) eqn:E2.
           ++ apply get_nodup in E2; [|exact N1]. apply (in_map fst) in E2. exact E2.
           ++ destruct (MapModel.get seqb k m') eqn:E1; [contradiction|]. apply get_none_in in E1. contradiction.
      * intros k v w H1 H2. specialize (H k). pose proof (proj2 (get_nodup m k v N1) H1) as E1.
        pose proof (proj2 (get_nodup m' k w N2) H2) as E2. rewrite E1, E2 in H.
        apply (IH (k, v) H1); cbn; [apply (Ga (k, v) H1)|apply (Gb (k, w) H2)|exact H].
    + intros [H1 H2] k. destruct (MapModel.get seqb k m) as [v|] eqn:E1, (MapModel.get seqb k m') as [w|] eqn:E2; auto.
      * apply get_nodup in E1; [|exact N1]. apply get_nodup in E2; [|exact N2].
        apply (IH (k, v) E1); [apply (Ga (k, v) E1)|apply (Gb (k, w) E2)|]. cbn. eauto.
      * apply get_nodup in E1; [|exact N1]. apply get_none_in in E2. apply E2. apply H1. apply (in_map fst) in E1. exact E1.
      * apply get_nodup in E2; [|exact N2]. apply get_none_in in E1. apply E1. apply H1. apply (in_map fst) in E2. exact E2.
Qed.

(** ** Binary operators on values *)
Lemma binary_accepts bd a o b v : eval_binary bd a o b = Ok v -> accepts o a b.
Proof.
  unfold accepts. destruct o; cbn [kind eval_binary]; auto; destruct a, b; cbn; try discriminate; eauto.
Qed.
Lemma binary_rejects bd a o b : ~ accepts o a b -> eval_binary bd a o b = Err (KBinaryOp a o b).
Proof.
  unfold accepts. destruct o; cbn [kind eval_binary]; try tauto; destruct a, b; cbn; try reflexivity; intros H; exfalso; apply H; eauto.
Qed.
Lemma binary_compares bd o x y : num_wf x -> num_wf y -> comparison o = true ->
  exists b, eval_binary bd (VNum x) o (VNum y) = Ok (VBool b) /\ (b = true <-> compares o (valR x) (valR y)).
Proof.
  intros Wx Wy H. pose proof (num_cmp_real x y Wx Wy) as E.
  destruct o; try discriminate H; cbn [eval_binary compares]; rewrite E; eexists; (split; [reflexivity|]);
    destruct (Rcompare_spec (valR x) (valR y)); split; intros; try discriminate; try reflexivity; try lra.
Qed.
Lemma binary_computes bd o x y a b z :
  num_repr x = true -> num_repr y = true -> as_i64 x = Some a -> as_i64 y = Some b ->
  (Z.abs a <= 2 ^ 53)%Z -> (Z.abs b <= 2 ^ 53)%Z -> computes o a b = Some z -> (Z.abs z <= 2 ^ 53)%Z ->
  exists r, eval_binary bd (VNum x) o (VNum y) = Ok (VNum r) /\ as_i64 r = Some z.
Proof.
  intros Rx Ry Ax Ay La Lb Ho Lz.
  assert (H : exists ar, z_arith ar a b = z /\ ar <> ODiv /\ (ar = ORem -> b <> 0%Z) /\
    eval_binary bd (VNum x) o (VNum y) = emap VNum (of_res (num_arith bd ar x y))).
  { destruct o; try discriminate Ho; cbn [computes] in Ho.
    4:{ destruct (Z.eqb_spec b 0); [discriminate|]. exists ORem. injection Ho as <-.
        repeat match goal with |- _ /\ _ => split end; auto; discriminate. }
    1: exists OAdd. 2: exists OSub. 3: exists OMul.
    all: injection Ho as <-; repeat match goal with |- _ /\ _ => split end; auto; discriminate. }
  destruct H as (ar & E & H1 & H2 & H3). subst z.
  destruct (num_arith_int bd ar x y a b) as (r & Hr & _ & Hz); auto. rewrite H3, Hr. cbn. eauto.
Qed.

(** ** Collecting *)
Lemma collect_iff {A B} (f : A -> eres B) l vs : collect f l = Ok vs <-> Forall2 (fun a b => f a = Ok b) l vs.
Proof.
  revert vs. induction l as [|a l IH]; intros vs; cbn [collect].
  - split; [intros [= <-]; constructor|intros H; inversion H; reflexivity].
  - split.
    + intros H. apply ebind_ok in H as (b & H1 & H2). apply emap_ok in H2 as (bs & H2 & ->). constructor; [exact H1|now apply IH].
    + intros H. inversion H as [|? b ? bs H1 H2]; subst. rewrite H1. cbn. apply IH in H2. now rewrite H2.
Qed.
Lemma from_iter_snoc (l : list (str * value)) k v :
  MapModel.from_iter seqb (l ++ [(k, v)]) = fst (MapModel.insert seqb k v (MapModel.from_iter seqb l)).
Proof. unfold MapModel.from_iter, MapModel.extend. now rewrite fold_left_app. Qed.
Lemma last_value_snoc k l k' v : last_value k (l ++ [(k', v)]) = if seqb k k' then Some v else last_value k l.
Proof.
  induction l as [|[k0 v0] l IH]; cbn; [reflexivity|]. rewrite IH. now destruct (seqb k k').
Qed.
Lemma from_iter_last (l : list (str * value)) :
  map fst (MapModel.from_iter seqb l) = distinct (map fst l) /\
  forall k, MapModel.get seqb k (MapModel.from_iter seqb l) = last_value k l.
Proof.
  induction l as [|[k v] l [IH1 IH2]] using rev_ind; [split; reflexivity|]. rewrite from_iter_snoc. split.
  - rewrite insert_keys, map_app. cbn [map fst]. rewrite distinct_snoc, IH1.
    replace (MapModel.contains_key seqb k (MapModel.from_iter seqb l)) with (existsb (seqb k) (map fst l)); [reflexivity|].
    assert (E : existsb (seqb k) (map fst l) = existsb (seqb k) (distinct (map fst l))).
    { apply eq_true_iff_eq. rewrite !existsb_exists. destruct (distinct_nodup (map fst l)) as [_ D].
      split; intros (x & H1 & H2); exists x; split; auto; now apply D. }
    rewrite E, <- IH1. clear. unfold MapModel.contains_key. induction (MapModel.from_iter seqb l) as [|[a b] m IH]; cbn; [reflexivity|].
    rewrite IH. now destruct (seqb k a).
  - intros x. rewrite get_insert, IH2, last_value_snoc. reflexivity.
Qed.
Lemma same_map (a b : list (str * value)) : NoDup (map fst a) -> map fst b = map fst a ->
  (forall k x, In (k, x) b <-> In (k, x) a) -> a = b.
Proof.
  revert b. induction a as [|[k v] a IH]; intros [|[k' v'] b] N K H; try discriminate K; [reflexivity|].
  cbn in N, K. injection K as -> K. inversion N as [|? ? N1 N2]; subst.
  assert (v' = v).
  { destruct (proj1 (H k v') (or_introl eq_refl)) as [E|Hi]; [congruence|]. apply (in_map fst) in Hi. contradiction. }
  subst v'. f_equal. apply IH; [exact N2|exact K|]. intros x y. split; intros Hi.
  - destruct (proj1 (H x y) (or_intror Hi)) as [E|]; [|assumption]. injection E as <- <-. apply (in_map fst) in Hi. rewrite K in Hi. contradiction.
  - destruct (proj2 (H x y) (or_intror Hi)) as [E|]; [|assumption]. injection E as <- <-. apply (in_map fst) in Hi. contradiction.
Qed.

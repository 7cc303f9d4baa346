(** Proofs about conversions from Rust values (C59). *)
From Coq Require Import ZArith Reals NArith Bool String List Lia Lra.
From Flocq Require Import Core IEEE754.BinarySingleNaN.
From Verif Require Import Res Str NumberModel NumberProofs FloatProofs Ast EvalModel EvalSpec EvalSem EvalIp SerProofs OpSpec OpProofs HostModel HostSpec.
From Verif Require MapModel NumberProps.
Import ListNotations.

(** ** Widening *)
Lemma widen_format (f : f32) : generic_format radix2 (SpecFloat.fexp prec emax) (B2R f).
Proof.
  apply (generic_inclusion_mag radix2 (SpecFloat.fexp 24 128)).
  - intros _. unfold SpecFloat.fexp, SpecFloat.emin, prec, emax. lia.
  - apply generic_format_B2R.
Qed.
Lemma widen (f : f32) : B2R (f64_of_f32 f) = B2R f /\ is_finite (f64_of_f32 f) = is_finite f.
Proof.
  destruct f as [s|s| |s m e W]; try (split; reflexivity).
  pose proof (widen_format (B754_finite s m e W)) as G. pose proof (abs_B2R_lt_emax 24 128 (B754_finite s m e W)) as L.
  cbn [f64_of_f32 is_finite]. generalize (binary_normalize_correct prec emax prec_gt_0_53 prec_lt_emax_1024 mode_NE (SpecFloat.cond_Zopp s (Zpos m)) e s).
  cbv zeta. change (F2R (Defs.Float radix2 (SpecFloat.cond_Zopp s (Zpos m)) e)) with (B2R (B754_finite s m e W : f32)).
  rewrite round_generic; [|apply valid_rnd_round_mode|exact G]. rewrite Rlt_bool_true.
  - intros (A & B & _). split; [exact A|exact B].
  - eapply Rlt_trans; [exact L|]. apply bpow_lt. reflexivity.
Qed.

(** ** Induction *)
Section Ind.
  Context (P : host -> Prop).
  Context (H1 : P HUnit) (H2 : forall b, P (HBool b)) (H3 : forall z, P (HSigned z)) (H4 : forall z, P (HUnsigned z)).
  Context (H5 : forall f, P (HF32 f)) (H6 : forall f, P (HF64 f)) (H7 : forall n, P (HNum n)) (H8 : forall s, P (HStr s)).
  Context (H9 : forall l, Forall P l -> P (HVec l)) (H10 : forall l, Forall (fun p => P (snd p)) l -> P (HPairs l)).
  Context (H11 : forall v, P (HVal v)).
  Fixpoint host_ind' (h : host) : P h :=
    match h with
    | HUnit => H1 | HBool b => H2 b | HSigned z => H3 z | HUnsigned z => H4 z | HF32 f => H5 f | HF64 f => H6 f
    | HNum n => H7 n | HStr s => H8 s
    | HVec l => H9 l ((fix go l : Forall P l := match l with [] => Forall_nil _ | h :: l => Forall_cons _ (host_ind' h) (go l) end) l)
    | HPairs l => H10 l ((fix go l : Forall (fun p => P (snd p)) l :=
        match l with [] => Forall_nil _ | p :: l => Forall_cons p (host_ind' (snd p)) (go l) end) l)
    | HVal v => H11 v
    end.
End Ind.

Lemma fold_all {A} (Q : A -> Prop) l : fold_right (fun a P => Q a /\ P) True l <-> Forall Q l.
Proof. induction l as [|a l IH]; cbn; [split; auto|]. rewrite Forall_cons_iff. tauto. Qed.

Lemma rall_done {A B} (f : A -> res B) (l : list A) (Q : A -> B -> Prop) :
  Forall (fun a => exists b, f a = Done b /\ Q a b) l -> exists bs, rall (map f l) = Done bs /\ Forall2 Q l bs.
Proof.
  induction 1 as [|a l (b & E & H) _ (bs & Es & Hs)]; cbn; [eauto|]. rewrite E. cbn. rewrite Es. cbn. eauto.
Qed.
Lemma rall_inv {A B} (f : A -> res B) (l : list A) bs : rall (map f l) = Done bs -> Forall2 (fun a b => f a = Done b) l bs.
Proof.
  revert bs. induction l as [|a l IH]; cbn; intros bs; [intros [= <-]; constructor|]. destruct (f a) as [b|] eqn:E; [|discriminate]. cbn.
  destruct (rall (map f l)) as [bs'|] eqn:Es; [|discriminate]. cbn. intros [= <-]. constructor; auto.
Qed.

(** ** Numbers *)
Lemma from_f64_total bd f : exists v, value_of_f64 bd f = Done v.
Proof.
  unfold value_of_f64, num_from_f64. destruct (f64_finite f) eqn:E; cbn; [|eauto]. unfold from_finite_f64. rewrite E. destruct bd; cbn; eauto.
Qed.
Lemma from_f64_value bd (f : f64) : in_i64 (B2R f) -> exists v, value_of_f64 bd f = Done v /\
  (is_finite f = true -> is_real (B2R f) v) /\ (is_finite f = false -> v = VNull).
Proof.
  intros H. destruct (is_finite f) eqn:E.
  - destruct (NumberProps.C04_from_f64_value_partial bd f E H) as (n & Hn & W & V). exists (VNum n). unfold value_of_f64. rewrite Hn. cbn.
    split; [reflexivity|]. split; [|discriminate]. intros _. exists n. auto.
  - exists VNull. unfold value_of_f64. apply (NumberProps.C04_from_f64_none bd) in E. rewrite E. cbn. split; [reflexivity|]. split; [discriminate|reflexivity].
Qed.
Lemma from_f64_expr bd f : expr_of_f64 bd f = rmap expr_of_value (value_of_f64 bd f).
Proof. unfold expr_of_f64, value_of_f64. destruct (num_from_f64 bd f) as [[n|]|]; reflexivity. Qed.
Lemma from_f64_wf bd f v : value_of_f64 bd f = Done v -> wf_value v.
Proof. unfold value_of_f64. destruct (num_from_f64 bd f) as [[n|]|]; cbn; intros [= <-]; exact I. Qed.

(** ** Collected pairs *)
Lemma in_from_iter (l : list (str * value)) k x : In (k, x) (MapModel.from_iter seqb l) -> In x (map snd l).
Proof.
  destruct (from_iter_last l) as [L1 L2]. intros H. apply get_nodup in H; [|rewrite L1; apply distinct_nodup]. rewrite L2 in H. clear L1 L2.
  induction l as [|[k' v] l IH]; cbn in *; [discriminate|]. destruct (last_value k l) as [w|]; [right; apply IH; exact H|].
  destruct (seqb k k'); [|discriminate]. injection H as <-. now left.
Qed.
Lemma collect_pairs (l : list (str * value)) :
  eobj_collect (map (fun p => (KExpr (EStr (fst p)), expr_of_value (snd p))) l) =
  map (fun p : str * value => (KExpr (EStr (fst p)), expr_of_value (snd p))) (MapModel.from_iter seqb l).
Proof.
  unfold eobj_collect, MapModel.from_iter, MapModel.extend. set (g := fun p : str * value => (@KExpr expr (EStr (fst p)), expr_of_value (snd p))).
  change (@nil (okey expr * expr)) with (map g []) at 1. generalize (@nil (str * value)). induction l as [|[k v] l IH]; intros acc; cbn [map fold_left]; [reflexivity|].
  rewrite <- IH. f_equal. cbn [fst snd g]. clear IH. induction acc as [|[k' v'] acc IH]; cbn; [reflexivity|].
  destruct (seqb k k'); [reflexivity|]. destruct (MapModel.insert seqb k v acc) as [a o]. destruct (MapModel.insert (okey_eqb expr_eqb) _ _ (map g acc)) as [a' o'].
  cbn in *. now rewrite IH.
Qed.

(** ** Conversions *)
Lemma total bd h : exists v, value_from bd h = Done v.
Proof.
  induction h as [| | | |f|f| | |l IH|l IH|] using host_ind'; cbn [value_from]; eauto using from_f64_total.
  - destruct (rall_done (value_from bd) l (fun _ _ => True)) as (bs & E & _); [|rewrite E; cbn; eauto].
    eapply Forall_impl; [|exact IH]. intros a [v E]. eauto.
  - destruct (rall_done (fun p => rmap (pair (fst p)) (value_from bd (snd p))) l (fun _ _ => True)) as (bs & E & _); [|rewrite E; cbn; eauto].
    eapply Forall_impl; [|exact IH]. intros a [v E]. rewrite E. cbn. eauto.
Qed.
Lemma host_value bd h : typed h -> fits h -> exists v, value_from bd h = Done v /\ denotes h v.
Proof.
  induction h as [|b|z|z|f|f|n|s|l IH|l IH|v] using host_ind'; cbn [value_from typed fits]; intros T F; try (eexists; split; [reflexivity|now constructor]).
  - eexists; split; [reflexivity|]. constructor. exists (num_of_i64 z). rewrite num_of_i64_of_Z. split; [reflexivity|]. split; [apply num_wf_of_Z; unfold i64_max, u64_max in *; lia|apply valR_of_Z].
  - eexists; split; [reflexivity|]. constructor. exists (PosInt z). split; [reflexivity|]. split; [exact T|reflexivity].
  - destruct (widen f) as [W1 W2]. rewrite <- W1 in F. destruct (from_f64_value bd _ F) as (v & E & A & B). rewrite W1, W2 in *. exists v. split; [exact E|].
    destruct (is_finite f) eqn:Ef; [apply D_f32; auto|]. rewrite B by reflexivity. now apply D_f32_none.
  - destruct (from_f64_value bd _ F) as (v & E & A & B). exists v. split; [exact E|].
    destruct (is_finite f) eqn:Ef; [apply D_f64; auto|]. rewrite B by reflexivity. now apply D_f64_none.
  - apply fold_all in T. apply fold_all in F. destruct (rall_done (value_from bd) l denotes) as (vs & E & H).
    + rewrite Forall_forall in *. intros a Ha. apply IH; auto.
    + exists (VArr vs). rewrite E. split; [reflexivity|now constructor].
  - apply (fold_all (fun p => typed (snd p))) in T. apply (fold_all (fun p => fits (snd p))) in F.
    destruct (rall_done (fun p => rmap (pair (fst p)) (value_from bd (snd p))) l (fun p kv => fst kv = fst p /\ denotes (snd p) (snd kv))) as (kvs & E & H).
    + rewrite Forall_forall in *. intros p Hp. destruct (IH p Hp (T p Hp) (F p Hp)) as (v & E & D). rewrite E. cbn. exists (fst p, v). auto.
    + exists (VObj (MapModel.from_iter seqb kvs)). rewrite E. split; [reflexivity|]. destruct (from_iter_last kvs) as [L1 L2]. apply (D_pairs l kvs).
      * exact H.
      * rewrite L1. f_equal. clear - H. induction H as [|p kv l kvs [H _] _ IH]; cbn; congruence.
      * intros k x. rewrite <- L2. symmetry. apply get_nodup. rewrite L1. apply distinct_nodup.
Qed.
Lemma host_wf bd h v : typed h -> value_from bd h = Done v -> wf_value v.
Proof.
  revert v. induction h as [|b|z|z|f|f|n|s|l IH|l IH|w] using host_ind'; cbn [value_from typed]; intros v T E; try (injection E as <-; exact I || exact T);
    try (eapply from_f64_wf; exact E).
  - destruct (rall (map (value_from bd) l)) as [vs|] eqn:R; [|discriminate]. injection E as <-. cbn [wf_value]. apply wf_all. apply rall_inv in R.
    apply fold_all in T. induction R as [|a b l bs R _ IH']; constructor; apply Forall_cons_iff in T as [T1 T2]; apply Forall_cons_iff in IH as [I1 I2]; auto.
  - destruct (rall _) as [m|] eqn:R; [|discriminate]. injection E as <-. cbn [wf_value]. apply rall_inv in R.
    apply (fold_all (fun p => typed (snd p))) in T. split; [destruct (from_iter_last m) as [-> _]; apply distinct_nodup|].
    apply wf_all_obj. assert (A : Forall wf_value (map snd m)).
    { clear -IH R T. induction R as [|a b l bs R _ IH']; constructor; apply Forall_cons_iff in T as [T1 T2]; apply Forall_cons_iff in IH as [I1 I2]; auto.
      destruct (value_from bd (snd a)) as [w|]; [|discriminate]. injection R as <-. apply I1; auto. }
    rewrite Forall_forall in *. intros [k x] H. apply A. eapply in_from_iter. exact H.
Qed.
Lemma host_expr bd h v : typed h -> value_from bd h = Done v -> expr_from bd h = Done (expr_of_value v).
Proof.
  revert v. induction h as [|b|z|z|f|f|n|s|l IH|l IH|w] using host_ind'; cbn [value_from expr_from]; intros v T E; try (injection E as <-; reflexivity);
    try (rewrite from_f64_expr, E; reflexivity).
  - cbn [typed] in T. apply fold_all in T. destruct (rall (map (value_from bd) l)) as [vs|] eqn:R; [|discriminate]. injection E as <-. apply rall_inv in R. cbn [expr_of_value].
    replace (rall (map (expr_from bd) l)) with (Done (map expr_of_value vs)); [reflexivity|].
    induction R as [|a b l bs R _ IH']; cbn; [reflexivity|]. apply Forall_cons_iff in T as [T1 T2]; apply Forall_cons_iff in IH as [I1 I2].
    rewrite (I1 b) by auto. cbn. now rewrite <- IH' by auto.
  - pose proof (host_wf bd (HPairs l) v T) as W. cbn [value_from] in W. specialize (W E). cbn [typed] in T. apply (fold_all (fun p => typed (snd p))) in T.
    destruct (rall _) as [m|] eqn:R; [|discriminate]. injection E as <-. apply rall_inv in R. cbn [expr_of_value]. destruct W as [W _].
    rewrite obj_literal by exact W. rewrite <- collect_pairs.
    replace (rall _) with (Done (map (fun p : str * value => (@KExpr expr (EStr (fst p)), expr_of_value (snd p))) m)); [reflexivity|]. clear W.
    induction R as [|a b l bs R _ IH']; cbn; [reflexivity|]. apply Forall_cons_iff in T as [T1 T2]; apply Forall_cons_iff in IH as [I1 I2].
    destruct (value_from bd (snd a)) as [w|]; [|discriminate]. injection R as <-. rewrite (I1 w) by auto. cbn. now rewrite <- IH' by auto.
Qed.

(** ** Identifier keys *)
Lemma collect_idents (l : list (str * value)) :
  eobj_collect (map (fun p => (KIdent (fst p), expr_of_value (snd p))) l) =
  map (fun p : str * value => (KIdent (fst p), expr_of_value (snd p))) (MapModel.from_iter seqb l).
Proof.
  unfold eobj_collect, MapModel.from_iter, MapModel.extend. set (g := fun p : str * value => (@KIdent expr (fst p), expr_of_value (snd p))).
  change (@nil (okey expr * expr)) with (map g []) at 1. generalize (@nil (str * value)). induction l as [|[k v] l IH]; intros acc; cbn [map fold_left]; [reflexivity|].
  rewrite <- IH. f_equal. cbn [fst snd g]. clear IH. induction acc as [|[k' v'] acc IH]; cbn; [reflexivity|].
  destruct (seqb k k'); [reflexivity|]. destruct (MapModel.insert seqb k v acc) as [a o]. destruct (MapModel.insert (okey_eqb expr_eqb) _ _ (map g acc)) as [a' o'].
  cbn in *. now rewrite IH.
Qed.
Lemma idents_expr bd l m : typed (HPairs l) -> value_from bd (HPairs l) = Done (VObj m) ->
  expr_from_idents bd l = Done (EObj (map (fun p : str * value => (KIdent (fst p), expr_of_value (snd p))) m)).
Proof.
  cbn [typed value_from]. intros T E. apply (fold_all (fun p => typed (snd p))) in T. destruct (rall _) as [kvs|] eqn:R; [|discriminate].
  injection E as <-. apply rall_inv in R. unfold expr_from_idents. rewrite <- collect_idents.
  replace (rall _) with (Done (map (fun p : str * value => (@KIdent expr (fst p), expr_of_value (snd p))) kvs)); [reflexivity|].
  induction R as [|a b l bs R _ IH]; cbn; [reflexivity|]. apply Forall_cons_iff in T as [T1 T2].
  destruct (value_from bd (snd a)) as [w|] eqn:E; [|discriminate]. injection R as <-. rewrite (host_expr bd _ w) by auto. cbn. now rewrite <- IH by auto.
Qed.

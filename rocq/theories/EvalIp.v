(** Literals, and evaluation in place. *)
From Coq Require Import ZArith NArith Bool String List Lia.
From Verif Require Import Res Str NumberModel PrimModel Ast AstInd EvalModel EvalSpec EvalProofs EvalWf.
From Verif Require MapModel MapProofs.
Import ListNotations.
Open Scope nat_scope.

(** ** Collecting distinct keys changes nothing *)
Section Fresh.
  Context {K V : Type} (eqb : K -> K -> bool).
  Lemma insert_fresh k (v : V) m : Forall (fun k' => eqb k k' = false) (map fst m) ->
    fst (MapModel.insert eqb k v m) = m ++ [(k, v)].
  Proof.
    induction m as [|[k' v'] m IH]; cbn [MapModel.insert map fst app]; auto. intros H.
    inversion H as [|? ? H1 H2]; subst. rewrite H1. destruct (MapModel.insert eqb k v m). cbn in *.
    rewrite IH; auto.
  Qed.
  Fixpoint differ (ks : list K) : Prop :=
    match ks with [] => True | k :: ks => Forall (fun k' => eqb k' k = false) ks /\ differ ks end.
  Lemma extend_fresh (l : list (K * V)) : forall m,
    (forall k k', In k (map fst l) -> In k' (map fst m) -> eqb k k' = false) ->
    differ (map fst l) -> MapModel.extend eqb l m = m ++ l.
  Proof.
    unfold MapModel.extend. induction l as [|[k v] l IH]; intros m H1 H2; cbn [fold_left].
    - rewrite app_nil_r. reflexivity.
    - cbn [map fst differ] in H2. destruct H2 as [H2 H3].
      rewrite insert_fresh.
      2:{ apply Forall_forall. intros k' Hk. apply H1; auto. left. reflexivity. }
      rewrite IH; auto.
      + rewrite <- app_assoc. reflexivity.
      + intros k1 k2 I1 I2. rewrite map_app in I2. apply in_app_or in I2. destruct I2 as [I2|[<-|[]]].
        * apply H1; auto. right. exact I1.
        * rewrite Forall_forall in H2. apply H2. exact I1.
  Qed.
  Lemma from_iter_fresh (l : list (K * V)) : differ (map fst l) -> MapModel.from_iter eqb l = l.
  Proof. intros H. unfold MapModel.from_iter. rewrite extend_fresh; auto. intros k k' _ []. Qed.
End Fresh.

Lemma differ_nodup ks : NoDup ks <-> differ seqb ks.
Proof.
  induction ks as [|k ks IH]; cbn [differ]; split; intros H; auto; try constructor.
  - inversion H as [|? ? H1 H2]; subst. apply Forall_forall. intros k' Hk. apply seqb_neq. intros ->. contradiction.
  - inversion H; subst. apply IH. assumption.
  - destruct H as [H _]. intros I. rewrite Forall_forall in H. specialize (H _ I). rewrite seqb_refl in H. discriminate.
  - apply IH. tauto.
Qed.
Lemma from_iter_nodup (l : list (str * value)) : NoDup (map fst l) -> MapModel.from_iter seqb l = l.
Proof. intros H. apply from_iter_fresh. apply differ_nodup. exact H. Qed.

Lemma obj_literal m : NoDup (map fst m) ->
  eobj_collect (map (fun e => (KExpr (EStr (fst e)), expr_of_value (snd e))) m) =
  map (fun e : str * value => (KExpr (EStr (fst e)), expr_of_value (snd e))) m.
Proof.
  intros H. unfold eobj_collect. apply from_iter_fresh. rewrite map_map. cbn [fst].
  apply differ_nodup in H. rewrite <- (map_map fst (fun k : str => @KExpr expr (EStr k))). revert H.
  generalize (map fst m). intros ks. induction ks as [|k ks IH]; cbn [map differ]; auto. intros [H1 H2]. split; auto.
  rewrite Forall_forall in *. intros k' Hk. apply in_map_iff in Hk. destruct Hk as [s [<- Hs]].
  cbn [okey_eqb expr_eqb]. auto.
Qed.

Lemma collect_map {A B C} (f : B -> eres C) (g : A -> B) l : collect f (map g l) = collect (fun a => f (g a)) l.
Proof. induction l as [|a l IH]; cbn [collect map]; auto. rewrite IH. reflexivity. Qed.
Lemma collect_ext {A B} (f g : A -> eres B) l : (forall a, In a l -> f a = g a) -> collect f l = collect g l.
Proof.
  induction l as [|a l IH]; cbn [collect]; auto. intros H. rewrite (H a) by (left; reflexivity).
  rewrite IH; auto. intros. apply H. right. assumption.
Qed.
Lemma collect_ok {A} (f : A -> eres A) l : (forall a, In a l -> f a = Ok a) -> collect f l = Ok l.
Proof.
  induction l as [|a l IH]; cbn [collect]; auto. intros H. rewrite (H a) by (left; reflexivity).
  cbn [ebind]. rewrite IH; auto. intros. apply H. right. assumption.
Qed.
Lemma ebind_ok {A B} (x : eres A) (f : A -> eres B) b : ebind x f = Ok b -> exists a, x = Ok a /\ f a = Ok b.
Proof. destruct x; cbn; [eauto|discriminate]. Qed.
Lemma emap_ok {A B} (x : eres A) (f : A -> B) b : emap f x = Ok b -> exists a, x = Ok a /\ b = f a.
Proof. destruct x; cbn; [|discriminate]. intros H. injection H as <-. eauto. Qed.

Section Ip.
  Context (bd : build) (parse_tpl : str -> option template)
          (show_value : value -> str) (show_num : num -> str).
  Notation eval_expr := (eval_expr bd show_num).
  Notation eval := (eval bd parse_tpl show_value show_num).
  Notation in_place n := (in_place (eval n)).

  Lemma eval_unfold n : exists tpl, forall c e, eval n c e = eval_expr tpl c e.
  Proof. destruct n; cbn [EvalModel.eval]; eauto. Qed.

  Lemma eval_expr_literal tpl v c : wf_value v -> eval_expr tpl c (expr_of_value v) = Ok v.
  Proof.
    induction v as [ |b|n|s|l IH|m IH] using value_ind'; intros W; cbn [expr_of_value]; auto.
    - cbn [EvalModel.eval_expr]. rewrite collect_map. apply wf_arr in W. rewrite Forall_forall in *.
      rewrite collect_ok; auto.
    - apply wf_obj in W. destruct W as [W1 W2]. rewrite obj_literal by exact W1.
      cbn [EvalModel.eval_expr]. rewrite collect_map. cbn [fst snd EvalModel.eval_expr object_key].
      rewrite (collect_ext _ (fun e => Ok e)).
      + rewrite collect_ok by auto. cbn [emap]. rewrite from_iter_nodup by exact W1. reflexivity.
      + intros [k v] Hin. rewrite Forall_forall in *. specialize (IH _ Hin (W2 _ Hin)). cbn [fst snd] in *.
        cbn [ebind object_key]. rewrite IH. reflexivity.
  Qed.
  Lemma eval_literal n v c : wf_value v -> eval n c (expr_of_value v) = Ok v.
  Proof. destruct (eval_unfold n) as [tpl H]. rewrite H. apply eval_expr_literal. Qed.

  Lemma eval_wf n c e v : wf_ctx c -> eval n c e = Ok v -> wf_value v.
  Proof.
    intros W H. pose proof (eval_post bd show_value show_num parse_tpl (fun _ => True)
      (fun _ => I) I n c e W (fun o _ _ => I)) as G. rewrite H in G. exact G.
  Qed.

  (** *** Soundness of simplification *)
  Lemma replace_sound n m c c2 e errs v : n <= m -> wf_ctx c -> extends c c2 ->
    eval m c2 e = Ok v -> eval m c2 (fst (replace (eval n) c e errs)) = Ok v.
  Proof.
    intros L W X H. unfold replace. destruct errs; [|exact H].
    destruct (eval n c e) as [w|f] eqn:E; [|exact H]. cbn [fst].
    rewrite eval_literal by (eapply eval_wf; eauto).
    pose proof (eval_extends bd parse_tpl show_value show_num n m c c2 e w L X E). congruence.
  Qed.

  Notation nq := (fun _ : fail => False).
  Lemma le_ok {A} (x y : eres A) : le nq x y <-> (forall a, x = Ok a -> y = Ok a).
  Proof.
    split.
    - intros H a ->. exact H.
    - intros H. destruct x; cbn; [auto|tauto].
  Qed.
  Lemma replace_le n m c c2 e e1 errs : n <= m -> wf_ctx c -> extends c c2 ->
    le nq (eval m c2 e) (eval m c2 e1) -> le nq (eval m c2 e) (eval m c2 (fst (replace (eval n) c e1 errs))).
  Proof. intros L W X H. apply le_ok. intros v Hv. apply replace_sound; auto. rewrite Hv in H. exact H. Qed.

  Definition simp n c e := fst (in_place n c e).

  (** What object entries become. *)
  Definition ip_entry n c (p : okey expr * expr) : (okey expr * expr) * list fail :=
    let (k, ek) := match fst p with
                   | KIdent s => (KIdent s, [])
                   | KExpr e => let (e, errs) := in_place n c e in (KExpr e, errs)
                   end in
    let (v, ev) := in_place n c (snd p) in ((k, v), ek ++ ev).
  Lemma ip_entry_fst n c p : fst (ip_entry n c p) = (simp_key (simp n c) (fst p), simp n c (snd p)).
  Proof.
    unfold ip_entry, simp. destruct p as [[s|e] v]; cbn [fst snd simp_key];
      [|destruct (in_place n c e) as [e' errs]]; destruct (in_place n c v); reflexivity.
  Qed.
  Lemma ip_entry_snd n c p : snd (ip_entry n c p) =
    match fst p with KIdent _ => [] | KExpr e => snd (in_place n c e) end ++ snd (in_place n c (snd p)).
  Proof.
    unfold ip_entry. destruct p as [[s|e] v]; cbn [fst snd];
      [|destruct (in_place n c e) as [e' errs]]; destruct (in_place n c v); reflexivity.
  Qed.
  Lemma keys_differ_is ks : keys_differ ks <-> differ (okey_eqb expr_eqb) ks.
  Proof. induction ks as [|k ks IH]; cbn; tauto. Qed.
  Lemma no_merge_collect n c m : keys_differ (map (fun p => simp_key (simp n c) (fst p)) m) ->
    eobj_collect (map fst (map (ip_entry n c) m)) = map fst (map (ip_entry n c) m).
  Proof.
    intros H. unfold eobj_collect. apply from_iter_fresh. apply keys_differ_is in H.
    rewrite !map_map. erewrite map_ext; [exact H|]. intros p. rewrite ip_entry_fst. reflexivity.
  Qed.

  (** What traversal operators become. *)
  Definition ip_op n c (o : trop expr) : trop expr * list fail :=
    match o with
    | Index e => let (e, errs) := in_place n c e in (Index e, errs)
    | o => (o, [])
    end.

  Lemma fold_and {A} (P : A -> Prop) l : fold_right (fun a Q => P a /\ Q) True l <-> Forall P l.
  Proof.
    induction l as [|a l IH]; cbn; split; intros H; auto.
    - constructor; tauto.
    - inversion H; subst. tauto.
  Qed.
  Lemma no_merge_entries s m :
    fold_right (fun p P => match fst p with KIdent _ => True | KExpr e => no_merge s e end
                           /\ no_merge s (snd p) /\ P) True m ->
    Forall (fun p => match fst p with KIdent _ => True | KExpr e => no_merge s e end /\ no_merge s (snd p)) m.
  Proof. induction m as [|p m IH]; cbn; constructor; tauto. Qed.

  Lemma in_place_le n m c c2 : n <= m -> wf_ctx c -> extends c c2 -> forall e,
    no_merge (simp n c) e -> le nq (eval m c2 e) (eval m c2 (fst (in_place n c e))).
  Proof.
    intros L W X. destruct (eval_unfold m) as [tpl U].
    induction e as [ |b|n0|s|l IH|o IH|t|x|e ops IHe IH|f args b IH|e IH|a b d IHa IHb IHd|o e IH
                   |l o r IHl IHr|kv vv coll key val g cond IHcoll IHkey IHval IHcond] using expr_ind';
      intros M; cbn [EvalModel.in_place]; try apply le_refl.
    - apply replace_le; auto. rewrite !U. cbn [EvalModel.eval_expr]. apply le_map.
      rewrite map_map, collect_map. apply le_collect. intros e He. rewrite Forall_forall in IH.
      rewrite <- !U. apply IH; auto. cbn [no_merge] in M. apply fold_and in M. rewrite Forall_forall in M. auto.
    - cbn [no_merge] in M. destruct M as [M1 M2]. apply no_merge_entries in M2. rewrite Forall_forall in M2, IH.
      apply replace_le; auto. change (map _ o) with (map (ip_entry n c) o).
      rewrite no_merge_collect by exact M1.
      rewrite !U. cbn [EvalModel.eval_expr]. apply le_map. rewrite map_map, collect_map. apply le_collect.
      intros [k v] Hin. rewrite ip_entry_fst. cbn [fst snd]. destruct (M2 _ Hin) as [Mk Mv].
      destruct (IH _ Hin) as [IHk IHv]. cbn [fst snd] in *. apply le_bind.
      + destruct k as [s|e]; cbn [simp_key]; [apply le_refl|]. apply le_bind; [|intros; apply le_refl].
        rewrite <- !U. apply IHk. exact Mk.
      + intros s _. apply le_map. rewrite <- !U. apply IHv. exact Mv.
    - apply replace_le; auto. apply le_refl.
    - apply replace_le; auto. apply le_refl.
    - apply replace_le; auto. change (map _ ops) with (map (ip_op n c) ops).
      rewrite !U. cbn [EvalModel.eval_expr]. apply le_bind; [apply le_refl|]. intros v _. apply le_traverse.
      cbn [no_merge] in M. apply fold_and in M. clear IHe v.
      induction ops as [|o ops IHops]; cbn [map]; constructor.
      + inversion IH; subst. inversion M; subst. destruct o as [| | |e'|]; cbn [ip_op fst trop_le]; auto.
        rewrite <- U. cbn [trop_all] in H1.
        specialize (H1 H3). destruct (in_place n c e') as [e2 errs]. cbn [fst] in *. rewrite <- U. exact H1.
      + inversion IH; subst. inversion M; subst. apply IHops; auto.
    - apply replace_le; auto. rewrite !U. cbn [EvalModel.eval_expr]. apply le_bind; [apply le_refl|].
      intros fd _. apply le_bind; [|intros; apply le_refl]. apply le_call_args.
      cbn [no_merge] in M. apply fold_and in M.
      induction args as [|e args IHargs]; cbn [map]; constructor.
      + inversion IH; subst. inversion M; subst. rewrite <- !U. auto.
      + inversion IH; subst. inversion M; subst. auto.
    - cbn [no_merge] in M. specialize (IH M). destruct (in_place n c e) as [e1 errs]. cbn [fst] in IH.
      apply replace_le; auto. rewrite !U in *. exact IH.
    - cbn [no_merge] in M. destruct M as [Mb Md].
      destruct (ebind (eval n c a) as_bool) as [bb|err] eqn:E; [|apply le_refl].
      apply ebind_ok in E. destruct E as [va [E1 E2]].
      pose proof (eval_extends bd parse_tpl show_value show_num n m c c2 a va L X E1) as E3.
      destruct bb.
      + specialize (IHb Mb). destruct (in_place n c b) as [b1 errs]. cbn [fst] in IHb.
        apply replace_le; auto. rewrite !U in *. cbn [EvalModel.eval_expr]. rewrite E3. cbn [ebind as_bool].
        rewrite E2. cbn [ebind]. exact IHb.
      + specialize (IHd Md). destruct (in_place n c d) as [d1 errs]. cbn [fst] in IHd.
        apply replace_le; auto. rewrite !U in *. cbn [EvalModel.eval_expr]. rewrite E3. cbn [ebind as_bool].
        rewrite E2. cbn [ebind]. exact IHd.
    - cbn [no_merge] in M. specialize (IH M). destruct (in_place n c e) as [e1 errs]. cbn [fst] in IH.
      apply replace_le; auto. rewrite !U in *. cbn [EvalModel.eval_expr]. apply le_bind; auto.
      intros; apply le_refl.
    - cbn [no_merge] in M. destruct M as [Ml Mr]. specialize (IHl Ml). specialize (IHr Mr).
      destruct (in_place n c l) as [l1 e1]. destruct (in_place n c r) as [r1 e2]. cbn [fst] in *.
      apply replace_le; auto. rewrite !U in *. cbn [EvalModel.eval_expr]. apply le_bind; auto.
      intros v _. apply le_bind; auto. intros; apply le_refl.
    - cbn [no_merge] in M. specialize (IHcoll M). destruct (in_place n c coll) as [c1 errs]. cbn [fst] in *.
      apply replace_le; auto. rewrite !U in *. cbn [EvalModel.eval_expr].
      apply le_bind; [apply le_bind; auto; intros; apply le_refl|]. intros; apply le_refl.
  Qed.

  (** C26 for expressions. *)
  Lemma in_place_sound n m c c2 e v : n <= m -> wf_ctx c -> extends c c2 -> no_merge (simp n c) e ->
    eval m c2 e = Ok v -> eval m c2 (fst (in_place n c e)) = Ok v.
  Proof. intros L W X M H. pose proof (in_place_le n m c c2 L W X e M) as G. rewrite H in G. exact G. Qed.

  (** *** Success means evaluation *)
  Lemma replace_ok n c e errs e' : replace (eval n) c e errs = (e', []) ->
    errs = [] /\ exists v, eval n c e = Ok v /\ e' = expr_of_value v.
  Proof.
    unfold replace. destruct errs; [|discriminate]. destruct (eval n c e) as [v|f]; [|discriminate].
    intros H. injection H as <-. eauto.
  Qed.
  Lemma flat_map_nil {A B} (f : A -> list B) l : flat_map f l = [] -> forall a, In a l -> f a = [].
  Proof.
    induction l as [|a l IH]; cbn; intros H; [intros ? []|]. apply app_eq_nil in H. destruct H as [H1 H2].
    intros x [<-|I]; auto.
  Qed.

  Lemma in_place_ok n c : wf_ctx c -> forall e e', no_merge (simp n c) e -> in_place n c e = (e', []) ->
    exists v, eval n c e = Ok v /\ e' = expr_of_value v.
  Proof.
    intros W. destruct (eval_unfold n) as [tpl U].
    assert (SUB : forall e, (forall e', no_merge (simp n c) e -> in_place n c e = (e', []) ->
        exists v, eval n c e = Ok v /\ e' = expr_of_value v) ->
      no_merge (simp n c) e -> snd (in_place n c e) = [] ->
      eval_expr tpl c (fst (in_place n c e)) = eval_expr tpl c e).
    { intros e H M E. destruct (in_place n c e) as [e1 errs]. cbn [fst snd] in *. subst errs.
      destruct (H e1 M eq_refl) as [v [H1 ->]]. rewrite <- (U c e), H1. apply eval_expr_literal.
      eapply eval_wf; eauto. }
    induction e as [ |b|n0|s|l IH|o IH|t|x|e ops IHe IH|f args b IH|e IH|a b d IHa IHb IHd|o e IH
                   |l o r IHl IHr|kv vv coll key val g cond IHcoll IHkey IHval IHcond] using expr_ind';
      intros e' M; cbn [EvalModel.in_place]; intros H;
      try (injection H as <-; rewrite U; eexists; split; [reflexivity|reflexivity]).
    - apply replace_ok in H. destruct H as [Hn [v [Hv He]]]. exists v. split; [|exact He].
      rewrite <- Hv, !U. cbn [EvalModel.eval_expr]. f_equal. rewrite map_map, collect_map. apply collect_ext.
      intros e Hin. symmetry. cbn [no_merge] in M. apply fold_and in M. rewrite Forall_forall in M, IH.
      apply SUB; auto.
      eapply (flat_map_nil snd); [exact Hn|]. apply in_map. exact Hin.
    - change (map _ o) with (map (ip_entry n c) o) in H.
      cbn [no_merge] in M. destruct M as [M1 M2]. apply no_merge_entries in M2. rewrite Forall_forall in M2, IH.
      rewrite no_merge_collect in H by exact M1.
      apply replace_ok in H. destruct H as [Hn [v [Hv He]]]. exists v. split; [|exact He].
      rewrite <- Hv, !U. cbn [EvalModel.eval_expr]. f_equal. rewrite map_map, collect_map. apply collect_ext.
      intros [k w] Hin. pose proof (flat_map_nil snd _ Hn _ (in_map (ip_entry n c) _ _ Hin)) as Hs.
      rewrite ip_entry_snd in Hs. apply app_eq_nil in Hs. rewrite ip_entry_fst.
      destruct Hs as [Hs1 Hs2]. destruct (M2 _ Hin) as [Mk Mv]. destruct (IH _ Hin) as [IHk IHv].
      cbn [fst snd] in *. unfold simp. rewrite (SUB w) by auto. destruct k as [s|e]; cbn [simp_key]; auto.
      rewrite (SUB e) by auto. reflexivity.
    - apply replace_ok in H. destruct H as [_ H]. exact H.
    - apply replace_ok in H. destruct H as [_ H]. exact H.
    - change (map _ ops) with (map (ip_op n c) ops) in H.
      apply replace_ok in H. destruct H as [Hn [v [Hv He]]]. exists v. split; [|exact He].
      rewrite <- Hv, !U. cbn [EvalModel.eval_expr]. f_equal. f_equal. rewrite !map_map. apply map_ext_in.
      intros o Hin. cbn [no_merge] in M. apply fold_and in M. rewrite Forall_forall in M, IH.
      specialize (M _ Hin). specialize (IH _ Hin).
      pose proof (flat_map_nil snd _ Hn _ (in_map (ip_op n c) _ _ Hin)) as Hs.
      destruct o as [| | |e'' |]; auto. cbn [ip_op trop_all] in *.
      specialize (SUB e'' IH M). destruct (in_place n c e'') as [e2 errs]. cbn [fst snd] in *.
      rewrite SUB; auto.
    - apply replace_ok in H. destruct H as [Hn [v [Hv He]]]. exists v. split; [|exact He].
      rewrite <- Hv, !U. cbn [EvalModel.eval_expr]. f_equal.
      assert (E : map (eval_expr tpl c) (map fst (map (in_place n c) args)) = map (eval_expr tpl c) args).
      { rewrite !map_map. apply map_ext_in. intros e Hin. cbn [no_merge] in M. apply fold_and in M.
        rewrite Forall_forall in M, IH. apply SUB; auto.
        eapply (flat_map_nil snd); [exact Hn|]. apply in_map. exact Hin. }
      rewrite E. reflexivity.
    - cbn [no_merge] in M. specialize (SUB e IH M). destruct (in_place n c e) as [e1 errs]. cbn [fst snd] in SUB.
      apply replace_ok in H. destruct H as [Hn [v [Hv He]]]. exists v. split; [|exact He].
      rewrite <- Hv, !U. cbn [EvalModel.eval_expr]. symmetry. auto.
    - cbn [no_merge] in M. destruct M as [Mb Md].
      destruct (ebind (eval n c a) as_bool) as [bb|err] eqn:E; [|discriminate].
      rewrite U in E. destruct bb.
      + specialize (SUB b IHb Mb). destruct (in_place n c b) as [b1 errs]. cbn [fst snd] in *.
        apply replace_ok in H. destruct H as [Hn [v [Hv He]]]. exists v. split; [|exact He].
        rewrite <- Hv, !U. cbn [EvalModel.eval_expr]. apply ebind_ok in E. destruct E as [va [E1 E2]].
        rewrite E1. cbn [ebind as_bool]. rewrite E2. cbn [ebind]. symmetry. auto.
      + specialize (SUB d IHd Md). destruct (in_place n c d) as [d1 errs]. cbn [fst snd] in *.
        apply replace_ok in H. destruct H as [Hn [v [Hv He]]]. exists v. split; [|exact He].
        rewrite <- Hv, !U. cbn [EvalModel.eval_expr]. apply ebind_ok in E. destruct E as [va [E1 E2]].
        rewrite E1. cbn [ebind as_bool]. rewrite E2. cbn [ebind]. symmetry. auto.
    - cbn [no_merge] in M. specialize (SUB e IH M). destruct (in_place n c e) as [e1 errs]. cbn [fst snd] in SUB.
      apply replace_ok in H. destruct H as [Hn [v [Hv He]]]. exists v. split; [|exact He].
      rewrite <- Hv, !U. cbn [EvalModel.eval_expr]. rewrite SUB; auto.
    - cbn [no_merge] in M. destruct M as [Ml Mr].
      pose proof (SUB l IHl Ml) as SL. pose proof (SUB r IHr Mr) as SR.
      destruct (in_place n c l) as [l1 e1]. destruct (in_place n c r) as [r1 e2]. cbn [fst snd] in *.
      apply replace_ok in H. destruct H as [Hn [v [Hv He]]]. exists v. split; [|exact He].
      apply app_eq_nil in Hn. destruct Hn.
      rewrite <- Hv, !U. cbn [EvalModel.eval_expr]. rewrite SL, SR; auto.
    - cbn [no_merge] in M. specialize (SUB coll IHcoll M). destruct (in_place n c coll) as [c1 errs]. cbn [fst snd] in *.
      apply replace_ok in H. destruct H as [Hn [v [Hv He]]]. exists v. split; [|exact He].
      rewrite <- Hv, !U. cbn [EvalModel.eval_expr]. rewrite SUB; auto.
  Qed.

  (** Literals stay as they are. *)
  Lemma in_place_literal n c v : wf_value v -> in_place n c (expr_of_value v) = (expr_of_value v, []).
  Proof.
    induction v as [ |b|k|s|l IH|m IH] using value_ind'; intros W; auto.
    - pose proof (eval_literal n _ c W) as E. cbn [expr_of_value] in E |- *. cbn [EvalModel.in_place].
      apply wf_arr in W. rewrite Forall_forall in *.
      assert (G : map (in_place n c) (map expr_of_value l) = map (fun v => (expr_of_value v, [])) l).
      { rewrite map_map. apply map_ext_in. auto. }
      rewrite G, map_map. cbn [fst].
      assert (N : flat_map snd (map (fun v => (expr_of_value v, @nil fail)) l) = []).
      { clear. induction l; cbn; auto. }
      rewrite N. unfold replace. change (map (fun x : value => expr_of_value x) l) with (map expr_of_value l).
      rewrite E. reflexivity.
    - pose proof (eval_literal n _ c W) as E. cbn [expr_of_value] in E |- *.
      apply wf_obj in W. destruct W as [W1 W2]. rewrite obj_literal in * by exact W1. cbn [EvalModel.in_place].
      change (map _ (map _ m)) with (map (ip_entry n c) (map (fun e => (KExpr (EStr (fst e)), expr_of_value (snd e))) m)).
      rewrite (map_map _ (ip_entry n c)).
      rewrite Forall_forall in *.
      assert (G : map (fun e : str * value => ip_entry n c (KExpr (EStr (fst e)), expr_of_value (snd e))) m =
                  map (fun e => ((KExpr (EStr (fst e)), expr_of_value (snd e)), [])) m).
      { apply map_ext_in. intros e Hin. unfold ip_entry. cbn [fst snd EvalModel.in_place].
        rewrite (IH _ Hin) by (apply (W2 _ Hin)). reflexivity. }
      rewrite G, map_map. cbn [fst]. rewrite obj_literal by exact W1.
      assert (N : flat_map snd (map (fun e : str * value => ((@KExpr expr (EStr (fst e)), expr_of_value (snd e)), @nil fail)) m) = []).
      { clear. induction m; cbn; auto. }
      rewrite N. unfold replace. rewrite E. cbn [expr_of_value]. rewrite obj_literal by exact W1. reflexivity.
  Qed.

  Lemma literal_of_value v : literal (expr_of_value v).
  Proof.
    induction v as [ |b|k|s|l IH|m IH] using value_ind'; cbn [expr_of_value literal]; auto.
    - apply fold_and. rewrite Forall_forall in *. intros e He. apply in_map_iff in He. destruct He as [v [<- Hv]]. auto.
    - assert (H : Forall (fun p : okey expr * expr => (match fst p with KExpr (EStr _) => True | _ => False end) /\ literal (snd p))
        (eobj_collect (map (fun e => (KExpr (EStr (fst e)), expr_of_value (snd e))) m))).
      { unfold eobj_collect, MapModel.from_iter, MapModel.extend.
        set (acc := @nil (okey expr * expr)).
        assert (A : Forall (fun p : okey expr * expr => (match fst p with KExpr (EStr _) => True | _ => False end) /\ literal (snd p)) acc)
          by constructor.
        clearbody acc. revert acc A. induction IH as [|[k v] m H1 H2 IHm]; intros acc A; cbn [map fold_left]; auto.
        apply IHm. cbn [fst snd] in *. clear -A H1. induction A as [|[k' e'] acc A1 A2 IHA]; cbn [MapModel.insert].
        - cbn. constructor; [|constructor]. cbn. auto.
        - destruct (okey_eqb expr_eqb (KExpr (EStr k)) k').
          + cbn. constructor; auto. cbn in *. tauto.
          + destruct (MapModel.insert (okey_eqb expr_eqb) (KExpr (EStr k)) (expr_of_value v) acc). cbn in *.
            constructor; auto. }
      clear IH. induction H as [|[k e] l H1 H2 IH]; cbn [fold_right]; auto. cbn [fst snd] in *. tauto.
  Qed.

  (** *** Bodies *)
  Lemma in_place_struct_sound n m c c2 : n <= m -> wf_ctx c -> extends c c2 -> forall s t,
    no_merge_struct (simp n c) s -> eval_struct (eval m) c2 s = Ok t ->
    eval_struct (eval m) c2 (fst (in_place_struct (eval n) c s)) = Ok t.
  Proof.
    intros L W X s. induction s as [k e|i ls b IH] using struct_ind'; intros t M H;
      cbn [in_place_struct no_merge_struct] in *.
    - pose proof (in_place_le n m c c2 L W X e M) as G.
      destruct (in_place n c e) as [e1 errs]. cbn [fst eval_struct] in *.
      apply emap_ok in H. destruct H as [v [H1 ->]]. rewrite H1 in G. cbn in G. rewrite G. reflexivity.
    - cbn [fst eval_struct] in *. apply emap_ok in H. destruct H as [b' [H1 ->]].
      rewrite map_map, collect_map. apply fold_and in M.
      assert (G : le nq (collect (eval_struct (eval m) c2) b)
                  (collect (fun s => eval_struct (eval m) c2 (fst (in_place_struct (eval n) c s))) b)).
      { apply le_collect. intros s Hs. apply le_ok. intros t Ht. rewrite Forall_forall in *. auto. }
      rewrite H1 in G. cbn in G. rewrite G. reflexivity.
  Qed.
  Lemma in_place_body_sound n m c c2 b b' : n <= m -> wf_ctx c -> extends c c2 ->
    Forall (no_merge_struct (simp n c)) b -> eval_body (eval m) c2 b = Ok b' ->
    eval_body (eval m) c2 (fst (in_place_body (eval n) c b)) = Ok b'.
  Proof.
    intros L W X M H. unfold eval_body, in_place_body in *. cbn [fst]. rewrite map_map, collect_map.
    assert (G : le nq (collect (eval_struct (eval m) c2) b)
                  (collect (fun s => eval_struct (eval m) c2 (fst (in_place_struct (eval n) c s))) b)).
    { apply le_collect. intros s Hs. apply le_ok. intros t Ht. rewrite Forall_forall in *.
      apply in_place_struct_sound; auto. }
    rewrite H in G. exact G.
  Qed.

  Lemma in_place_struct_ok n c s : wf_ctx c -> forall t, no_merge_struct (simp n c) s ->
    in_place_struct (eval n) c s = (t, []) -> eval_struct (eval n) c s = Ok t.
  Proof.
    intros W. induction s as [k e|i ls b IH] using struct_ind'; intros t M H;
      cbn [in_place_struct no_merge_struct] in *.
    - destruct (in_place n c e) as [e1 errs] eqn:E. injection H as <- ->.
      destruct (in_place_ok n c W e e1 M E) as [v [H1 ->]]. cbn [eval_struct]. rewrite H1. reflexivity.
    - injection H as <- Hn. cbn [eval_struct]. apply fold_and in M.
      assert (G : collect (eval_struct (eval n) c) b = Ok (map fst (map (in_place_struct (eval n) c) b))).
      { clear -IH M Hn. induction b as [|s b IHb]; auto. cbn [map flat_map] in *. apply app_eq_nil in Hn.
        destruct Hn as [Hn1 Hn2]. inversion IH; subst. inversion M; subst. cbn [collect].
        destruct (in_place_struct (eval n) c s) as [s' errs]. cbn [fst snd] in *. subst errs.
        rewrite (H1 s') by auto. cbn [ebind]. rewrite IHb by auto. reflexivity. }
      rewrite G. reflexivity.
  Qed.
  Lemma in_place_body_ok n c b b' : wf_ctx c -> Forall (no_merge_struct (simp n c)) b ->
    in_place_body (eval n) c b = (b', []) -> eval_body (eval n) c b = Ok b'.
  Proof.
    intros W M H. unfold in_place_body in H. injection H as <- Hn. unfold eval_body.
    induction b as [|s b IHb]; auto. cbn [map flat_map collect] in *. apply app_eq_nil in Hn.
    destruct Hn as [Hn1 Hn2]. inversion M; subst.
    destruct (in_place_struct (eval n) c s) as [s' errs] eqn:E. cbn [fst snd] in *. subst errs.
    rewrite (in_place_struct_ok n c s W s') by auto. cbn [ebind]. rewrite IHb by auto. reflexivity.
  Qed.

  (** A successful evaluation leaves literals only; these are a fixed point in every context. *)
  Lemma eval_struct_literal n c s : wf_ctx c -> forall t, eval_struct (eval n) c s = Ok t ->
    literal_skeleton s t /\
    (forall m c', eval_struct (eval m) c' t = Ok t) /\
    (forall m c', in_place_struct (eval m) c' t = (t, [])).
  Proof.
    intros W. induction s as [k e|i ls b IH] using struct_ind'; intros t H; cbn [eval_struct] in H.
    - apply emap_ok in H. destruct H as [v [H1 ->]]. pose proof (eval_wf n c e v W H1) as Wv. split; [|split].
      + cbn. split; auto. apply literal_of_value.
      + intros m c'. cbn [eval_struct]. rewrite eval_literal by exact Wv. reflexivity.
      + intros m c'. cbn [in_place_struct]. rewrite in_place_literal by exact Wv. reflexivity.
    - apply emap_ok in H. destruct H as [b' [H1 ->]].
      assert (G : (fix go (b b' : list struct_) {struct b} : Prop :=
         match b, b' with
         | [], [] => True
         | s :: b, s' :: b' => literal_skeleton s s' /\ go b b'
         | _, _ => False
         end) b b' /\ (forall m c', collect (eval_struct (eval m) c') b' = Ok b') /\
         (forall m c', map (in_place_struct (eval m) c') b' = map (fun s => (s, [])) b')).
      { revert b' H1. induction IH as [|s b IHs IHb IH2]; intros b' H1; cbn [collect] in H1.
        - injection H1 as <-. auto.
        - apply ebind_ok in H1. destruct H1 as [s' [H1 H2]]. apply emap_ok in H2. destruct H2 as [b2 [H2 ->]].
          destruct (IHs _ H1) as [A1 [A2 A3]]. destruct (IH2 _ H2) as [B1 [B2 B3]]. split; [|split].
          + auto.
          + intros m c'. cbn [collect]. rewrite A2. cbn [ebind]. rewrite B2. reflexivity.
          + intros m c'. cbn [map]. rewrite A3, B3. reflexivity. }
      destruct G as [G1 [G2 G3]]. split; [|split].
      + cbn [literal_skeleton]. auto.
      + intros m c'. cbn [eval_struct]. rewrite G2. reflexivity.
      + intros m c'. cbn [in_place_struct]. rewrite G3. rewrite map_map. cbn [fst]. rewrite map_id.
        f_equal. clear. induction b'; cbn; auto.
  Qed.
  Lemma eval_body_literal n c b b' : wf_ctx c -> eval_body (eval n) c b = Ok b' ->
    Forall2 literal_skeleton b b' /\
    (forall m c', eval_body (eval m) c' b' = Ok b') /\
    (forall m c', in_place_body (eval m) c' b' = (b', [])).
  Proof.
    intros W. unfold eval_body, in_place_body. revert b'. induction b as [|s b IH]; intros b' H; cbn [collect] in H.
    - injection H as <-. split; auto.
    - apply ebind_ok in H. destruct H as [s' [H1 H2]]. apply emap_ok in H2. destruct H2 as [b2 [H2 ->]].
      destruct (eval_struct_literal n c s W s' H1) as [A1 [A2 A3]]. destruct (IH _ H2) as [B1 [B2 B3]].
      split; [|split]; auto.
      + intros m c'. cbn [collect]. rewrite A2. cbn [ebind]. rewrite B2. reflexivity.
      + intros m c'. cbn [map flat_map]. rewrite A3. specialize (B3 m c'). injection B3 as B4 B5.
        cbn [fst snd app]. rewrite B4, B5. reflexivity.
  Qed.

  (** *** Templates *)
  Definition undeclared (c : ctx) (x : str) : Prop := ctx_var c x = None.
  Lemma extends_next c c2 kv vv k v : extends c c2 -> undeclared c vv ->
    match kv with Some x => undeclared c x | None => True end -> extends c (next_ctx c2 kv vv k v).
  Proof.
    intros [X1 X2] U1 U2. split.
    - intros x w H. rewrite var_next. unfold undeclared in *. destruct (seqb x vv) eqn:E.
      + apply seqb_eq in E. subst. congruence.
      + destruct kv as [y|]; [|auto]. destruct (seqb x y) eqn:E2; [|auto]. apply seqb_eq in E2. subst. congruence.
    - intros f d H. rewrite func_next. auto.
  Qed.
  Lemma in_place_elem_strip n c el : elem_strip (fst (in_place_elem (eval n) c el)) = elem_strip el.
  Proof.
    destruct el as [s|e s|e t f s1 s2 s3|kv vv e t s1 s2]; cbn [in_place_elem]; auto;
      destruct (in_place n c e); try destruct f; reflexivity.
  Qed.
  Lemma neighbours_map g els p n i : (forall el, elem_strip (g el) = elem_strip el) ->
    neighbours (map g els) p n i = neighbours els p n i.
  Proof.
    intros H. unfold neighbours. rewrite map_length.
    assert (A : forall j, match nth_error (map g els) j with Some el => Ok (elem_strip el) | None => Fail FPanic end
                = match nth_error els j with Some el => Ok (elem_strip el) | None => Fail FPanic end).
    { intros j. rewrite nth_error_map. destruct (nth_error els j); cbn; [rewrite H|]; reflexivity. }
    rewrite !A. reflexivity.
  Qed.
  Lemma tpl_loop_map out g all p n els : (forall el, elem_strip (g el) = elem_strip el) -> forall i acc,
    tpl_loop out (map g all) p n i (map g els) acc = tpl_loop (fun el => out (g el)) all p n i els acc.
  Proof.
    intros H. induction els as [|el els IH]; intros i acc; cbn [tpl_loop map]; auto.
    rewrite neighbours_map by exact H. destruct (neighbours all p n i); cbn [ebind]; auto.
    destruct (out (g el) (fst a) (snd a)); cbn [ebind]; auto.
  Qed.
  Lemma in_place_elem_le n m c : n <= m -> wf_ctx c -> forall el c2 p nx, extends c c2 ->
    no_merge_elem (simp n c) el -> loop_vars (undeclared c) el ->
    le nq (eval_elem show_value (eval m) c2 el p nx)
          (eval_elem show_value (eval m) c2 (fst (in_place_elem (eval n) c el)) p nx).
  Proof.
    intros L W el. induction el as [s|e s|e t f s1 s2 s3 IHt IHf|kv vv e t s1 s2 IHt] using elem_ind';
      intros c2 p nx X M V; cbn [in_place_elem].
    - apply le_refl.
    - cbn [no_merge_elem] in M. pose proof (in_place_le n m c c2 L W X e M) as G.
      destruct (in_place n c e) as [e1 errs]. cbn [fst eval_elem] in *. apply le_map. exact G.
    - cbn [no_merge_elem loop_vars] in M, V. destruct M as [Me [Mt Mf]]. destruct V as [Vt Vf].
      pose proof (in_place_le n m c c2 L W X e Me) as G. destruct (in_place n c e) as [e1 errs]. cbn [fst] in G.
      apply fold_and in Mt. apply fold_and in Vt.
      assert (T : forall p n0, le nq (tpl_loop (eval_elem show_value (eval m) c2) t p n0 0 t [])
         (tpl_loop (eval_elem show_value (eval m) c2) (map fst (map (in_place_elem (eval n) c) t)) p n0 0
            (map fst (map (in_place_elem (eval n) c) t)) [])).
      { intros p0 n0. rewrite map_map. rewrite (tpl_loop_map _ (fun el => fst (in_place_elem (eval n) c el)))
          by (apply in_place_elem_strip). apply le_tpl_loop. rewrite Forall_forall in *. intros. auto. }
      destruct f as [f|]; cbn [fst eval_elem].
      + cbn [opt_all] in IHf. apply fold_and in Mf. apply fold_and in Vf.
        apply le_bind; [apply le_bind; [exact G|intros; apply le_refl]|]. intros [] _; [apply T|].
        rewrite map_map. rewrite (tpl_loop_map _ (fun el => fst (in_place_elem (eval n) c el)))
          by (apply in_place_elem_strip). apply le_tpl_loop. rewrite Forall_forall in *. intros. auto.
      + apply le_bind; [apply le_bind; [exact G|intros; apply le_refl]|]. intros [] _; [apply T|]. apply le_refl.
    - cbn [no_merge_elem loop_vars] in M, V. destruct M as [Me Mt]. destruct V as [V1 [V2 V3]].
      pose proof (in_place_le n m c c2 L W X e Me) as G. destruct (in_place n c e) as [e1 errs]. cbn [fst eval_elem] in *.
      apply fold_and in Mt. apply fold_and in V3.
      apply le_bind; [apply le_bind; [exact G|intros; apply le_refl]|]. intros items _.
      apply le_for_loop; [intros; apply le_refl|]. intros k v a Hin. apply le_map.
      rewrite map_map. rewrite (tpl_loop_map _ (fun el => fst (in_place_elem (eval n) c el)))
          by (apply in_place_elem_strip). apply le_tpl_loop. rewrite Forall_forall in *. intros.
      apply IHt; auto. apply extends_next; auto.
  Qed.
  Lemma in_place_template_sound n m c c2 t s : n <= m -> wf_ctx c -> extends c c2 ->
    Forall (no_merge_elem (simp n c)) t -> Forall (loop_vars (undeclared c)) t ->
    eval_template show_value (eval m) c2 t = Ok s ->
    eval_template show_value (eval m) c2 (fst (in_place_template (eval n) c t)) = Ok s.
  Proof.
    intros L W X M V H. unfold eval_template, in_place_template in *. cbn [fst]. rewrite map_map.
    rewrite (tpl_loop_map _ (fun el => fst (in_place_elem (eval n) c el))) by (apply in_place_elem_strip).
    assert (G : le nq (tpl_loop (eval_elem show_value (eval m) c2) t StripNone StripNone 0 t [])
      (tpl_loop (fun el => eval_elem show_value (eval m) c2 (fst (in_place_elem (eval n) c el))) t StripNone StripNone 0 t [])).
    { apply le_tpl_loop. rewrite Forall_forall in *. intros. apply in_place_elem_le; auto. }
    rewrite H in G. exact G.
  Qed.
End Ip.

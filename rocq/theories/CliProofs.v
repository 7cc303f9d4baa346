From Coq Require Import List Bool Arith Lia Permutation Wellfounded.
From Verif Require Import Str Ast CliModel CliSpec.
From Verif Require MapModel MapProofs.
Import ListNotations.
Open Scope nat_scope.

Section Tree.
  Context {A B S : Type} (work : list A -> list B -> S -> list A -> list B -> S -> Prop).
  Fixpoint todos (t : ptree A B) : list A :=
    match t with PLeaf l _ => l | PNode l r => todos l ++ todos r end.
  Lemma done_todos t : pdone t = true -> todos t = [].
  Proof.
    induction t as [[|x l] d|l IHl r IHr]; cbn; [reflexivity|discriminate|].
    intros H. apply andb_true_iff in H as [H1 H2]. now rewrite IHl, IHr.
  Qed.
  (** A piece loses its first element or all of them. *)
  Context (Hwork : forall l d s l' d' s', work l d s l' d' s' -> exists x r, l = x :: r /\ (l' = r \/ l' = [])).
  Lemma step_incl t s t' s' : pstep work t s t' s' -> incl (todos t') (todos t).
  Proof.
    induction 1 as [a b s Ha Hb|l d s l' d' s' H|l l' r s s' _ IH|l r r' s s' _ IH]; cbn.
    - now apply incl_refl.
    - destruct (Hwork _ _ _ _ _ _ H) as (x & r & -> & [-> | ->]); [now apply incl_tl, incl_refl|intros y []].
    - apply incl_app; [now apply incl_appl|apply incl_appr, incl_refl].
    - apply incl_app; [apply incl_appl, incl_refl|now apply incl_appr].
  Qed.
  Fixpoint weight (t : ptree A B) : nat :=
    match t with PLeaf l _ => 2 * length l - 1 | PNode l r => weight l + weight r end.
  Lemma step_weight t s t' s' : pstep work t s t' s' -> weight t' < weight t.
  Proof.
    induction 1 as [a b s Ha Hb|l d s l' d' s' H|l l' r s s' _ IH|l r r' s s' _ IH]; cbn [weight]; try lia.
    - rewrite app_length. destruct a; [easy|]. destruct b; [easy|]. cbn [length]. lia.
    - destruct (Hwork _ _ _ _ _ _ H) as (x & r & -> & [-> | ->]); cbn [length]; lia.
  Qed.
  (** A piece with something to do can go on. *)
  Context (Hgo : forall x l d s, exists l' d' s', work (x :: l) d s l' d' s').
  Lemma progress t s : pdone t = false -> exists t' s', pstep work t s t' s'.
  Proof.
    induction t as [[|x l] d|l IHl r IHr]; cbn; intros H; [discriminate| |].
    - destruct (Hgo x l d s) as (l' & d' & s' & Hw). eexists _, _. constructor. exact Hw.
    - apply andb_false_iff in H as [H|H]; [destruct (IHl H) as (t' & s' & Ht)|destruct (IHr H) as (t' & s' & Ht)];
      eexists _, _; [apply Pleft|apply Pright]; exact Ht.
  Qed.
  Lemma completes t s : exists t' s', psteps work t s t' s' /\ pdone t' = true.
  Proof.
    revert s. induction t as [t IH] using (well_founded_induction (well_founded_ltof _ weight)). intros s.
    destruct (pdone t) eqn:E; [exists t, s; split; [constructor|exact E]|].
    destruct (progress t s E) as (t1 & s1 & H1). destruct (IH t1 (step_weight _ _ _ _ H1) s1) as (t' & s' & H & Hd).
    exists t', s'. split; [econstructor; eassumption|exact Hd].
  Qed.
  Lemma terminates : well_founded (fun c c' : ptree A B * S => pstep work (fst c') (snd c') (fst c) (snd c)).
  Proof.
    apply (wf_incl _ _ (ltof _ (fun c : ptree A B * S => weight (fst c)))); [|apply well_founded_ltof].
    intros [t s] [t' s'] H. exact (step_weight _ _ _ _ H).
  Qed.
  (** Invariants. *)
  Lemma steps_inv (P : ptree A B -> S -> Prop) :
    (forall t s t' s', pstep work t s t' s' -> P t s -> P t' s') ->
    forall t s t' s', psteps work t s t' s' -> P t s -> P t' s'.
  Proof. intros HP t s t' s'. induction 1; eauto. Qed.
End Tree.

Section Modes.
  Context {A B E : Type} (f : A -> pres B E).
  Lemma wc_shape l d s l' d' s' : work_continue f l d s l' d' s' -> exists x r, l = x :: r /\ (l' = r \/ l' = []).
  Proof. destruct 1; eauto. Qed.
  Lemma wr_shape l d s l' d' s' : work_result f l d s l' d' s' -> exists x r, l = x :: r /\ (l' = r \/ l' = []).
  Proof. destruct 1; eauto. Qed.
  Lemma wc_go x l d s : exists l' d' s', work_continue f (x :: l) d s l' d' s'.
  Proof. destruct s as [w p]. destruct (f x) as [y|e|] eqn:Ex; eauto using WC_ok, WC_err, WC_panic. Qed.
  Lemma wr_go x l d s : exists l' d' s', work_result f (x :: l) d s l' d' s'.
  Proof. destruct s as [w p q]. destruct (f x) as [y|e|] eqn:Ex; eauto using WR_ok, WR_err, WR_panic. Qed.

  Fixpoint out (t : ptree A B) : list B :=
    match t with PLeaf l d => d ++ ok_results f l | PNode l r => out l ++ out r end.
  Lemma out_done t : pdone t = true -> out t = presult t.
  Proof.
    induction t as [[|x l] d|l IHl r IHr]; cbn; [intros _; apply app_nil_r|discriminate|].
    intros H. apply andb_true_iff in H as [H1 H2]. now rewrite IHl, IHr.
  Qed.
  Lemma ok_results_app l l' : ok_results f (l ++ l') = ok_results f l ++ ok_results f l'.
  Proof. apply flat_map_app. Qed.
  Lemma failing_app l l' : failing f (l ++ l') = failing f l ++ failing f l'.
  Proof. apply filter_app. Qed.

  (** [continue_on_error] *)
  Notation cstep := (pstep (work_continue f)).
  Lemma c_step t s t' s' : cstep t s t' s' -> (forall x, In x (todos t) -> f x <> PPanic) ->
    out t' = out t /\ Permutation (fst s' ++ failing f (todos t')) (fst s ++ failing f (todos t)) /\ snd s' = snd s.
  Proof.
    induction 1 as [a b s Ha Hb|l d s l' d' s' H|l l' r s s' _ IH|l r r' s s' _ IH]; intros Hp; cbn [todos out] in *.
    - now rewrite ok_results_app.
    - destruct H as [x l d w p y Ex|x l d w p e Ex|x l d w p Ex]; cbn [fst snd].
      + split; [cbn; rewrite Ex; now rewrite <- app_assoc|]. cbn. now rewrite Ex.
      + split; [cbn; now rewrite Ex|]. cbn. rewrite Ex. split; [|reflexivity]. rewrite <- app_assoc. cbn. reflexivity.
      + destruct (Hp x); [now left|exact Ex].
    - destruct IH as (E1 & E2 & E3); [intros x Hx; apply Hp, in_or_app; now left|].
      split; [now rewrite E1|]. split; [|exact E3]. rewrite !failing_app, !app_assoc. now rewrite E2.
    - destruct IH as (E1 & E2 & E3); [intros x Hx; apply Hp, in_or_app; now right|].
      split; [now rewrite E1|]. split; [|exact E3]. rewrite !failing_app.
      rewrite (Permutation_app_comm (failing f (todos l))), (Permutation_app_comm (failing f (todos l))), !app_assoc. now rewrite E2.
  Qed.
  Lemma continue_ok l r w : collected f true l r w -> (forall x, In x l -> f x <> PPanic) ->
    r = POk (ok_results f l) /\ Permutation w (failing f l).
  Proof.
    intros H Hp. inversion H as [l0 t w0 p Hs Hd|]; subst.
    assert (G : (forall x, In x (todos t) -> f x <> PPanic) /\ out t = ok_results f l /\
      Permutation (fst (w, p) ++ failing f (todos t)) (failing f l) /\ snd (w, p) = false).
    { refine (steps_inv (work_continue f) (fun t s => (forall x, In x (todos t) -> f x <> PPanic) /\ out t = ok_results f l /\
        Permutation (fst s ++ failing f (todos t)) (failing f l) /\ snd s = false) _ _ _ _ _ Hs _).
      - intros t0 s0 t1 s1 H1 (P1 & P2 & P3 & P4). destruct (c_step _ _ _ _ H1 P1) as (E1 & E2 & E3).
        split; [intros x Hx; apply P1; exact (step_incl _ wc_shape _ _ _ _ H1 x Hx)|].
        split; [congruence|]. split; [now rewrite E2|congruence].
      - cbn. repeat split; auto. }
    destruct G as (_ & G1 & G2 & G3). cbn in G2, G3. subst p. rewrite (done_todos t Hd) in G2. cbn in G2. rewrite app_nil_r in G2.
    rewrite <- out_done, G1 by exact Hd. auto.
  Qed.
  Lemma c_crash t s t' s' : cstep t s t' s' -> snd s = true \/ (exists x, In x (todos t) /\ f x = PPanic) ->
    snd s' = true \/ (exists x, In x (todos t') /\ f x = PPanic).
  Proof.
    induction 1 as [a b s Ha Hb|l d s l' d' s' H|l l' r s s' H1 IH|l r r' s s' H1 IH]; cbn [todos].
    - auto.
    - intros [Hp|(z & Hz & Ez)]; destruct H as [x l d w p y Ex|x l d w p e Ex|x l d w p Ex]; cbn in *; auto;
      destruct Hz as [->|Hz]; try congruence; right; eauto.
    - intros [Hp|(z & Hz & Ez)]; [destruct IH as [?|(x & Hx & Ex)]; auto; right; exists x; rewrite in_app_iff; auto|].
      apply in_app_or in Hz as [Hz|Hz]; [|right; exists z; rewrite in_app_iff; auto].
      destruct IH as [?|(x & Hx & Ex)]; eauto. right; exists x; rewrite in_app_iff; auto.
    - intros [Hp|(z & Hz & Ez)]; [destruct IH as [?|(x & Hx & Ex)]; auto; right; exists x; rewrite in_app_iff; auto|].
      apply in_app_or in Hz as [Hz|Hz]; [right; exists z; rewrite in_app_iff; auto|].
      destruct IH as [?|(x & Hx & Ex)]; eauto. right; exists x; rewrite in_app_iff; auto.
  Qed.
  Lemma continue_crash l r w x : collected f true l r w -> In x l -> f x = PPanic -> r = PPanic.
  Proof.
    intros H Hx Ex. inversion H as [l0 t w0 p Hs Hd|]; subst.
    assert (G : snd (w, p) = true \/ exists x, In x (todos t) /\ f x = PPanic).
    { refine (steps_inv (work_continue f) (fun t s => snd s = true \/ exists x, In x (todos t) /\ f x = PPanic) _ _ _ _ _ Hs _).
      - intros; eapply c_crash; eassumption.
      - right. eauto. }
    rewrite (done_todos t Hd) in G. destruct G as [G|(z & [] & _)]. cbn in G. now subst.
  Qed.

  (** Stopping at an error. *)
  Notation rstep := (pstep (work_result f)).
  Lemma r_step t s t' s' : rstep t s t' s' -> (forall x, In x (todos t) -> succeeds f x) -> r_full s = false ->
    out t' = out t /\ s' = s.
  Proof.
    induction 1 as [a b s Ha Hb|l d s l' d' s' H|l l' r s s' _ IH|l r r' s s' _ IH]; intros Hp Hf; cbn [todos out] in *.
    - now rewrite ok_results_app.
    - destruct H as [x l d s y Ex|x l d sv fl p e Ex|x l d s Ef|x l d sv fl p Ex].
      + split; [cbn; rewrite Ex; now rewrite <- app_assoc|reflexivity].
      + destruct (Hp x) as [y Ey]; [now left|congruence].
      + congruence.
      + destruct (Hp x) as [y Ey]; [now left|congruence].
    - destruct IH as (E1 & E2); [intros x Hx; apply Hp, in_or_app; now left|exact Hf|]. split; [now rewrite E1|exact E2].
    - destruct IH as (E1 & E2); [intros x Hx; apply Hp, in_or_app; now right|exact Hf|]. split; [now rewrite E1|exact E2].
  Qed.
  Lemma result_ok l r w : collected f false l r w -> (forall x, In x l -> succeeds f x) -> r = POk (ok_results f l).
  Proof.
    intros H Hp. inversion H as [|l0 t s Hs Hd]; subst.
    assert (G : (forall x, In x (todos t) -> succeeds f x) /\ out t = ok_results f l /\ s = Rshared None false false).
    { refine (steps_inv (work_result f) (fun t s => (forall x, In x (todos t) -> succeeds f x) /\ out t = ok_results f l /\
        s = Rshared None false false) _ _ _ _ _ Hs _).
      - intros t0 s0 t1 s1 H1 (P1 & P2 & ->). destruct (r_step _ _ _ _ H1 P1 eq_refl) as (E1 & E2).
        split; [intros x Hx; apply P1; exact (step_incl _ wr_shape _ _ _ _ H1 x Hx)|]. split; congruence.
      - cbn. repeat split; auto. }
    destruct G as (_ & G1 & ->). cbn. now rewrite <- out_done, G1.
  Qed.

  Definition rinv (l0 : list A) (t : ptree A B) (s : rshared (E := E)) : Prop :=
    incl (todos t) l0 /\
    (forall e, r_saved s = Some e -> exists x, In x l0 /\ f x = PErr e) /\
    (r_panic s = true -> exists x, In x l0 /\ f x = PPanic) /\
    (r_full s = true -> r_saved s <> None).
  Definition rbad (t : ptree A B) (s : rshared (E := E)) : Prop :=
    r_saved s <> None \/ r_panic s = true \/ exists x, In x (todos t) /\ ~ succeeds f x.
  Lemma r_inv l0 t s t' s' : rstep t s t' s' -> rinv l0 t s -> rinv l0 t' s'.
  Proof.
    intros H (P1 & P2 & P3 & P4). assert (Hi := step_incl _ wr_shape _ _ _ _ H).
    split; [intros x Hx; apply P1, Hi, Hx|]. clear Hi.
    induction H as [a b s Ha Hb|l d s l' d' s' H|l l' r s s' _ IH|l r r' s s' _ IH]; cbn [todos] in *; auto.
    - destruct H as [x l d s y Ex|x l d sv fl p e Ex|x l d s Ef|x l d sv fl p Ex]; auto; cbn in *.
      + repeat split; auto; [|now destruct sv]. intros e0 He. destruct sv; [now apply P2|]. injection He as ->.
        exists x. split; [apply P1; now left|exact Ex].
      + repeat split; auto. intros _. exists x. split; [apply P1; now left|exact Ex].
    - apply IH; auto. intros x Hx. apply P1, in_or_app. now left.
    - apply IH; auto. intros x Hx. apply P1, in_or_app. now right.
  Qed.
  Lemma r_bad t s t' s' : rstep t s t' s' -> (r_full s = true -> r_saved s <> None) -> rbad t s -> rbad t' s'.
  Proof.
    unfold rbad. intros H Hf.
    induction H as [a b s Ha Hb|l d s l' d' s' H|l l' r s s' H1 IH|l r r' s s' H1 IH]; cbn [todos].
    - auto.
    - destruct H as [x l d s y Ex|x l d sv fl p e Ex|x l d s Ef|x l d sv fl p Ex]; cbn in *.
      + intros [?|[?|(z & [->|Hz] & Ez)]]; auto; [destruct Ez; now exists y|eauto].
      + intros _. left. now destruct sv.
      + intros _. left. auto.
      + auto.
    - intros [?|[?|(z & Hz & Ez)]];
        try (destruct IH as [?|[?|(x & Hx & Ex)]]; auto; right; right; exists x; rewrite in_app_iff; auto; fail).
      apply in_app_or in Hz as [Hz|Hz]; [|right; right; exists z; rewrite in_app_iff; auto].
      destruct IH as [?|[?|(x & Hx & Ex)]]; eauto. right; right; exists x; rewrite in_app_iff; auto.
    - intros [?|[?|(z & Hz & Ez)]];
        try (destruct IH as [?|[?|(x & Hx & Ex)]]; auto; right; right; exists x; rewrite in_app_iff; auto; fail).
      apply in_app_or in Hz as [Hz|Hz]; [right; right; exists z; rewrite in_app_iff; auto|].
      destruct IH as [?|[?|(x & Hx & Ex)]]; eauto. right; right; exists x; rewrite in_app_iff; auto.
  Qed.
  Lemma result_fail l r w x : collected f false l r w -> In x l -> ~ succeeds f x ->
    (exists e y, r = PErr e /\ In y l /\ f y = PErr e) \/ (r = PPanic /\ exists y, In y l /\ f y = PPanic).
  Proof.
    intros H Hx Hn. inversion H as [|l0 t s Hs Hd]; subst.
    assert (G : rinv l t s /\ rbad t s).
    { refine (steps_inv (work_result f) (fun t s => rinv l t s /\ rbad t s) _ _ _ _ _ Hs _).
      - intros t0 s0 t1 s1 H1 [P1 P2]. split; [eapply r_inv; eassumption|]. eapply r_bad; [eassumption| |exact P2].
        apply P1.
      - split; [|right; right; now exists x]. repeat split; try discriminate. apply incl_refl. }
    destruct G as [(_ & P2 & P3 & _) G]. destruct s as [sv fl p]. cbn in *. destruct p; [right; auto|].
    destruct sv as [e|]; [left; destruct (P2 e eq_refl) as (y & Hy & Ey); eauto|].
    destruct G as [G|[G|(z & Hz & _)]]; try easy. now rewrite (done_todos t Hd) in Hz.
  Qed.
  Lemma collected_total c l : exists r w, collected f c l r w.
  Proof.
    destruct c.
    - destruct (completes (work_continue f) wc_shape wc_go (PLeaf l []) ([], false)) as (t & [w p] & H & Hd).
      eexists _, _. econstructor; eassumption.
    - destruct (completes (work_result f) wr_shape wr_go (PLeaf l []) (Rshared None false false)) as (t & s & H & Hd).
      eexists _, _. econstructor; eassumption.
  Qed.
End Modes.

(** ** Objects keyed by path *)
Lemma seqb_spec a b : reflect (a = b) (seqb a b).
Proof. destruct (seqb a b) eqn:E; constructor; [now apply seqb_eq|now apply seqb_neq]. Qed.
Section Keyed.
  Context {V : Type} (g : str -> V).
  Notation pg := (fun p => (p, g p)).
  Definition mem (x : str) (m : list str) : bool := existsb (seqb x) m.
  Lemma insert_pg k m : fst (MapModel.insert seqb k (g k) (map pg m)) = map pg (if mem k m then m else m ++ [k]).
  Proof.
    induction m as [|x m IH]; [reflexivity|]. cbn [map MapModel.insert mem existsb].
    destruct (seqb_spec k x) as [->|Hn]; [reflexivity|]. cbn [orb].
    destruct (MapModel.insert seqb k (g k) (map pg m)) as [m' o]. cbn [fst] in *. rewrite IH. unfold mem.
    now destruct (existsb (seqb k) m).
  Qed.
  Definition add (m : list str) (x : str) : list str := if mem x m then m else m ++ [x].
  Lemma extend_pg l m : MapModel.extend seqb (map pg l) (map pg m) = map pg (fold_left add l m).
  Proof.
    unfold MapModel.extend. revert m. induction l as [|x l IH]; intros m; [reflexivity|]. cbn [map fold_left fst snd].
    now rewrite insert_pg, IH.
  Qed.
  Lemma mem_app x m y : mem x (m ++ [y]) = mem x m || seqb x y.
  Proof. unfold mem. rewrite existsb_app. cbn. now rewrite orb_false_r. Qed.
  Lemma mem_spec x m : mem x m = true <-> In x m.
  Proof.
    unfold mem. rewrite existsb_exists. split; [intros (y & Hy & E); destruct (seqb_spec x y); congruence|].
    intros H. exists x. split; [exact H|]. now destruct (seqb_spec x x).
  Qed.
  Lemma fold_add l m : fold_left add l m = m ++ filter (fun y => negb (mem y m)) (firsts l).
  Proof.
    revert m. induction l as [|x l IH]; intros m; cbn [fold_left firsts filter]; [now rewrite app_nil_r|].
    rewrite IH. unfold add. destruct (mem x m) eqn:Em; cbn [negb].
    - f_equal. clear IH. induction (firsts l) as [|y F IHF]; [reflexivity|]. cbn [filter].
      destruct (seqb_spec y x) as [->|Hn]; cbn [negb]; [rewrite Em; exact IHF|]. cbn [filter].
      destruct (negb (mem y m)); now rewrite IHF.
    - rewrite <- app_assoc. cbn [app]. do 2 f_equal. clear IH. induction (firsts l) as [|y F IHF]; [reflexivity|]. cbn [filter].
      rewrite mem_app. destruct (seqb_spec y x) as [->|Hn]; cbn [negb]; [rewrite Em; cbn; exact IHF|]. rewrite orb_false_r.
      cbn [filter]. destruct (negb (mem y m)); now rewrite IHF.
  Qed.
  Lemma from_iter_pg l : MapModel.from_iter seqb (map pg l) = map pg (firsts l).
  Proof.
    unfold MapModel.from_iter. change (@nil (str * V)) with (map pg []). rewrite extend_pg, fold_add. cbn [app mem existsb negb].
    f_equal. induction (firsts l) as [|y F IHF]; [reflexivity|]. cbn. now rewrite IHF.
  Qed.
End Keyed.
Lemma firsts_in x l : In x (firsts l) <-> In x l.
Proof.
  induction l as [|y l IH]; [reflexivity|]. cbn [firsts In]. rewrite filter_In, IH.
  destruct (seqb_spec x y); cbn; subst; intuition congruence.
Qed.
Lemma firsts_nodup l : NoDup (firsts l).
Proof.
  induction l as [|y l IH]; [constructor|]. cbn [firsts]. constructor; [|now apply NoDup_filter].
  rewrite filter_In. intros [_ H]. now destruct (seqb_spec y y).
Qed.
Lemma firsts_id l : NoDup l -> firsts l = l.
Proof.
  induction 1 as [|x l Hn _ IH]; [reflexivity|]. cbn [firsts]. rewrite IH. f_equal.
  clear IH. induction l as [|y l IH]; [reflexivity|]. cbn [filter]. destruct (seqb_spec y x) as [->|]; [destruct Hn; now left|].
  cbn. rewrite IH; [reflexivity|]. intros H. apply Hn. now right.
Qed.

Lemma filter_comm (p q : str -> bool) m : filter p (filter q m) = filter q (filter p m).
Proof. induction m as [|x m IH]; [reflexivity|]. cbn [filter]. destruct (q x) eqn:Eq, (p x) eqn:Ep; cbn [filter]; rewrite ?Eq, ?Ep, IH; reflexivity. Qed.
Lemma firsts_filter f l : firsts (filter f l) = filter f (firsts l).
Proof.
  induction l as [|x l IH]; [reflexivity|]. cbn [filter firsts]. destruct (f x) eqn:Ef; cbn [firsts]; [now rewrite IH, filter_comm|].
  rewrite IH, filter_comm. clear IH. assert (H : forall y, In y (filter f (firsts l)) -> f y = true) by (intros y Hy; now apply filter_In in Hy).
  induction (filter f (firsts l)) as [|y m IHm]; [reflexivity|]. cbn [filter].
  destruct (seqb_spec y x) as [->|Hn]; [rewrite (H x (or_introl eq_refl)) in Ef; discriminate|]. cbn [negb].
  rewrite <- IHm; [reflexivity|]. intros z Hz. apply H. now right.
Qed.

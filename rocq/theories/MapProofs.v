(** Specification and proofs about insertion-ordered maps (C10). *)
From Coq Require Import Bool List Lia Permutation.
From Verif Require Import MapModel.
Import ListNotations.

(** Key equality is an equivalence relation. *)
Record equivalence {K} (eqb : K -> K -> bool) : Prop := {
  eqv_refl : forall x, eqb x x = true;
  eqv_sym : forall x y, eqb x y = eqb y x;
  eqv_trans : forall x y z, eqb x y = true -> eqb y z = true -> eqb x z = true }.

Section MapProofs.
  Context {K V : Type} (eqb : K -> K -> bool).

  (** ** Specification: a partial function plus the order in which keys entered. *)
  Record omap := OMap { ofun : K -> option (K * V); oorder : list K }.

  Definition ospec_insert k v (s : omap) : omap :=
    {| ofun := fun x => if eqb x k
                        then match ofun s k with
                             | Some (k', _) => Some (k', v)   (* the first key is kept *)
                             | None => Some (k, v)
                             end
                        else ofun s x;
       oorder := match ofun s k with Some _ => oorder s | None => oorder s ++ [k] end |}.

  Definition ospec_remove k (s : omap) : omap :=
    {| ofun := fun x => if eqb x k then None else ofun s x;
       oorder := filter (fun x => negb (eqb x k)) (oorder s) |}.

  Definition ospec_step (o : mop K V) (s : omap) : omap * mout K V :=
    match o with
    | MInsert k v => (ospec_insert k v s, MValue (option_map snd (ofun s k)))
    | MRemove k => (ospec_remove k s, MValue (option_map snd (ofun s k)))
    | MRemoveEntry k => (ospec_remove k s, MEntry (ofun s k))
    | MClear => ({| ofun := fun _ => None; oorder := [] |}, MNone)
    | MExtend l => (fold_left (fun s e => ospec_insert (fst e) (snd e) s) l s, MNone)
    | MUpdate k f =>
        ({| ofun := fun x => if eqb x k then option_map (fun e => (fst e, f (snd e))) (ofun s x)
                             else ofun s x;
            oorder := oorder s |}, MNone)
    | MUpdateAll f =>
        ({| ofun := fun x => option_map (fun e => (fst e, f (fst e) (snd e))) (ofun s x);
            oorder := oorder s |}, MNone)
    end.

  Fixpoint ospec_run (ops : list (mop K V)) (s : omap) : omap * list (mout K V) :=
    match ops with
    | [] => (s, [])
    | o :: ops => let (s1, r) := ospec_step o s in let (s2, rs) := ospec_run ops s1 in (s2, r :: rs)
    end.

  (** What a caller observes of a map: iteration gives the entries in order, lookups give the
      function.  *)
  Definition represents (m : vmap K V) (s : omap) : Prop :=
    map fst m = oorder s /\ (forall k, get_key_value eqb k m = ofun s k).

  (** No two keys of the map are equal. *)
  Definition distinct_keys (m : vmap K V) : Prop :=
    forall i j ki kj vi vj, nth_error m i = Some (ki, vi) -> nth_error m j = Some (kj, vj) ->
      eqb ki kj = true -> i = j.

  (** ** Proofs *)
  Hypothesis EQ : equivalence eqb.

  Lemma eqb_transport x y z : eqb x y = true -> eqb x z = eqb y z.
  Proof.
    intros H. destruct (eqb y z) eqn:E.
    - eapply (eqv_trans _ EQ); eauto.
    - destruct (eqb x z) eqn:E2; auto. rewrite <- E. symmetry.
      eapply (eqv_trans _ EQ); [|exact E2]. rewrite (eqv_sym _ EQ). exact H.
  Qed.

  Fixpoint inkeys (k : K) (m : vmap K V) : bool :=
    match m with [] => false | (k', _) :: m => eqb k k' || inkeys k m end.
  Fixpoint wf (m : vmap K V) : Prop :=
    match m with [] => True | (k, _) :: m => inkeys k m = false /\ wf m end.

  Lemma inkeys_get k m : inkeys k m = match get_key_value eqb k m with Some _ => true | None => false end.
  Proof. induction m as [|[k' v] m IH]; cbn; auto. destruct (eqb k k'); auto. Qed.

  Lemma inkeys_cong x y m : eqb x y = true -> inkeys x m = inkeys y m.
  Proof.
    intros H. induction m as [|[k v] m IH]; cbn; auto.
    rewrite IH, (eqb_transport _ _ k H). reflexivity.
  Qed.

  Lemma get_cong x y (m : vmap K V) : eqb x y = true -> get_key_value eqb x m = get_key_value eqb y m.
  Proof.
    intros H. induction m as [|[k v] m IH]; cbn; auto.
    rewrite IH, (eqb_transport _ _ k H). reflexivity.
  Qed.

  Lemma wf_distinct m : wf m <-> distinct_keys m.
  Proof.
    induction m as [|[k v] m IH]; cbn [wf].
    - split; auto. intros _ i j ki kj vi vj H. destruct i; discriminate.
    - split.
      + intros [Hk Hm].
        assert (Hin : forall n k' v', nth_error m n = Some (k', v') -> eqb k k' = false).
        { clear -Hk. induction m as [|[k1 v1] m IH]; intros [|n] k' v' H; try discriminate;
            cbn in *; apply orb_false_iff in Hk; destruct Hk as [H1 H2].
          - injection H as <- <-. exact H1.
          - eapply IH; eauto. }
        intros [|i] [|j] ki kj vi vj Hi Hj He; auto; cbn in Hi, Hj.
        * injection Hi as <- <-. apply Hin in Hj. congruence.
        * injection Hj as <- <-. apply Hin in Hi. rewrite (eqv_sym _ EQ) in He. congruence.
        * f_equal. eapply (proj1 IH Hm); eauto.
      + intros D. split.
        * destruct (inkeys k m) eqn:E; auto. exfalso.
          assert (H : exists n k' v', nth_error m n = Some (k', v') /\ eqb k k' = true).
          { clear -E. induction m as [|[k1 v1] m IH]; cbn in E; [discriminate|].
            apply orb_true_iff in E. destruct E as [E|E].
            - exists 0, k1, v1. auto.
            - destruct (IH E) as (n & k' & v' & H1 & H2). exists (S n), k', v'. auto. }
          destruct H as (n & k' & v' & H1 & H2).
          assert (0 = S n) by (eapply (D 0 (S n)); eauto; reflexivity). discriminate.
        * apply IH. intros i j ki kj vi vj Hi Hj He.
          assert (S i = S j) by (eapply (D (S i) (S j)); eauto). congruence.
  Qed.

  Lemma insert_wf k v m : wf m -> wf (fst (insert eqb k v m)) /\
    (forall x, inkeys x (fst (insert eqb k v m)) = eqb x k || inkeys x m).
  Proof.
    induction m as [|[k' v'] m IH]; cbn [insert wf].
    - intros _. cbn. split; auto. 
    - intros [Hk Hm]. destruct (eqb k k') eqn:E; cbn [fst wf inkeys].
      + split; auto. intros x. destruct (eqb x k) eqn:Ex; cbn; auto.
        rewrite (eqb_transport _ _ k' Ex), E. reflexivity.
      + destruct (IH Hm) as [H1 H2]. destruct (insert eqb k v m) as [m' o]. cbn [fst wf inkeys] in *.
        split; [split; auto|].
        * rewrite H2, Hk, (eqv_sym _ EQ), E. reflexivity.
        * intros x. rewrite H2. destruct (eqb x k'), (eqb x k); reflexivity.
  Qed.

  Lemma insert_result k v (m : vmap K V) : snd (insert eqb k v m) = option_map snd (get_key_value eqb k m).
  Proof.
    induction m as [|[k' v'] m IH]; cbn [insert get_key_value]; auto.
    destruct (eqb k k'); auto. destruct (insert eqb k v m). exact IH.
  Qed.

  Lemma insert_represents k v m s : represents m s ->
    represents (fst (insert eqb k v m)) (ospec_insert k v s).
  Proof.
    intros [Ho Hf]. split; cbn [ospec_insert oorder ofun].
    - rewrite <- Hf, <- Ho. clear. induction m as [|[k' v'] m IH]; cbn [insert get_key_value]; auto.
      destruct (eqb k k'); auto. destruct (insert eqb k v m) as [m' o]. cbn in *. rewrite IH.
      destruct (get_key_value eqb k m); auto.
    - intros x. rewrite <- !Hf. clear s Ho Hf.
      induction m as [|[k' v'] m IH]; cbn [insert get_key_value].
      + cbn. destruct (eqb x k); reflexivity.
      + destruct (eqb k k') eqn:E.
        * cbn [fst get_key_value]. destruct (eqb x k) eqn:Ex.
          -- rewrite (eqb_transport _ _ k' Ex), E. reflexivity.
          -- destruct (eqb x k') eqn:Ex'; auto. exfalso.
             rewrite (eqv_trans _ EQ x k' k) in Ex; [discriminate|exact Ex'|].
             rewrite (eqv_sym _ EQ). exact E.
        * destruct (insert eqb k v m) as [m' o]. cbn [fst get_key_value] in *. rewrite IH.
          destruct (eqb x k') eqn:Ex'; auto. destruct (eqb x k) eqn:Ex; auto. exfalso.
          rewrite (eqb_transport _ _ k' Ex) in Ex'. congruence.
  Qed.

  Lemma extend_represents l m s : represents m s ->
    represents (extend eqb l m) (fold_left (fun s e => ospec_insert (fst e) (snd e) s) l s).
  Proof.
    unfold extend. revert m s. induction l as [|[k v] l IH]; intros m s H; cbn [fold_left]; auto.
    apply IH. apply insert_represents. exact H.
  Qed.

  Lemma extend_wf l (m : vmap K V) : wf m -> wf (extend eqb l m).
  Proof.
    unfold extend. revert m. induction l as [|[k v] l IH]; intros m H; cbn [fold_left]; auto.
    apply IH. apply insert_wf. exact H.
  Qed.

  Lemma remove_inkeys k (m : vmap K V) x : inkeys x m = false -> inkeys x (fst (remove_entry eqb k m)) = false.
  Proof.
    induction m as [|[k' v'] m IH]; cbn [remove_entry inkeys]; auto.
    intros H. apply orb_false_iff in H. destruct H as [H1 H2].
    destruct (eqb k k'); auto. destruct (remove_entry eqb k m). cbn in *. rewrite H1, IH; auto.
  Qed.

  Lemma remove_wf k m : wf m -> wf (fst (remove_entry eqb k m)).
  Proof.
    induction m as [|[k' v'] m IH]; cbn [remove_entry wf]; auto. intros [H1 H2].
    destruct (eqb k k'); auto. specialize (IH H2). pose proof (remove_inkeys k m k' H1) as H.
    destruct (remove_entry eqb k m). cbn in *. auto.
  Qed.

  Lemma remove_result k (m : vmap K V) : snd (remove_entry eqb k m) = get_key_value eqb k m.
  Proof.
    induction m as [|[k' v'] m IH]; cbn [remove_entry get_key_value]; auto.
    destruct (eqb k k'); auto. destruct (remove_entry eqb k m). exact IH.
  Qed.

  Lemma remove_represents k m s : wf m -> represents m s ->
    represents (fst (remove_entry eqb k m)) (ospec_remove k s).
  Proof.
    intros W [Ho Hf]. split; cbn [ospec_remove oorder ofun].
    - rewrite <- Ho. clear -EQ W. induction m as [|[k' v'] m IH]; cbn [remove_entry map filter fst]; auto.
      destruct W as [Hk W]. rewrite (eqv_sym _ EQ k' k). destruct (eqb k k') eqn:E; cbn [negb fst].
      + assert (H : filter (fun x => negb (eqb x k)) (map fst m) = map fst m); auto.
        rewrite (inkeys_cong k' k) in Hk by (rewrite (eqv_sym _ EQ); exact E). clear -EQ Hk.
        induction m as [|[k1 v1] m IH]; cbn; auto. cbn in Hk. apply orb_false_iff in Hk.
        destruct Hk as [H1 H2]. rewrite (eqv_sym _ EQ), H1. cbn. f_equal. auto.
      + specialize (IH W). destruct (remove_entry eqb k m). cbn in *. congruence.
    - intros x. rewrite <- Hf. clear s Ho Hf. induction m as [|[k' v'] m IH]; cbn [remove_entry get_key_value].
      + cbn. destruct (eqb x k); reflexivity.
      + destruct W as [Hk W]. destruct (eqb k k') eqn:E; cbn [fst].
        * destruct (eqb x k) eqn:Ex.
          -- rewrite (inkeys_cong k' x) in Hk.
             ++ rewrite inkeys_get in Hk. destruct (get_key_value eqb x m); [discriminate|reflexivity].
             ++ rewrite (eqv_sym _ EQ). rewrite (eqb_transport _ _ k' Ex). exact E.
          -- destruct (eqb x k') eqn:Ex'; auto. exfalso.
             rewrite (eqv_trans _ EQ x k' k) in Ex; [discriminate|exact Ex'|].
             rewrite (eqv_sym _ EQ). exact E.
        * specialize (IH W). destruct (remove_entry eqb k m). cbn [fst get_key_value] in *. rewrite IH.
          destruct (eqb x k') eqn:Ex'; auto. destruct (eqb x k) eqn:Ex; auto. exfalso.
          rewrite (eqb_transport _ _ k' Ex) in Ex'. congruence.
  Qed.

  Lemma update_inkeys k f (m : vmap K V) x : inkeys x (update eqb k f m) = inkeys x m.
  Proof.
    induction m as [|[k' v'] m IH]; cbn [update inkeys]; auto.
    destruct (eqb k k'); cbn [inkeys]; congruence.
  Qed.
  Lemma update_wf k f m : wf m -> wf (update eqb k f m).
  Proof.
    induction m as [|[k' v'] m IH]; cbn [update wf]; auto. intros [H1 H2].
    destruct (eqb k k'); cbn [wf]; auto. rewrite update_inkeys. auto.
  Qed.
  Lemma update_all_wf f m : wf m -> wf (update_all f m).
  Proof.
    assert (H : forall x m, inkeys x (update_all f m) = inkeys x m).
    { intros x l. induction l as [|[k' v'] l IH]; cbn; auto. f_equal. exact IH. }
    induction m as [|[k' v'] m IH]; cbn; auto. intros [H1 H2]. split; auto.
    rewrite <- H1. apply H.
  Qed.

  Lemma update_represents k f m s : wf m -> represents m s ->
    represents (update eqb k f m) (fst (ospec_step (MUpdate k f) s)).
  Proof.
    intros W [Ho Hf]. split; cbn [ospec_step fst oorder ofun].
    - rewrite <- Ho. clear. induction m as [|[k' v'] m IH]; cbn [update map]; auto.
      destruct (eqb k k'); cbn; congruence.
    - intros x. rewrite <- !Hf. clear s Ho Hf. induction m as [|[k' v'] m IH]; cbn [update get_key_value].
      + destruct (eqb x k); reflexivity.
      + destruct W as [Hk W]. destruct (eqb k k') eqn:E; cbn [get_key_value].
        * destruct (eqb x k) eqn:Ex.
          -- rewrite (eqb_transport _ _ k' Ex), E. reflexivity.
          -- destruct (eqb x k') eqn:Ex'; auto. exfalso.
             rewrite (eqv_trans _ EQ x k' k) in Ex; [discriminate|exact Ex'|].
             rewrite (eqv_sym _ EQ). exact E.
        * rewrite IH by exact W. destruct (eqb x k') eqn:Ex'; auto.
          destruct (eqb x k) eqn:Ex; auto. exfalso.
          rewrite (eqb_transport _ _ k' Ex) in Ex'. congruence.
  Qed.

  Lemma update_all_represents f m s : represents m s ->
    represents (update_all f m) (fst (ospec_step (MUpdateAll f) s)).
  Proof.
    intros [Ho Hf]. split; cbn [ospec_step fst oorder ofun].
    - rewrite <- Ho. unfold update_all. rewrite map_map. apply map_ext. intros [? ?]. reflexivity.
    - intros x. rewrite <- Hf. clear s Ho Hf. induction m as [|[k' v'] m IH]; cbn; auto.
      destruct (eqb x k'); auto.
  Qed.

  Lemma mstep_refines o m s : wf m -> represents m s ->
    wf (fst (mstep eqb o m)) /\ represents (fst (mstep eqb o m)) (fst (ospec_step o s)) /\
    snd (mstep eqb o m) = snd (ospec_step o s).
  Proof.
    intros W R. destruct o as [k v|k|k| |l|k f|f]; cbn [mstep].
    - pose proof (insert_wf k v m W) as [H1 _]. pose proof (insert_represents k v m s R) as H2.
      pose proof (insert_result k v m) as H3. destruct (insert eqb k v m). cbn in *.
      repeat split; auto; try apply H2. rewrite H3. f_equal. f_equal. apply R.
    - pose proof (remove_wf k m W) as H1. pose proof (remove_represents k m s W R) as H2.
      pose proof (remove_result k m) as H3. unfold remove. destruct (remove_entry eqb k m). cbn in *.
      repeat split; auto; try apply H2. rewrite H3. f_equal. f_equal. apply R.
    - pose proof (remove_wf k m W) as H1. pose proof (remove_represents k m s W R) as H2.
      pose proof (remove_result k m) as H3. destruct (remove_entry eqb k m). cbn in *.
      repeat split; auto; try apply H2. rewrite H3. f_equal. apply R.
    - cbn. repeat split; auto.
    - split; [apply extend_wf; exact W|]. split; [apply extend_represents; exact R|reflexivity].
    - split; [apply update_wf; exact W|]. split; [apply update_represents; auto|reflexivity].
    - split; [apply update_all_wf; exact W|]. split; [apply update_all_represents; auto|reflexivity].
  Qed.

  Lemma mrun_refines ops m s : wf m -> represents m s ->
    wf (fst (mrun eqb ops m)) /\ represents (fst (mrun eqb ops m)) (fst (ospec_run ops s)) /\
    snd (mrun eqb ops m) = snd (ospec_run ops s).
  Proof.
    revert m s. induction ops as [|o ops IH]; intros m s W R; cbn [mrun ospec_run]; auto.
    destruct (mstep_refines o m s W R) as (W1 & R1 & E1).
    destruct (mstep eqb o m) as [m1 r1], (ospec_step o s) as [s1 q1]. cbn [fst snd] in *.
    destruct (IH m1 s1 W1 R1) as (W2 & R2 & E2).
    destruct (mrun eqb ops m1) as [m2 r2], (ospec_run ops s1) as [s2 q2]. cbn [fst snd] in *.
    subst. auto.
  Qed.

  Definition oempty : omap := {| ofun := fun _ => None; oorder := [] |}.
  Lemma empty_represents : represents [] oempty.
  Proof. split; auto. Qed.

  (** ** Extensionality: a map is determined by what can be observed of it. *)
  Lemma represents_det m1 m2 s : wf m1 -> wf m2 -> represents m1 s -> represents m2 s -> m1 = m2.
  Proof.
    intros W1 W2 [O1 F1] [O2 F2].
    assert (F : forall k, get_key_value eqb k m1 = get_key_value eqb k m2) by (intros; congruence).
    rewrite <- O2 in O1. clear s O2 F1 F2. revert m2 W2 O1 F.
    induction m1 as [|[k v] m1 IH]; intros [|[k2 v2] m2] W2 O F; try discriminate; auto.
    cbn in O. injection O as <- O. destruct W1 as [N1 W1], W2 as [N2 W2].
    assert (v = v2) as <-.
    { specialize (F k). cbn in F. rewrite (eqv_refl _ EQ) in F. congruence. }
    f_equal. apply IH; auto. intros x. destruct (eqb x k) eqn:E.
    - rewrite (inkeys_cong k x), inkeys_get in N1, N2 by (rewrite (eqv_sym _ EQ); exact E).
      destruct (get_key_value eqb x m1), (get_key_value eqb x m2); congruence.
    - specialize (F x). cbn in F. rewrite E in F. exact F.
  Qed.

  Lemma get_in k (m : vmap K V) : wf m -> In k (map fst m) -> exists v, In (k, v) m /\ get eqb k m = Some v.
  Proof.
    unfold get. induction m as [|[k' v'] m IH]; cbn [map In wf get_key_value fst]; [intros _ []|].
    intros [N W] [->|H].
    - rewrite (eqv_refl _ EQ). exists v'. auto.
    - destruct (IH W H) as (v & H1 & H2). exists v. split; auto. destruct (eqb k k') eqn:E; auto.
      rewrite (inkeys_cong k' k), inkeys_get in N by (rewrite (eqv_sym _ EQ); exact E).
      unfold get in H2. destruct (get_key_value eqb k m); discriminate.
  Qed.

  Lemma from_iter_wf (l : vmap K V) : wf (from_iter eqb l).
  Proof. apply extend_wf. exact I. Qed.

  Lemma get_In k k' v (m : vmap K V) : get_key_value eqb k m = Some (k', v) -> In (k', v) m /\ eqb k k' = true.
  Proof.
    induction m as [|[k1 v1] m IH]; cbn; [discriminate|]. destruct (eqb k k1) eqn:E.
    - intros H. injection H as <- <-. auto.
    - intros H. destruct (IH H). auto.
  Qed.

  Lemma In_get k v (m : vmap K V) : wf m -> In (k, v) m -> get_key_value eqb k m = Some (k, v).
  Proof.
    induction m as [|[k1 v1] m IH]; cbn; [intros _ []|]. intros [N W] [H|H].
    - injection H as -> ->. rewrite (eqv_refl _ EQ). reflexivity.
    - destruct (eqb k k1) eqn:E; auto. exfalso.
      rewrite (inkeys_cong k1 k), inkeys_get, (IH W H) in N by (rewrite (eqv_sym _ EQ); exact E).
      discriminate.
  Qed.

  (** A list with pairwise different keys is collected unchanged. *)
  Lemma insert_new k v (m : vmap K V) : inkeys k m = false -> fst (insert eqb k v m) = m ++ [(k, v)].
  Proof.
    induction m as [|[k' v'] m IH]; cbn [inkeys insert]; auto. intros H.
    apply orb_false_iff in H. destruct H as [H1 H2]. rewrite H1. specialize (IH H2).
    destruct (insert eqb k v m). cbn in *. congruence.
  Qed.
  Lemma inkeys_app k (m1 m2 : vmap K V) : inkeys k (m1 ++ m2) = inkeys k m1 || inkeys k m2.
  Proof. induction m1 as [|[k' v'] m IH]; cbn; auto. rewrite IH. apply orb_assoc. Qed.
  Lemma wf_app_mid m1 k v m2 : wf (m1 ++ (k, v) :: m2) -> inkeys k m1 = false /\ wf (m1 ++ m2).
  Proof.
    induction m1 as [|[k' v'] m IH]; cbn [app wf inkeys].
    - intros [_ W]. auto.
    - intros [N W]. destruct (IH W) as [H1 H2]. rewrite inkeys_app in *. cbn [inkeys] in N.
      apply orb_false_iff in N. destruct N as [N1 N2]. apply orb_false_iff in N2. destruct N2 as [N2 N3].
      rewrite (eqv_sym _ EQ), N2, H1, N1, N3. auto.
  Qed.
  Lemma extend_new l (m : vmap K V) : wf (m ++ l) -> extend eqb l m = m ++ l.
  Proof.
    unfold extend. revert m. induction l as [|[k v] l IH]; intros m W; cbn [fold_left].
    - now rewrite app_nil_r.
    - cbn [fst snd]. destruct (wf_app_mid m k v l W) as [N _]. rewrite insert_new by exact N.
      rewrite IH; rewrite <- app_assoc; auto.
  Qed.
  Lemma from_iter_id (l : vmap K V) : wf l -> from_iter eqb l = l.
  Proof. intros W. apply (extend_new l []). exact W. Qed.

  (** ** Equality *)
  Lemma inkeys_remove k x (m : vmap K V) : eqb x k = false -> inkeys x (fst (remove_entry eqb k m)) = inkeys x m.
  Proof.
    intros H. induction m as [|[k' v'] m IH]; [reflexivity|]. cbn [remove_entry inkeys].
    destruct (eqb k k') eqn:E; cbn [fst].
    - replace (eqb x k') with false; [reflexivity|]. symmetry. rewrite <- H. symmetry. rewrite (eqv_sym _ EQ x k).
      rewrite (eqb_transport k k' x E). apply (eqv_sym _ EQ).
    - destruct (remove_entry eqb k m). cbn in *. now rewrite IH.
  Qed.
  Lemma length_remove k (m : vmap K V) : inkeys k m = true -> length m = S (length (fst (remove_entry eqb k m))).
  Proof.
    induction m as [|[k' v'] m IH]; cbn [remove_entry inkeys]; [discriminate|]. destruct (eqb k k'); cbn [orb]; [reflexivity|].
    intros H. specialize (IH H). destruct (remove_entry eqb k m). cbn in *. lia.
  Qed.
  Lemma keys_le m1 : forall m2 : vmap K V, wf m1 -> (forall k, inkeys k m1 = true -> inkeys k m2 = true) -> length m1 <= length m2.
  Proof.
    induction m1 as [|[k v] m1 IH]; intros m2 W H; cbn [length]; [lia|]. destruct W as [W1 W2].
    assert (Hk : inkeys k m2 = true) by (apply H; cbn; now rewrite (eqv_refl _ EQ)).
    rewrite (length_remove k m2 Hk). apply le_n_S. apply IH; [exact W2|]. intros x Hx.
    rewrite inkeys_remove; [apply H; cbn; rewrite Hx; apply orb_true_r|].
    destruct (eqb x k) eqn:E; [|reflexivity]. rewrite (inkeys_cong x k m1 E) in Hx. congruence.
  Qed.
  Lemma get_entry (m : vmap K V) k v : get eqb k m = Some v -> exists k', In (k', v) m /\ eqb k k' = true.
  Proof.
    unfold get. induction m as [|[k' v'] m IH]; cbn; [discriminate|]. destruct (eqb k k') eqn:E.
    - cbn. intros [= ->]. exists k'. auto.
    - intros H. destruct (IH H) as (k0 & H1 & H2). exists k0. auto.
  Qed.
  Lemma in_get (m : vmap K V) k v : wf m -> In (k, v) m -> get eqb k m = Some v.
  Proof.
    unfold get. induction m as [|[k' v'] m IH]; cbn; [contradiction|]. intros [W1 W2] [[= -> ->]|H].
    - now rewrite (eqv_refl _ EQ).
    - destruct (eqb k k') eqn:E; [|now apply IH]. exfalso.
      enough (inkeys k' m = true) by congruence. rewrite <- (inkeys_cong k k' m E). clear -H EQ.
      induction m as [|[k0 v0] m IH]; [contradiction|]. cbn. destruct H as [[= -> ->]|H]; [now rewrite (eqv_refl _ EQ)|].
      rewrite IH by exact H. apply orb_true_r.
  Qed.
  Lemma get_inkeys (m : vmap K V) k : inkeys k m = match get eqb k m with Some _ => true | None => false end.
  Proof. rewrite inkeys_get. unfold get. now destruct (get_key_value eqb k m). Qed.
  (** Maps are equal if every lookup gives equal results. *)
  Lemma map_eqb_spec veqb m1 m2 : wf m1 -> wf m2 ->
    (map_eqb eqb veqb m1 m2 = true <->
     forall k, match get eqb k m1, get eqb k m2 with Some a, Some b => veqb a b = true | None, None => True | _, _ => False end).
  Proof.
    intros W1 W2. unfold map_eqb. rewrite andb_true_iff, PeanoNat.Nat.eqb_eq, forallb_forall. split.
    - intros [L H]. assert (F : forall k v, get eqb k m1 = Some v -> exists w, get eqb k m2 = Some w /\ veqb v w = true).
      { intros k v Hk. apply get_entry in Hk as (k' & Hi & E). specialize (H _ Hi). cbn in H. unfold get in *. rewrite (get_cong k k' m2 E).
        destruct (option_map snd (get_key_value eqb k' m2)) as [w|]; [|discriminate]. eauto. }
      intros k. destruct (get eqb k m1) as [v|] eqn:E1; [destruct (F k v E1) as (w & -> & Hw); exact Hw|].
      destruct (get eqb k m2) as [w|] eqn:E2; [|exact I]. exfalso.
      assert (length ((k, w) :: m1) <= length m2); [|cbn in *; lia]. apply keys_le.
      + split; [|exact W1]. rewrite get_inkeys, E1. reflexivity.
      + intros x. cbn [inkeys]. rewrite !get_inkeys. intros Hx. apply orb_true_iff in Hx as [Hx|Hx].
        * unfold get in *. now rewrite (get_cong x k m2 Hx), E2.
        * destruct (get eqb x m1) as [v|] eqn:E; [|discriminate]. destruct (F x v E) as (w' & -> & _). reflexivity.
    - intros H. split.
      + assert (S : forall a b : vmap K V, wf a -> (forall k, get eqb k a <> None -> get eqb k b <> None) -> length a <= length b).
        { intros a b Wa Hab. apply keys_le; [exact Wa|]. intros k. rewrite !get_inkeys. specialize (Hab k).
          destruct (get eqb k a), (get eqb k b); auto. intros _. exfalso. now apply Hab. }
        assert (length m1 <= length m2 /\ length m2 <= length m1); [|lia].
        split; apply S; auto; intros k; specialize (H k); destruct (get eqb k m1), (get eqb k m2); try contradiction; auto; congruence.
      + intros [k v] Hi. specialize (H k). rewrite (in_get m1 k v W1 Hi) in H. cbn. destruct (get eqb k m2); [exact H|contradiction].
  Qed.
End MapProofs.

(** * Equality of hcl-edit syntax trees: proofs *)
From Coq Require Import NArith ZArith Bool List Lia Reals.
From Verif Require Import Str NumberModel NumberProofs PrimModel Ast EAst EAstInd EqSpec.
Import ListNotations.

Lemma lall_Forall {A} (P : A -> Prop) l : lall P l <-> Forall P l.
Proof. induction l as [|x l IH]; cbn; [split; constructor|]. rewrite IH. split; [intros []; now constructor|intros H; inversion H; auto]. Qed.

(** Equal things are indistinguishable by comparisons from the left; this implies symmetry and
    transitivity. *)
Definition EQ {A} (w : A -> Prop) (q : A -> A -> bool) (a : A) : Prop :=
  w a -> q a a = true /\ forall b c, w b -> w c -> q a b = true -> q b c = q a c.

Lemma did_eqb_eq a b : did_eqb a b = true -> i_name a = i_name b.
Proof. intros H. now apply seqb_eq in H. Qed.
Lemma did_eqb_ext a b c : i_name a = i_name b -> did_eqb b c = did_eqb a c.
Proof. unfold did_eqb. now intros ->. Qed.
Lemma raw_eqb_eq a b : raw_eqb a b = true -> a = b.
Proof.
  destruct a, b; cbn; try discriminate; auto.
  - rewrite andb_true_iff, !N.eqb_eq. intros [-> ->]. reflexivity.
  - intros H. apply seqb_eq in H. now subst.
Qed.
Lemma raw_eqb_refl a : raw_eqb a a = true.
Proof. destruct a; cbn; rewrite ?N.eqb_refl; auto. apply seqb_refl. Qed.
Lemma strip_eqb_eq a b : strip_eqb a b = true -> a = b.
Proof. destruct a, b; cbn; try discriminate; auto. Qed.
Lemma strip_eqb_refl a : strip_eqb a a = true.
Proof. now destruct a. Qed.
Lemma num_EQ n : EQ num_wf num_eqb n.
Proof.
  intros W. split; [now apply num_eqb_real|]. intros b c Wb Wc E. apply num_eqb_real in E; auto.
  apply eq_true_iff_eq. rewrite !num_eqb_real by auto. now rewrite E.
Qed.
Lemma list_EQ {A} (w : A -> Prop) q l : Forall (EQ w q) l -> EQ (lall w) (list_eqb q) l.
Proof.
  induction 1 as [|x l H _ IH]; intros W; cbn [lall] in W.
  - split; [reflexivity|]. intros [|y b] c _ _ E; [reflexivity|discriminate].
  - destruct W as [Wx Wl]. destruct (H Wx) as [R1 H1], (IH Wl) as [R2 H2]. split; [cbn; now rewrite R1, R2|].
    intros [|y b] c Wb Wc E; [discriminate|]. cbn in E. apply andb_true_iff in E. destruct E as [E1 E2].
    destruct c as [|z c]; [reflexivity|]. cbn in *. destruct Wb, Wc. f_equal; [apply H1|apply H2]; tauto.
Qed.
Lemma opt_EQ {A} (w : A -> Prop) q o : oall (EQ w q) o -> EQ (oallp w) (opt_eqb q) o.
Proof.
  destruct o as [x|]; cbn; intros H W; cbn in W.
  - destruct (H W) as [R1 H1]. split; [exact R1|]. intros [y|] c Wb Wc E; [|discriminate]. destruct c; [now apply H1|reflexivity].
  - split; [reflexivity|]. intros [y|] c Wb Wc E; [discriminate|reflexivity].
Qed.
Lemma odid_refl o : opt_eqb did_eqb o o = true.
Proof. destruct o; [apply seqb_refl|reflexivity]. Qed.
Lemma odid_ext a b c : opt_eqb did_eqb a b = true -> opt_eqb did_eqb b c = opt_eqb did_eqb a c.
Proof. destruct a, b, c; cbn; try discriminate; auto. intros H. apply did_eqb_ext. now apply did_eqb_eq. Qed.
Lemma dids_refl l : list_eqb did_eqb l l = true.
Proof. induction l; cbn; auto. unfold did_eqb at 1. now rewrite seqb_refl. Qed.
Lemma dids_ext a : forall b c, list_eqb did_eqb a b = true -> list_eqb did_eqb b c = list_eqb did_eqb a c.
Proof.
  induction a as [|x a IH]; intros [|y b] [|z c]; cbn; try discriminate; auto. rewrite andb_true_iff. intros [H1 H2].
  f_equal; [apply did_eqb_ext; now apply did_eqb_eq|now apply IH].
Qed.

(** ** Objects *)
Section Objects.
  Context (wv : xexpr -> Prop) (wk : xkey -> Prop).
  Notation key i := (item_key i).
  Definition item_val (i : xitem) : xexpr := match i with XItem _ _ v _ => v end.
  Definition item_rest (i : xitem) : assign * oterm := match i with XItem _ a _ t => (a, t) end.
  Definition iw (i : xitem) : Prop := wk (key i) /\ wv (item_val i).
  Notation keq a b := (key_eqb (key a) (key b) = true).
  Definition veq (i j : xitem) : Prop := item_rest i = item_rest j /\ x_eqb (item_val i) (item_val j) = true.
  Definition IEQ (i : xitem) : Prop := EQ wk key_eqb (key i) /\ EQ wv x_eqb (item_val i).
  Definition obj_eqb (l l' : list xitem) : bool :=
      Nat.eqb (List.length l) (List.length l') &&
      forallb (fun i =>
        match i with
        | XItem k a v tm =>
            match find (fun j => key_eqb k (item_key j)) l' with
            | Some (XItem _ a' v' tm') => assign_eqb a a' && x_eqb v v' && oterm_eqb tm tm'
            | None => false
            end
        end) l.
  Lemma assign_eqb_eq a b : assign_eqb a b = true <-> a = b.
  Proof. destruct a, b; cbn; split; congruence. Qed.
  Lemma oterm_eqb_eq a b : oterm_eqb a b = true <-> a = b.
  Proof. destruct a, b; cbn; split; congruence. Qed.
  Lemma obj_eqb_spec l l' : obj_eqb l l' = true <->
    List.length l = List.length l' /\
    forall i, In i l -> exists j, find (fun j => key_eqb (key i) (key j)) l' = Some j /\ veq i j.
  Proof.
    unfold obj_eqb. rewrite andb_true_iff, Nat.eqb_eq, forallb_forall. apply and_iff_compat_l. split; intros H i Hi; specialize (H i Hi).
    - destruct i as [k a v t]. cbn [item_key]. destruct (find _ l') as [[k' a' v' t']|]; [|discriminate].
      rewrite !andb_true_iff, assign_eqb_eq, oterm_eqb_eq in H. destruct H as [[-> H] ->]. eexists. split; [reflexivity|]. now split.
    - destruct i as [k a v t]. cbn [item_key] in H. destruct H as ([k' a' v' t'] & -> & H1 & H2). cbn in H1, H2. injection H1 as -> ->.
      rewrite H2. now destruct a', t'.
  Qed.
  Lemma distinct_in l : distinct_keys l -> forall i j, In i l -> In j l -> keq i j -> keq j i -> i = j.
  Proof.
    induction l as [|x l IH]; intros D i j Hi Hj E1 E2; [destruct Hi|]. destruct D as [D1 D2]. rewrite lall_Forall, Forall_forall in D1.
    destruct Hi as [<-|Hi], Hj as [<-|Hj]; auto; [specialize (D1 _ Hj)|specialize (D1 _ Hi)]; congruence.
  Qed.
  Lemma find_iff l i : EQ wk key_eqb (key i) -> wk (key i) -> distinct_keys l -> Forall iw l -> forall j,
    find (fun j => key_eqb (key i) (key j)) l = Some j <-> In j l /\ keq i j.
  Proof.
    intros E W D F j. split; [intros H; apply find_some in H; exact H|]. intros [Hj Ej].
    destruct (find (fun j => key_eqb (key i) (key j)) l) as [j'|] eqn:Ef.
    - apply find_some in Ef. destruct Ef as [Hj' Ej']. f_equal. rewrite Forall_forall in F.
      destruct (E W) as [_ H]. apply (distinct_in l D); auto.
      + rewrite (H (key j') (key j)); auto; now apply F.
      + rewrite (H (key j) (key j')); auto; now apply F.
    - pose proof (find_none _ _ Ef _ Hj) as H. cbn in H. congruence.
  Qed.
  Lemma obj_iff l l' : Forall IEQ l -> Forall iw l -> Forall iw l' -> distinct_keys l' ->
    (obj_eqb l l' = true <->
    List.length l = List.length l' /\ forall i, In i l -> exists j, In j l' /\ keq i j /\ veq i j).
  Proof.
    intros Q W W' D. rewrite obj_eqb_spec. apply and_iff_compat_l. rewrite Forall_forall in Q, W.
    split; intros H i Hi; destruct (H i Hi) as (j & H1); exists j.
    - destruct H1 as [H1 H2]. apply find_some in H1. tauto.
    - destruct H1 as (H1 & H2 & H3). split; [|exact H3]. apply find_iff; auto; [apply Q|apply W]; auto.
  Qed.
  Lemma obj_surj l l' : Forall IEQ l -> Forall iw l -> Forall iw l' -> distinct_keys l -> distinct_keys l' ->
    obj_eqb l l' = true -> forall j, In j l' -> exists i, In i l /\ keq i j /\ veq i j.
  Proof.
    intros Q W W' D D' E. apply obj_iff in E; auto. destruct E as [L H].
    assert (X : exists js, Forall2 (fun i j => In j l' /\ keq i j /\ veq i j) l js).
    { clear -H. induction l as [|i l IH]; [exists []; constructor|]. destruct IH as [js Hjs]; [intros; apply H; now right|].
      destruct (H i (or_introl eq_refl)) as (j & Hj). exists (j :: js). now constructor. }
    destruct X as [js Hjs].
    assert (N : NoDup js).
    { clear L H. induction Hjs as [|i j l js (Hj & Ej & _) Hjs IH]; [constructor|].
      inversion Q as [|? ? Q1 Q2]; subst. inversion W as [|? ? W1 W2]; subst. destruct D as [D1 D2]. constructor; [|auto].
      intros Hin. assert (exists i', In i' l /\ keq i' j) as (i' & Hi' & Ei').
      { clear -Hjs Hin. induction Hjs as [|i0 j0 l js (? & ? & ?) Hjs IH]; [destruct Hin|]. destruct Hin as [->|Hin]; [exists i0; split; [now left|auto]|].
        destruct (IH Hin) as (i' & ? & ?). exists i'. split; [now right|auto]. }
      rewrite lall_Forall, Forall_forall in D1. specialize (D1 _ Hi'). rewrite Forall_forall in Q2, W2, W'.
      destruct (Q2 _ Hi') as [K _]. destruct Q1 as [K1 _]. destruct (K (proj1 (W2 _ Hi'))) as [R X], (K1 (proj1 W1)) as [_ Y].
      rewrite <- (Y (key j) (key i') (proj1 (W' _ Hj)) (proj1 (W2 _ Hi')) Ej) in D1.
      rewrite (X (key j) (key i') (proj1 (W' _ Hj)) (proj1 (W2 _ Hi')) Ei') in D1. congruence. }
    assert (I : incl js l').
    { intros j Hj. clear -Hjs Hj. induction Hjs as [|i0 j0 l js (? & ? & ?) Hjs IH]; [destruct Hj|]. destruct Hj as [<-|Hj]; auto. }
    assert (Ln : length js = length l) by (clear -Hjs; induction Hjs; cbn; congruence).
    assert (I' : incl l' js) by (apply NoDup_length_incl; auto; lia).
    intros j Hj. specialize (I' j Hj). clear -Hjs I'. induction Hjs as [|i0 j0 l js (? & ? & ?) Hjs IH]; [destruct I'|].
    destruct I' as [<-|I']; [exists i0; split; [now left|auto]|]. destruct (IH I') as (i & ? & ?). exists i. split; [now right|auto].
  Qed.
  Lemma obj_EQ l : Forall IEQ l -> EQ (fun l => distinct_keys l /\ lall iw l) obj_eqb l.
  Proof.
    intros Q [D W]. rewrite lall_Forall in W. split.
    - apply obj_iff; auto. split; [reflexivity|]. intros i Hi. exists i. rewrite Forall_forall in Q, W.
      destruct (Q _ Hi) as [K V], (W _ Hi) as [K2 V2]. split; [auto|]. split; [apply K; auto|]. split; [reflexivity|apply V; auto].
    - intros m n [Dm Wm] [Dn Wn] E. rewrite lall_Forall in Wm, Wn. pose proof (obj_surj _ _ Q W Wm D Dm E) as S.
      pose proof E as E'. apply obj_iff in E'; auto. destruct E' as [L T].
      rewrite Forall_forall in Q, W, Wm, Wn.
      apply eq_true_iff_eq. split; intros H.
      + apply obj_iff; auto; rewrite ?Forall_forall; auto. apply obj_eqb_spec in H. destruct H as [L2 H]. split; [congruence|]. intros i Hi.
        destruct (T i Hi) as (j & Hj & K1 & V1). destruct (H j Hj) as (k & Hk & V2). apply find_some in Hk. destruct Hk as [Hk K2].
        exists k. destruct (Q _ Hi) as [K V], (W _ Hi) as [KW VW]. split; [auto|]. split.
        * rewrite <- (proj2 (K KW) (key j) (key k)); auto; [apply Wm|apply Wn]; auto.
        * destruct V1, V2. split; [congruence|]. rewrite <- (proj2 (V VW) (item_val j) (item_val k)); auto; [apply Wm|apply Wn]; auto.
      + apply obj_iff in H; auto; rewrite ?Forall_forall; auto. destruct H as [L2 H]. apply obj_eqb_spec. split; [congruence|]. intros j Hj.
        destruct (S j Hj) as (i & Hi & K1 & V1). destruct (H i Hi) as (k & Hk & K2 & V2).
        destruct (Q _ Hi) as [K V], (W _ Hi) as [KW VW]. 
        assert (Kj : EQ wk key_eqb (key j)).
        { intros _. split.
          - rewrite (proj2 (K KW) (key j) (key j)); auto; apply Wm; auto.
          - intros x y Wx Wy Ex. rewrite (proj2 (K KW) (key j) x) in Ex; auto; [|apply Wm; auto].
            rewrite (proj2 (K KW) x y), (proj2 (K KW) (key j) y); auto. apply Wm; auto. }
        exists k. split.
        * apply find_iff; auto; [apply Wm; auto|now apply Forall_forall|]. split; [auto|].
          rewrite (proj2 (K KW) (key j) (key k)); auto; [apply Wm|apply Wn]; auto.
        * destruct V1, V2. split; [congruence|]. rewrite (proj2 (V VW) (item_val j) (item_val k)); auto; [apply Wm|apply Wn]; auto.
  Qed.
End Objects.

Lemma list_EQ' {A} (w : A -> Prop) q l : Forall (EQ w q) l -> lall w l ->
  list_eqb q l l = true /\ forall b c, lall w b -> lall w c -> list_eqb q l b = true -> list_eqb q b c = list_eqb q l c.
Proof. intros H. exact (list_EQ w q l H). Qed.
Lemma opt_EQ' {A} (w : A -> Prop) q l : oall (EQ w q) l -> oallp w l ->
  opt_eqb q l l = true /\ forall b c, oallp w b -> oallp w c -> opt_eqb q l b = true -> opt_eqb q b c = opt_eqb q l c.
Proof. intros H. exact (opt_EQ w q l H). Qed.
Lemma unop_refl o : unop_eqb o o = true. Proof. apply seqb_refl. Qed.
Lemma binop_refl o : binop_eqb o o = true. Proof. apply seqb_refl. Qed.
Lemma unop_ext a b c : unop_eqb a b = true -> unop_eqb b c = unop_eqb a c.
Proof. unfold unop_eqb. rewrite seqb_eq. now intros ->. Qed.
Lemma binop_ext a b c : binop_eqb a b = true -> binop_eqb b c = binop_eqb a c.
Proof. unfold binop_eqb. rewrite seqb_eq. now intros ->. Qed.
Lemma indent_refl i : optnat_eqb i i = true. Proof. destruct i; [apply Nat.eqb_refl|reflexivity]. Qed.
Lemma indent_eq a b : optnat_eqb a b = true -> a = b.
Proof. destruct a, b; cbn; try discriminate; auto. intros H. apply Nat.eqb_eq in H. now subst. Qed.
Ltac xf := fold x_eqb cond_eqb key_eqb trop_eqb op_eqb tpl_eqb elem_eqb else_eqb; fold x_wf cond_wf key_wf trop_wf op_wf tpl_wf elem_wf else_wf.
Ltac xfi H := fold x_eqb cond_eqb key_eqb trop_eqb op_eqb tpl_eqb elem_eqb else_eqb in H; fold x_wf cond_wf key_wf trop_wf op_wf tpl_wf elem_wf else_wf in H.
Ltac hyps := repeat match goal with
  | H : _ /\ _ |- _ => destruct H
  | H : (_ && _)%bool = true |- _ => apply andb_true_iff in H
  | H : Forall (EQ _ _) _ |- _ => pose proof (list_EQ' _ _ _ H); clear H
  | H : oall (EQ _ _) _ |- _ => pose proof (opt_EQ' _ _ _ H); clear H
  | H : EQ ?w ?q ?x |- _ => unfold EQ in H
  | H : ?P -> ?Q /\ ?R, H2 : ?P |- _ => destruct (H H2); clear H
  | H : seqb _ _ = true |- _ => apply seqb_eq in H
  | H : raw_eqb _ _ = true |- _ => apply raw_eqb_eq in H
  | H : strip_eqb _ _ = true |- _ => apply strip_eqb_eq in H
  | H : Bool.eqb _ _ = true |- _ => apply eqb_prop in H
  | H : optnat_eqb _ _ = true |- _ => apply indent_eq in H
  | H : (_ =? _)%N = true |- _ => apply N.eqb_eq in H
  end.
Ltac refls := repeat match goal with H : ?q ?x ?x = true |- _ => rewrite H; clear H end;
  unfold did_eqb; rewrite ?seqb_refl, ?raw_eqb_refl, ?strip_eqb_refl, ?eqb_reflx, ?indent_refl, ?odid_refl, ?dids_refl, ?unop_refl, ?binop_refl, ?N.eqb_refl; cbn; auto.
Ltac step := match goal with
  | |- (_ && _)%bool = (_ && _)%bool => f_equal
  | |- ?a = ?a => reflexivity
  | |- did_eqb _ _ = did_eqb _ _ => apply did_eqb_ext; apply did_eqb_eq; assumption
  | |- opt_eqb did_eqb _ _ = _ => apply odid_ext; assumption
  | |- list_eqb did_eqb _ _ = _ => apply dids_ext; assumption
  | |- unop_eqb _ _ = _ => apply unop_ext; assumption
  | |- binop_eqb _ _ = _ => apply binop_ext; assumption
  | H : forall b c, _ -> _ -> _ = true -> ?q b c = _ |- ?q _ _ = _ => apply H; assumption
  end.
Ltac go := intros; match goal with |- EQ ?w ?q ?a => unfold EQ at 1 end; intros Wa; cbn in Wa; xfi Wa; hyps; split;
  [cbn; xf; refls|
   let y := fresh "y" in let z := fresh "z" in let Wy := fresh in let Wz := fresh in let E := fresh in
   intros y z Wy Wz E; destruct y; try discriminate E; cbn in E, Wy; xfi E; xfi Wy;
   destruct z; try reflexivity; cbn in Wz; xfi Wz; hyps; subst; cbn; xf; repeat step].
Lemma iw_eq l : lall item_wf l <-> lall (iw x_wf key_wf) l.
Proof. rewrite !lall_Forall, !Forall_forall. split; intros H i Hi; specialize (H i Hi); destruct i; exact H. Qed.
Lemma label_ext a b c : label_eqb a b = true -> label_eqb b c = label_eqb a c.
Proof.
  destruct a, b; cbn; try discriminate; intros H; destruct c; cbn; auto.
  - apply did_eqb_ext, did_eqb_eq, H.
  - apply seqb_eq in H. now subst.
Qed.
Lemma labels_refl l : list_eqb label_eqb l l = true.
Proof. induction l as [|x l IH]; cbn; auto. rewrite IH, andb_true_r. destruct x; [|apply seqb_refl]. cbn. unfold did_eqb. apply seqb_refl. Qed.
Lemma labels_ext a : forall b c, list_eqb label_eqb a b = true -> list_eqb label_eqb b c = list_eqb label_eqb a c.
Proof.
  induction a as [|x a IH]; intros [|y b] [|z c]; cbn; try discriminate; auto. rewrite andb_true_iff. intros [H1 H2].
  f_equal; [now apply label_ext|now apply IH].
Qed.
Lemma all_EQ :
  (forall e, EQ x_wf x_eqb e) /\ (forall e, EQ cond_wf cond_eqb e) /\ (forall i, IEQ x_wf key_wf i) /\ (forall e, EQ key_wf key_eqb e) /\
  (forall e, EQ trop_wf trop_eqb e) /\ (forall e, EQ op_wf op_eqb e) /\ (forall e, EQ tpl_wf tpl_eqb e) /\ (forall e, EQ elem_wf elem_eqb e) /\
  (forall e, EQ else_wf else_eqb e).
Proof.
  apply xexpr_all; try solve [go].
  - intros m n r Wa. destruct (num_EQ n Wa) as [R H]. split; [exact R|]. intros y z Wy Wz E. destruct y; try discriminate E.
    destruct z; try reflexivity. exact (H n0 n1 Wy Wz E).
  - intros m l t Q [D Wa]. rewrite iw_eq in Wa. destruct (obj_EQ x_wf key_wf l Q (conj D Wa)) as [R H]. split.
    + change (obj_eqb l l && raw_eqb t t = true). now rewrite R, raw_eqb_refl.
    + intros y z Wy Wz E. destruct y as [| | | | |m' l' t'| | | | | | | | | |]; try discriminate E.
      destruct z as [| | | | |m2 l2 t2| | | | | | | | | |]; try reflexivity.
      change (obj_eqb l l' && raw_eqb t t' = true) in E. change (obj_eqb l' l2 && raw_eqb t' t2 = obj_eqb l l2 && raw_eqb t t2).
      apply andb_true_iff in E. destruct E as [E1 E2]. apply raw_eqb_eq in E2. subst t'. f_equal.
      destruct Wy as [Dy Wy], Wz as [Dz Wz]. rewrite iw_eq in Wy, Wz. apply H; auto.
  - intros k a v t H1 H2. split; assumption.
Qed.
Lemma list_eqb_struct_EQ : (forall s, EQ struct_wf struct_eqb s) /\ (forall b, EQ body_wf xbody_eqb b).
Proof.
  destruct all_EQ as [HE _]. apply xbody_all.
  - intros m k v Wa. destruct (HE v Wa) as [R H]. split; [cbn; unfold did_eqb; now rewrite seqb_refl, R|].
    intros y z Wy Wz E. destruct y; try discriminate E. destruct z; try reflexivity. cbn in *. apply andb_true_iff in E. destruct E as [E1 E2].
    f_equal; [apply did_eqb_ext, did_eqb_eq, E1|auto].
  - intros m i l b HB Wa. destruct (HB Wa) as [R H]. split.
    + change (did_eqb i i && list_eqb label_eqb l l && xbody_eqb b b = true). unfold did_eqb. rewrite seqb_refl, labels_refl, R. reflexivity.
    + intros y z Wy Wz E. destruct y as [|m' i' l' b']; try discriminate E. destruct z as [|m2 i2 l2 b2]; try reflexivity.
      change (did_eqb i i' && list_eqb label_eqb l l' && xbody_eqb b b' = true) in E.
      change (did_eqb i' i2 && list_eqb label_eqb l' l2 && xbody_eqb b' b2 = did_eqb i i2 && list_eqb label_eqb l l2 && xbody_eqb b b2).
      rewrite !andb_true_iff in E. destruct E as [[E1 E2] E3].
      f_equal; [f_equal|]; [apply did_eqb_ext, did_eqb_eq, E1|now apply labels_ext|now apply H].
  - intros m l o n H Wa. destruct (list_EQ' _ _ _ H Wa) as [R HL]. split; [exact R|].
    intros [m' l' o' n'] [m2 l2 o2 n2] Wy Wz E. exact (HL l' l2 Wy Wz E).
Qed.
Lemma EQ_equiv {A} (w : A -> Prop) q : (forall a, EQ w q a) ->
  (forall a, w a -> q a a = true) /\ (forall a b, w a -> w b -> q a b = q b a) /\
  (forall a b c, w a -> w b -> w c -> q a b = true -> q b c = true -> q a c = true).
Proof.
  intros H. assert (S : forall a b, w a -> w b -> q a b = true -> q b a = true).
  { intros a b Wa Wb E. destruct (H a Wa) as [R X]. rewrite (X b a); auto. }
  repeat split.
  - intros a Wa. apply (H a Wa).
  - intros a b Wa Wb. apply eq_true_iff_eq. split; auto.
  - intros a b c Wa Wb Wc E1 E2. rewrite <- (proj2 (H a Wa) b c); auto.
Qed.

(** ** Decor and spans are not compared *)
Lemma list_bare {A} (f : A -> A) q l : Forall (fun a => forall b, q (f a) (f b) = q a b) l ->
  forall l', list_eqb q (map f l) (map f l') = list_eqb q l l'.
Proof. induction 1 as [|x l H _ IH]; intros [|y l']; cbn; auto. now rewrite H, IH. Qed.
Lemma opt_bare {A} (f : A -> A) q o : oall (fun a => forall b, q (f a) (f b) = q a b) o ->
  forall o', opt_eqb q (option_map f o) (option_map f o') = opt_eqb q o o'.
Proof. destruct o, o'; cbn; auto. Qed.
Lemma dids_bare l : forall l', list_eqb did_eqb (map bare_did l) (map bare_did l') = list_eqb did_eqb l l'.
Proof. apply list_bare. apply Forall_forall. auto. Qed.
Lemma odid_bare o o' : opt_eqb did_eqb (option_map bare_did o) (option_map bare_did o') = opt_eqb did_eqb o o'.
Proof. destruct o, o'; reflexivity. Qed.
Ltac xb := fold bare bare_cond bare_item bare_key bare_trop bare_op bare_tpl bare_elem bare_else.
Ltac gob := intros; match goal with b : _ |- _ = ?q _ ?b => destruct b end; try reflexivity; cbn -[bare_did]; xb; xf;
  repeat match goal with H : Forall _ _ |- _ => pose proof (list_bare _ _ _ H); clear H
                       | H : oall _ _ |- _ => pose proof (opt_bare _ _ _ H); clear H end;
  rewrite ?dids_bare, ?odid_bare;
  repeat match goal with H : forall b, _ = _ |- _ => rewrite H; clear H end; reflexivity.
Definition item_bare (i : xitem) : Prop := (forall k, key_eqb (bare_key (item_key i)) (bare_key k) = key_eqb (item_key i) k) /\
  (forall v, x_eqb (bare (item_val i)) (bare v) = x_eqb (item_val i) v).
Lemma all_bare :
  (forall e b, x_eqb (bare e) (bare b) = x_eqb e b) /\
  (forall e b, cond_eqb (bare_cond e) (bare_cond b) = cond_eqb e b) /\
  (forall i, item_bare i) /\
  (forall e b, key_eqb (bare_key e) (bare_key b) = key_eqb e b) /\
  (forall e b, trop_eqb (bare_trop e) (bare_trop b) = trop_eqb e b) /\
  (forall e b, op_eqb (bare_op e) (bare_op b) = op_eqb e b) /\
  (forall e b, tpl_eqb (bare_tpl e) (bare_tpl b) = tpl_eqb e b) /\
  (forall e b, elem_eqb (bare_elem e) (bare_elem b) = elem_eqb e b) /\
  (forall e b, else_eqb (bare_else e) (bare_else b) = else_eqb e b).
Proof.
  apply xexpr_all; try solve [gob].
  - intros m l t H b. destruct b as [| | | | |m' l' t'| | | | | | | | | |]; try reflexivity.
    change (obj_eqb (map bare_item l) (map bare_item l') && raw_eqb t t' = obj_eqb l l' && raw_eqb t t'). f_equal.
    unfold obj_eqb. rewrite !map_length. f_equal. induction H as [|i l [Hk Hv] _ IH]; [reflexivity|]. cbn [map forallb]. f_equal; [|exact IH].
    clear IH. destruct i as [k a v tm]. cbn [bare_item item_key item_val] in *. fold bare bare_key.
    replace (find (fun j => key_eqb (bare_key k) (item_key j)) (map bare_item l')) with (option_map bare_item (find (fun j => key_eqb k (item_key j)) l')).
    + destruct (find (fun j => key_eqb k (item_key j)) l') as [[k2 a2 v2 t2]|]; [|reflexivity]. cbn [option_map bare_item]. fold bare. now rewrite Hv.
    + clear -Hk. induction l' as [|j l' IH]; [reflexivity|]. cbn [find map]. rewrite <- Hk. destruct j as [k2 a2 v2 t2]. cbn [item_key bare_item].
      fold bare_key. destruct (key_eqb (bare_key k) (bare_key k2)); [reflexivity|exact IH].
  - intros k a v t H1 H2. split; assumption.
Qed.
Lemma body_bare : (forall s b, struct_eqb (bare_struct s) (bare_struct b) = struct_eqb s b) /\
  (forall s b, xbody_eqb (bare_body s) (bare_body b) = xbody_eqb s b).
Proof.
  destruct all_bare as [HE _]. apply xbody_all.
  - intros m k v [m' k' v'|]; [|reflexivity]. cbn -[bare_did bare]. now rewrite HE.
  - intros m i l b H [|m' i' l' b']; [reflexivity|]. cbn -[bare_did bare_label]. fold bare_body xbody_eqb. rewrite H. f_equal. f_equal.
    apply list_bare. apply Forall_forall. intros x _ y. destruct x, y; reflexivity.
  - intros m l o n H [m' l' o' n']. cbn. fold bare_struct struct_eqb. now apply list_bare.
Qed.

(** ** Plain trees: equality is identity without decor *)
Lemma num_eqb_wf_eq a b : num_wf a -> num_wf b -> num_eqb a b = true -> a = b.
Proof.
  intros Wa Wb H. apply num_eqb_real in H; auto. destruct a as [x|x|f]; destruct b as [y|y|g]; cbn [valR num_wf] in *.
  1,2,4,5: apply eq_IZR in H; subst; auto; exfalso; lia.
  1,2: exfalso; apply (proj2 Wb); exists x; congruence.
  1,2: exfalso; apply (proj2 Wa); exists y; congruence.
  assert (S : forall h : f64, BinarySingleNaN.is_finite h = true -> ~ FloatProofs.is_int (BinarySingleNaN.B2R h) -> BinarySingleNaN.is_finite_strict h = true).
  { intros h F N. destruct h; try discriminate; try reflexivity. exfalso. apply N. exists 0%Z. reflexivity. }
  f_equal. apply BinarySingleNaN.B2R_inj; [apply S; apply Wa|apply S; apply Wb|exact H].
Qed.
Definition SM {A} (w p : A -> Prop) q (f : A -> A) (a : A) : Prop := w a -> p a -> forall b, w b -> p b -> q a b = true -> f a = f b.
Lemma list_SM {A} (w p : A -> Prop) q f l : Forall (SM w p q f) l -> SM (lall w) (lall p) (list_eqb q) (map f) l.
Proof.
  unfold SM. induction 1 as [|x l H _ IH]; intros Wa Pa [|y l'] Wb Pb E; cbn in *; try discriminate; auto.
  apply andb_true_iff in E. destruct E as [E1 E2]. destruct Wa, Pa, Wb, Pb. f_equal; auto.
Qed.
Lemma opt_SM {A} (w p : A -> Prop) q f o : oall (SM w p q f) o -> SM (oallp w) (oallp p) (opt_eqb q) (option_map f) o.
Proof. unfold SM. destruct o; intros H Wa Pa [y|] Wb Pb E; cbn in *; try discriminate; auto. f_equal; auto. Qed.
Lemma did_bare_eq a b : did_eqb a b = true -> bare_did a = bare_did b.
Proof. unfold bare_did. intros H. apply did_eqb_eq in H. now rewrite H. Qed.
Lemma dids_bare_eq a : forall b, list_eqb did_eqb a b = true -> map bare_did a = map bare_did b.
Proof. induction a as [|x a IH]; intros [|y b]; cbn; try discriminate; auto. rewrite andb_true_iff. intros [H1 H2]. f_equal; auto using did_bare_eq. Qed.
Lemma odid_bare_eq a b : opt_eqb did_eqb a b = true -> option_map bare_did a = option_map bare_did b.
Proof. destruct a, b; cbn; try discriminate; auto. intros H. f_equal. now apply did_bare_eq. Qed.
Lemma label_bare_eq a : forall b, list_eqb label_eqb a b = true -> map bare_label a = map bare_label b.
Proof.
  induction a as [|x a IH]; intros [|y b]; cbn; try discriminate; auto. rewrite andb_true_iff. intros [H1 H2]. f_equal; auto.
  destruct x, y; cbn in H1; try discriminate; cbn [bare_label]; f_equal; auto using did_bare_eq. now apply seqb_eq.
Qed.
Lemma optnat_eqb_eq a b : optnat_eqb a b = true -> a = b.
Proof. destruct a, b; cbn; try discriminate; auto. intros H. apply Nat.eqb_eq in H. now subst. Qed.
Lemma unop_eqb_same a b : unop_eqb a b = true -> a = b.
Proof. destruct a, b; cbn; try discriminate; auto. Qed.
Lemma binop_eqb_same a b : binop_eqb a b = true -> a = b.
Proof. destruct a, b; cbn; try discriminate; auto. Qed.
Ltac ss := repeat match goal with
  | H : _ && _ = true |- _ => apply andb_true_iff in H; destruct H
  | H : _ /\ _ |- _ => destruct H
  | H : Forall _ _ |- _ => apply list_SM in H
  | H : oall _ _ |- _ => apply opt_SM in H
  | H : raw_eqb _ _ = true |- _ => apply raw_eqb_eq in H; subst
  | H : seqb _ _ = true |- _ => apply seqb_eq in H; subst
  | H : strip_eqb _ _ = true |- _ => apply strip_eqb_eq in H; subst
  | H : Bool.eqb _ _ = true |- _ => apply Bool.eqb_prop in H; subst
  | H : num_eqb _ _ = true |- _ => apply num_eqb_wf_eq in H; auto; subst
  | H : optnat_eqb _ _ = true |- _ => apply optnat_eqb_eq in H; subst
  | H : unop_eqb _ _ = true |- _ => apply unop_eqb_same in H; subst
  | H : binop_eqb _ _ = true |- _ => apply binop_eqb_same in H; subst
  | H : N.eqb _ _ = true |- _ => apply N.eqb_eq in H; subst
  | H : did_eqb _ _ = true |- _ => apply did_bare_eq in H
  | H : list_eqb did_eqb _ _ = true |- _ => apply dids_bare_eq in H
  | H : opt_eqb did_eqb _ _ = true |- _ => apply odid_bare_eq in H
  end.
Ltac gosm := intros; intros Wa Pa bb Wb Pb E; destruct bb; try discriminate E; cbn -[bare_did did_eqb num_wf num_eqb optnat_eqb unop_eqb binop_eqb strip_eqb raw_eqb] in *; xb; xf; ss;
  try reflexivity; f_equal; auto.
Lemma all_SM :
  (forall e, SM x_wf plain x_eqb bare e) /\ (forall e, SM cond_wf plain_cond cond_eqb bare_cond e) /\
  (forall i : xitem, True) /\ (forall e, SM key_wf plain_key key_eqb bare_key e) /\
  (forall e, SM trop_wf plain_trop trop_eqb bare_trop e) /\ (forall e, SM op_wf plain_op op_eqb bare_op e) /\
  (forall e, SM tpl_wf plain_tpl tpl_eqb bare_tpl e) /\ (forall e, SM elem_wf plain_elem elem_eqb bare_elem e) /\
  (forall e, SM else_wf plain_else else_eqb bare_else e).
Proof.
  apply xexpr_all; try solve [gosm]; try solve [auto].
  intros m l t _ _ [].
Qed.
Lemma body_SM : (forall e, SM struct_wf plain_struct struct_eqb (fun s => norm_struct (bare_struct s)) e) /\
  (forall e, SM body_wf plain_body xbody_eqb (fun s => norm_body (bare_body s)) e).
Proof.
  destruct all_SM as [HE _]. apply xbody_all.
  - intros m k v Wa Pa [m' k' v'|] Wb Pb E; [|discriminate E]. cbn -[bare_did did_eqb bare] in *. ss. f_equal; auto. now apply HE.
  - intros m i l b H Wa Pa [|m' i' l' b'] Wb Pb E; [discriminate E|].
    change (did_eqb i i' && list_eqb label_eqb l l' && xbody_eqb b b' = true) in E. ss.
    match goal with H : list_eqb label_eqb _ _ = true |- _ => apply label_bare_eq in H; rename H into HL end.
    change (XBlock no_meta (bare_did i) (map bare_label l) (norm_body (bare_body b)) = XBlock no_meta (bare_did i') (map bare_label l') (norm_body (bare_body b'))).
    f_equal; auto.
  - intros m l o n H Wa Pa [m' l' o' n'] Wb Pb E. apply list_SM in H.
    change (XBody no_meta (map norm_struct (map bare_struct l)) false false = XBody no_meta (map norm_struct (map bare_struct l')) false false).
    f_equal. rewrite !map_map. now apply H.
Qed.

(** * Replacing spans by texts keeps equal keys equal *)
From Coq Require Import NArith Bool List.
From Verif Require Import Str NumberModel PrimModel Ast EAst EAstInd EqSpec EqProofs.
Import ListNotations.

Section MapEq.
Context (f g : raw -> raw).
(** Equal trees without objects stay equal. *)
Definition MQ {A} (p : A -> Prop) (q : A -> A -> bool) (m : A -> A) (a : A) : Prop := p a -> forall b, q a b = true -> q (m a) (m b) = true.
Lemma list_MQ {A} (p : A -> Prop) q m l : Forall (MQ p q m) l -> MQ (lall p) (list_eqb q) (map m) l.
Proof.
  unfold MQ. induction 1 as [|x l H _ IH]; intros Pa [|y l'] E; cbn in *; try discriminate; auto.
  apply andb_true_iff in E. destruct E as [E1 E2]. destruct Pa. rewrite H, IH; auto.
Qed.
Lemma opt_MQ {A} (p : A -> Prop) q m o : oall (MQ p q m) o -> MQ (oallp p) (opt_eqb q) (option_map m) o.
Proof. unfold MQ. destruct o; intros H Pa [y|] E; cbn in *; try discriminate; auto. Qed.
Lemma did_MQ a b : did_eqb a b = true -> did_eqb (did_map f a) (did_map f b) = true.
Proof. auto. Qed.
Lemma dids_MQ a : forall b, list_eqb did_eqb a b = true -> list_eqb did_eqb (map (did_map f) a) (map (did_map f) b) = true.
Proof. induction a as [|x a IH]; intros [|y b]; cbn; try discriminate; auto. rewrite !andb_true_iff. intros [H1 H2]. split; [exact H1|]. now apply IH. Qed.
Lemma odid_MQ a b : opt_eqb did_eqb a b = true -> opt_eqb did_eqb (option_map (did_map f) a) (option_map (did_map f) b) = true.
Proof. destruct a, b; cbn; try discriminate; auto. Qed.
Lemma raw_MQ h a b : raw_eqb a b = true -> raw_eqb (h a) (h b) = true.
Proof. intros H. apply raw_eqb_eq in H. subst. apply raw_eqb_refl. Qed.
Ltac sq := repeat match goal with
  | H : _ && _ = true |- _ => apply andb_true_iff in H; destruct H
  | |- _ && _ = true => apply andb_true_iff; split
  | H : _ /\ _ |- _ => destruct H
  | H : Forall _ _ |- _ => apply list_MQ in H
  | H : oall _ _ |- _ => apply opt_MQ in H
  end.
Ltac xq := fold (x_map f g) (cond_map f g) (item_map f g) (key_map f g) (trop_map f g) (op_map f g) (tpl_map f g)
    (elem_map f g) (else_map f g) in *.
Ltac gomq := intros; intros Pa bb E; destruct bb; try discriminate E; cbn -[did_map did_eqb num_eqb optnat_eqb unop_eqb binop_eqb strip_eqb raw_eqb] in *; xq; sq;
  auto using did_MQ, dids_MQ, odid_MQ, raw_MQ.
Lemma all_MQ :
  (forall e, MQ plain x_eqb (x_map f g) e) /\ (forall e, MQ plain_cond cond_eqb (cond_map f g) e) /\
  (forall i : xitem, True) /\ (forall e, MQ plain_key key_eqb (key_map f g) e) /\
  (forall e, MQ plain_trop trop_eqb (trop_map f g) e) /\ (forall e, MQ plain_op op_eqb (op_map f g) e) /\
  (forall e, MQ plain_tpl tpl_eqb (tpl_map f g) e) /\ (forall e, MQ plain_elem elem_eqb (elem_map f g) e) /\
  (forall e, MQ plain_else else_eqb (else_map f g) e).
Proof.
  apply xexpr_all; try solve [gomq]; try solve [auto].
Qed.
(** Whether a tree has objects does not depend on its texts and formatting. *)
Definition PL {A} (p : A -> Prop) (m : A -> A) (a : A) : Prop := p (m a) -> p a.
Lemma list_PL {A} (p : A -> Prop) m l : Forall (PL p m) l -> PL (lall p) (map m) l.
Proof. unfold PL. induction 1 as [|x l H _ IH]; cbn; [auto|]. intros [H1 H2]. auto. Qed.
Lemma opt_PL {A} (p : A -> Prop) m o : oall (PL p m) o -> PL (oallp p) (option_map m) o.
Proof. unfold PL. destruct o; cbn; auto. Qed.
Ltac spl := repeat match goal with H : Forall _ _ |- _ => apply list_PL in H | H : oall _ _ |- _ => apply opt_PL in H end.
Ltac xp := fold plain plain_cond plain_key plain_trop plain_op plain_tpl plain_elem plain_else in *.
Ltac xbb := fold bare bare_cond bare_item bare_key bare_trop bare_op bare_tpl bare_elem bare_else in *.
Ltac gopl := intros; spl; unfold PL in *; cbn; xq; xp; xbb; intuition auto.
Lemma all_PL_map :
  (forall e, PL plain (x_map f g) e) /\ (forall e, PL plain_cond (cond_map f g) e) /\
  (forall i : xitem, True) /\ (forall e, PL plain_key (key_map f g) e) /\
  (forall e, PL plain_trop (trop_map f g) e) /\ (forall e, PL plain_op (op_map f g) e) /\
  (forall e, PL plain_tpl (tpl_map f g) e) /\ (forall e, PL plain_elem (elem_map f g) e) /\
  (forall e, PL plain_else (else_map f g) e).
Proof. apply xexpr_all; solve [gopl|auto]. Qed.
End MapEq.
Ltac xbb := fold bare bare_cond bare_item bare_key bare_trop bare_op bare_tpl bare_elem bare_else in *.
Ltac xp := fold plain plain_cond plain_key plain_trop plain_op plain_tpl plain_elem plain_else in *.
Lemma list_PLi {A} (p : A -> Prop) m (l : list A) : Forall (fun a => p (m a) <-> p a) l -> lall p (map m l) <-> lall p l.
Proof. induction 1 as [|x l H _ IH]; cbn; [tauto|]. rewrite H, IH. reflexivity. Qed.
Lemma opt_PLi {A} (p : A -> Prop) m (o : option A) : oall (fun a => p (m a) <-> p a) o -> oallp p (option_map m o) <-> oallp p o.
Proof. destruct o; cbn; tauto. Qed.
Ltac spi := repeat match goal with H : Forall _ _ |- _ => apply list_PLi in H | H : oall _ _ |- _ => apply opt_PLi in H end.
Lemma all_plain_bare :
  (forall e, plain (bare e) <-> plain e) /\ (forall e, plain_cond (bare_cond e) <-> plain_cond e) /\
  (forall i : xitem, True) /\ (forall e, plain_key (bare_key e) <-> plain_key e) /\
  (forall e, plain_trop (bare_trop e) <-> plain_trop e) /\ (forall e, plain_op (bare_op e) <-> plain_op e) /\
  (forall e, plain_tpl (bare_tpl e) <-> plain_tpl e) /\ (forall e, plain_elem (bare_elem e) <-> plain_elem e) /\
  (forall e, plain_else (bare_else e) <-> plain_else e).
Proof. apply xexpr_all; intros; spi; cbn; xp; xbb; tauto. Qed.

(** What is read for different keys is different. *)
Lemma keys_apart f g a b x y : plain_key a -> bare_key (key_map f g x) = bare_key a -> bare_key (key_map f g y) = bare_key b ->
  key_eqb a b = false -> key_eqb x y = false.
Proof.
  intros HP Hx Hy HN. destruct (key_eqb x y) eqn:E; [|reflexivity]. rewrite <- HN. clear HN.
  pose proof all_bare as AB. pose proof all_plain_bare as (_ & _ & _ & PK & _). pose proof (all_PL_map f g) as (_ & _ & _ & PM & _).
  assert (P2 : plain_key (key_map f g x)) by (apply PK; rewrite Hx; apply PK; exact HP).
  pose proof (all_MQ f g) as (_ & _ & _ & MK & _). pose proof (MK x (PM x P2) y E) as E2.
  destruct AB as (_ & _ & _ & AK & _). rewrite <- AK in E2 |- *. congruence.
Qed.

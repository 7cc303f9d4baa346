(** * The expression which stands for a body in the HCL JSON representation satisfies the invariants *)
From Coq Require Import NArith ZArith Bool String List Lia.
From Verif Require Import Str NumberModel PrimModel Ast AstInd JsonModel ConvFromSpec OwnSpec OwnParse.
From Verif Require MapModel.
Import ListNotations.

Section J.
  Context (u : unicode).
  Inductive jfine : jnode -> Prop :=
  | J_map m : Forall (fun p => jfine (snd p)) m -> jfine (JMap m)
  | J_body l : Forall (fine u) l -> jfine (JBody l)
  | J_expr e : fine u e -> jfine (JExpr e).
  Definition jall (m : list (str * jnode)) : Prop := Forall (fun p => jfine (snd p)) m.
  Lemma insert_jall k n m : jfine n -> jall m -> jall (jinsert k n m).
  Proof.
    unfold jall, jinsert. intros Hn. induction m as [|[k' v'] m IH]; cbn [MapModel.insert]; [repeat constructor; auto|].
    intros H. inversion H; subst. destruct (seqb k k'); cbn [fst snd] in *; [constructor; auto|].
    specialize (IH ltac:(assumption)). destruct (MapModel.insert seqb k n m). cbn [fst] in *. constructor; auto.
  Qed.
  Lemma merge_into_jall f n k m : (forall x, jfine x -> jfine (f x)) -> jfine n -> jall m -> jall (merge_into f n k m).
  Proof.
    unfold jall. intros Hf Hn. induction m as [|[k' v'] m IH]; cbn [merge_into]; [repeat constructor; auto|].
    intros H. inversion H; subst. destruct (seqb k k'); constructor; cbn [snd] in *; auto.
  Qed.
  Fixpoint merge_fine (o : jnode) {struct o} : forall s, jfine o -> jfine s -> jfine (deep_merge o s).
  Proof.
    destruct o as [rhs|l|e]; intros s Ho Hs; [|destruct s|]; try exact Ho.
    - destruct s as [lhs| |]; try exact Ho. cbn [deep_merge]. constructor.
      inversion Ho as [? Hr| |]; subst. inversion Hs as [? Hl| |]; subst. clear Ho Hs. revert lhs Hr Hl.
      induction rhs as [|[k n] rhs IH]; intros lhs Hr Hl; [exact Hl|]. inversion Hr as [|? ? Hn Hr']; subst. cbn [snd] in Hn.
      apply IH; [exact Hr'|]. apply merge_into_jall; [|exact Hn|exact Hl]. intros x Hx. now apply merge_fine.
    - cbn [deep_merge]. inversion Ho; inversion Hs; subst. constructor. apply Forall_app. auto.
  Qed.
  Lemma obj_fine l : Forall (fun p => fine u (snd p)) l -> fine u (expr_obj l).
  Proof.
    intros H. apply collect_fine. apply Forall_map. eapply Forall_impl; [|exact H]. intros p Hp. cbn. split; [repeat constructor|exact Hp].
  Qed.
  Fixpoint node_fine (n : jnode) : jfine n -> fine u (expr_of_node n).
  Proof.
    destruct n as [m|l|e]; intros H; cbn [expr_of_node].
    - inversion H as [? Hm| |]; subst. apply obj_fine. clear H. induction m as [|[k n] m IH]; cbn [map]; [constructor|].
      inversion Hm; subst. constructor; [apply node_fine; assumption|]. now apply IH.
    - inversion H as [|? Hl|]; subst. destruct l as [|e [|e2 l]]; [now constructor| |now constructor]. now inversion Hl.
    - now inversion H.
  Qed.
  Lemma nodes_fine m : jall m -> fine u (expr_of_nodes m).
  Proof. intros H. apply obj_fine. apply Forall_map. eapply Forall_impl; [|exact H]. intros p. apply node_fine. Qed.
  Lemma block_fine i ls e : fine u e -> jall (block_node i ls e).
  Proof. intros H. revert i. induction ls as [|l ls IH]; intros i; cbn; repeat constructor; auto. apply IH. Qed.
  Definition efine (x : entry) : Prop := match x with AttrEntry _ e => fine u e | BlockEntry n => jall n end.
  Lemma add_fine x m : efine x -> jall m -> jall (add_entry m x).
  Proof.
    destruct x as [k e|n]; cbn [efine add_entry]; intros Hx Hm.
    - apply insert_jall; [now constructor|exact Hm].
    - revert m Hm. induction Hx as [|[k n'] n H _ IH]; intros m Hm; cbn [fold_left fst snd]; [exact Hm|].
      apply IH. apply merge_into_jall; auto. intros s Hs. now apply merge_fine.
  Qed.
  Lemma entries_fine l : Forall efine l -> forall m, jall m -> jall (fold_left add_entry l m).
  Proof. induction 1; intros m Hm; cbn [fold_left]; auto using add_fine. Qed.
  Lemma entry_fine x : fine_struct u x -> efine (entry_of x).
  Proof.
    induction x as [k e|i ls b IH] using struct_ind'; intros H; inversion H; subst; cbn [entry_of efine]; [assumption|].
    apply block_fine, nodes_fine, entries_fine; [|constructor]. apply Forall_map. rewrite Forall_forall in *. auto.
  Qed.
  Lemma json_fine b : fine_body u b -> fine u (expr_of_body b).
  Proof.
    intros H. apply nodes_fine, entries_fine; [|constructor]. apply Forall_map. eapply Forall_impl; [|exact H]. exact entry_fine.
  Qed.
End J.

(** * The conversion from hcl-edit to hcl-rs drops the layout only *)
From Coq Require Import NArith Bool String List.
From Verif Require Import Res Str NumberModel PrimModel EAst EAstInd Ast ConvModel ConvFromSpec ConvProofs.
Import ListNotations.

Section From.
Context (sf : f64 -> str).
Notation text := (tpl_string sf).
Lemma F2_map {A B} (R : A -> B -> Prop) f l : Forall (fun a => R a (f a)) l -> Forall2 R l (map f l).
Proof. induction 1; cbn [map]; constructor; auto. Qed.
Lemma F2_all {A B} (R : A -> B -> Prop) f l : (forall a, R a (f a)) -> Forall2 R l (map f l).
Proof. intros H. apply F2_map. apply Forall_forall. auto. Qed.
Lemma O_map {A B} (R : A -> B -> Prop) f o : oall (fun a => R a (f a)) o -> osame R o (option_map f o).
Proof. destruct o; intros H; constructor. exact H. Qed.
Lemma O_name kv : osame same_name kv (option_map i_name kv).
Proof. apply O_map. destruct kv; reflexivity. Qed.
Lemma F2_name l : Forall2 same_name l (map i_name l).
Proof. apply F2_all. reflexivity. Qed.

Lemma of_same :
  (forall e, same text e (of_edit sf e)) /\ (forall c, same_cond text c (of_cond sf c)) /\ (forall i, same_item text i (of_item sf i)) /\
  (forall k, same_key text k (of_key sf k)) /\ (forall t, same_op text t (of_trop sf t)) /\
  (forall o, forall m, same_op text (XTrop m o) (of_op sf o)) /\
  (forall t, same_tpl text t (of_tpl sf t)) /\ (forall e, same_elem text e (of_elem sf e)) /\
  (forall e, match e with XElse _ _ t _ => same_tpl text t (of_tpl sf t) end).
Proof.
  apply xexpr_all; intros; try (cbn; constructor; now auto).
  - apply S_arr, F2_map. exact H.
  - apply (S_obj text m l t (map (of_item sf) l)); [apply F2_map; exact H|]. intros D. now apply collect_apart.
  - destruct t as [es sp]. cbn. destruct i; constructor.
  - apply S_call; [apply F2_name|reflexivity|apply F2_map; exact H].
  - apply S_trav; [exact H|apply F2_map; exact H0].
  - apply S_for; auto; [apply O_name|reflexivity|now apply O_map|now apply O_map].
  - apply H.
  - apply S_templ, F2_map. exact H.
  - destruct el as [[p2 tr2 t2 s2]|]; [apply S_ifelse|apply S_if]; auto.
  - apply S_ford; auto; [apply O_name|reflexivity].
  - exact H.
Qed.
Lemma of_body_same : (forall s, same_struct text s (of_struct sf s)) /\ (forall b, same_body text b (of_body sf b)).
Proof.
  apply xbody_all; intros.
  - apply S_attr; [reflexivity|apply of_same].
  - apply S_block; [reflexivity| |exact H]. apply F2_all. intros []; constructor. reflexivity.
  - apply S_body, F2_map. exact H.
Qed.
End From.

(** Text as a list of Unicode scalar values, with the [char]/[str] helpers of Rust's standard
    library that the code uses. *)
From Coq Require Import NArith Bool Ascii String List Lia.
Import ListNotations.
Open Scope N_scope.

Notation chr := N (only parsing).
Definition str := list N.

(** ASCII literals of the model. *)
Fixpoint lit (s : string) : str :=
  match s with
  | EmptyString => []
  | String c r => N_of_ascii c :: lit r
  end.
Definition ch (c : ascii) : chr := N_of_ascii c.

Definition ceq (a b : chr) : bool := N.eqb a b.
Fixpoint seqb (a b : str) : bool :=
  match a, b with
  | [], [] => true
  | x :: a', y :: b' => N.eqb x y && seqb a' b'
  | _, _ => false
  end.

Lemma seqb_eq a b : seqb a b = true <-> a = b.
Proof.
  revert b. induction a as [|x a IH]; intros [|y b]; cbn [seqb]; split; intros H; try discriminate; auto.
  - apply andb_true_iff in H. destruct H as [H1 H2]. apply N.eqb_eq in H1. apply IH in H2. congruence.
  - injection H as -> ->. apply andb_true_iff. split; [apply N.eqb_refl|apply IH; reflexivity].
Qed.
Lemma seqb_refl a : seqb a a = true.
Proof. apply seqb_eq. reflexivity. Qed.
Lemma seqb_neq a b : seqb a b = false <-> a <> b.
Proof.
  split; intros H.
  - intros E. apply seqb_eq in E. congruence.
  - destruct (seqb a b) eqn:E; [|reflexivity]. apply seqb_eq in E. contradiction.
Qed.
Lemma str_dec (a b : str) : {a = b} + {a <> b}.
Proof. apply list_eq_dec. apply N.eq_dec. Qed.

(** [char::is_whitespace] (Unicode White_Space). *)
Definition is_whitespace (c : chr) : bool :=
  ((9 <=? c) && (c <=? 13)) || (c =? 32) || (c =? 133) || (c =? 160) || (c =? 5760)
  || ((8192 <=? c) && (c <=? 8202)) || (c =? 8232) || (c =? 8233) || (c =? 8239)
  || (c =? 8287) || (c =? 12288).

Definition is_digit (c : chr) : bool := (48 <=? c) && (c <=? 57).

(** [str::starts_with] *)
Fixpoint starts_with (p s : str) : bool :=
  match p, s with
  | [], _ => true
  | x :: p', y :: s' => (x =? y) && starts_with p' s'
  | _ :: _, [] => false
  end.

Lemma starts_with_spec p s : starts_with p s = true <-> exists r, s = p ++ r.
Proof.
  revert s. induction p as [|x p IH]; intros s; cbn [starts_with].
  - split; [intros _; exists s; reflexivity|reflexivity].
  - destruct s as [|y s].
    + split; [discriminate|]. intros [r H]. discriminate.
    + rewrite andb_true_iff, IH, N.eqb_eq. split.
      * intros [-> [r ->]]. exists r. reflexivity.
      * intros [r H]. injection H as -> ->. split; [reflexivity|exists r; reflexivity].
Qed.

(** Longest prefix satisfying [p], and the rest ([take_while]/[span]). *)
Fixpoint span {A} (p : A -> bool) (s : list A) : list A * list A :=
  match s with
  | [] => ([], [])
  | x :: s' => if p x then let '(a, b) := span p s' in (x :: a, b) else ([], s)
  end.

Lemma span_app {A} (p : A -> bool) s : fst (span p s) ++ snd (span p s) = s.
Proof.
  induction s as [|x s IH]; [reflexivity|]. cbn [span].
  destruct (p x); [|reflexivity]. destruct (span p s) as [a b]. cbn in *. congruence.
Qed.
Lemma span_forall {A} (p : A -> bool) s : forallb p (fst (span p s)) = true.
Proof.
  induction s as [|x s IH]; [reflexivity|]. cbn [span].
  destruct (p x) eqn:E; [|reflexivity]. destruct (span p s) as [a b]. cbn in *. rewrite E. exact IH.
Qed.
Lemma span_stop {A} (p : A -> bool) s : match snd (span p s) with [] => True | x :: _ => p x = false end.
Proof.
  induction s as [|x s IH]; [exact I|]. cbn [span].
  destruct (p x) eqn:E; [|exact E]. destruct (span p s) as [a b]. exact IH.
Qed.
Lemma span_unique {A} (p : A -> bool) a b :
  forallb p a = true -> match b with [] => True | x :: _ => p x = false end ->
  span p (a ++ b) = (a, b).
Proof.
  induction a as [|x a IH]; cbn [app forallb span]; intros Ha Hb.
  - destruct b as [|y b]; [reflexivity|]. cbn [span]. rewrite Hb. reflexivity.
  - apply andb_true_iff in Ha. destruct Ha as [H1 H2]. rewrite H1, (IH H2 Hb). reflexivity.
Qed.

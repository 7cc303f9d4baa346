(** * Decimal and hexadecimal digits *)
From Coq Require Import NArith ZArith Bool List Lia Decimal DecimalN DecimalFacts.
From Verif Require Import Str.
Import ListNotations.
Open Scope N_scope.

(** Characters of a [Decimal.uint] and back. *)
Fixpoint uint_str (d : uint) : str :=
  match d with
  | Nil => []
  | D0 d => 48 :: uint_str d | D1 d => 49 :: uint_str d | D2 d => 50 :: uint_str d
  | D3 d => 51 :: uint_str d | D4 d => 52 :: uint_str d | D5 d => 53 :: uint_str d
  | D6 d => 54 :: uint_str d | D7 d => 55 :: uint_str d | D8 d => 56 :: uint_str d
  | D9 d => 57 :: uint_str d
  end.
(** [itoa]/[Display] of an unsigned integer. *)
Definition show_N (n : N) : str := uint_str (N.to_uint n).
(** [itoa] of a signed integer. *)
Definition show_Z (z : Z) : str :=
  if (z <? 0)%Z then 45 :: show_N (Z.to_N (- z)) else show_N (Z.to_N z).

(** The value of a digit string, most significant digit first. *)
Fixpoint digits_acc (acc : N) (s : str) : N :=
  match s with [] => acc | c :: s => digits_acc (10 * acc + (c - 48)) s end.
Definition digits_val (s : str) : N := digits_acc 0 s.

(** Uppercase hexadecimal digit, and the value of a hexadecimal digit of either case. *)
Definition hex_char (n : N) : N := if n <? 10 then 48 + n else 55 + n.
Definition is_hex (c : N) : bool :=
  is_digit c || ((65 <=? c) && (c <=? 70)) || ((97 <=? c) && (c <=? 102)).
Definition hex_val (c : N) : N := if is_digit c then c - 48 else if c <=? 70 then c - 55 else c - 87.
Fixpoint hex_acc (acc : N) (s : str) : N :=
  match s with [] => acc | c :: s => hex_acc (16 * acc + hex_val c) s end.
Definition hex_value (s : str) : N := hex_acc 0 s.
(** [{:04X}] of a number below 65536. *)
Definition hex4 (n : N) : str :=
  [hex_char (n / 4096); hex_char ((n / 256) mod 16); hex_char ((n / 16) mod 16); hex_char (n mod 16)].

(** ** Facts *)
Lemma uint_str_digits d : forallb is_digit (uint_str d) = true.
Proof. induction d; cbn [uint_str forallb]; try reflexivity; rewrite IHd; reflexivity. Qed.

(** [digits_acc] computes [N.of_uint]. *)
Lemma of_uint_acc_digits d : forall acc,
  N.pos (Pos.of_uint_acc d acc) = digits_acc (N.pos acc) (uint_str d).
Proof.
  induction d; intros acc; cbn [Pos.of_uint_acc uint_str digits_acc]; try reflexivity;
    rewrite IHd; f_equal; lia.
Qed.
Lemma of_uint_digits d : N.of_uint d = digits_val (uint_str d).
Proof.
  unfold digits_val, N.of_uint. induction d; cbn [Pos.of_uint uint_str digits_acc]; try reflexivity.
  - exact IHd.
  - rewrite of_uint_acc_digits. reflexivity.
  - rewrite of_uint_acc_digits. reflexivity.
  - rewrite of_uint_acc_digits. reflexivity.
  - rewrite of_uint_acc_digits. reflexivity.
  - rewrite of_uint_acc_digits. reflexivity.
  - rewrite of_uint_acc_digits. reflexivity.
  - rewrite of_uint_acc_digits. reflexivity.
  - rewrite of_uint_acc_digits. reflexivity.
  - rewrite of_uint_acc_digits. reflexivity.
Qed.
Lemma digits_show n : digits_val (show_N n) = n.
Proof. unfold show_N. rewrite <- of_uint_digits. apply DecimalN.Unsigned.of_to. Qed.
Lemma show_N_digits n : forallb is_digit (show_N n) = true.
Proof. apply uint_str_digits. Qed.

(** A digit string as a [uint]. *)
Lemma digit_cases c : is_digit c = true -> c = 48 \/ c = 49 \/ c = 50 \/ c = 51 \/ c = 52 \/ c = 53 \/ c = 54 \/ c = 55 \/ c = 56 \/ c = 57.
Proof. unfold is_digit. rewrite andb_true_iff, !N.leb_le. lia. Qed.
Lemma digits_uint s : forallb is_digit s = true -> exists d, uint_str d = s.
Proof.
  induction s as [|c s IH]; intros H; [exists Nil; reflexivity|].
  cbn [forallb] in H. apply andb_true_iff in H. destruct H as [Hc Hs].
  destruct (IH Hs) as [d <-].
  destruct (digit_cases c Hc) as [E|[E|[E|[E|[E|[E|[E|[E|[E|E]]]]]]]]]; subst c; eexists;
    match goal with |- _ = ?k :: _ => idtac end.
  all: first [exact (eq_refl (uint_str (D0 d)))|exact (eq_refl (uint_str (D1 d)))|exact (eq_refl (uint_str (D2 d)))
    |exact (eq_refl (uint_str (D3 d)))|exact (eq_refl (uint_str (D4 d)))|exact (eq_refl (uint_str (D5 d)))
    |exact (eq_refl (uint_str (D6 d)))|exact (eq_refl (uint_str (D7 d)))|exact (eq_refl (uint_str (D8 d)))
    |exact (eq_refl (uint_str (D9 d)))].
Qed.
(** Printing what was read gives the same digits, unless there were leading zeros. *)
Lemma show_digits s : forallb is_digit s = true -> (exists c r, s = c :: r /\ (c <> 48 \/ r = [])) ->
  show_N (digits_val s) = s.
Proof.
  intros H [c [r [E Hz]]]. destruct (digits_uint s H) as [d <-].
  unfold show_N. rewrite <- of_uint_digits, DecimalN.Unsigned.to_of.
  assert (unorm d = d) as ->; [|reflexivity].
  destruct d; try reflexivity; cbn [uint_str] in E; [discriminate|].
  injection E as <- <-. destruct Hz as [Hz|Hz]; [contradiction|].
  destruct d; try discriminate. reflexivity.
Qed.
Lemma show_N_head n : exists c r, show_N n = c :: r /\ (c <> 48 \/ r = []) /\ is_digit c = true.
Proof.
  pose proof (show_N_digits n) as Hd. unfold show_N in *.
  pose proof (DecimalN.Unsigned.to_of (N.to_uint n)) as E. rewrite DecimalN.Unsigned.of_to in E.
  assert (Hu : unorm (N.to_uint n) = N.to_uint n) by (symmetry; exact E).
  clear E. revert Hd Hu. generalize (N.to_uint n). intros d Hd Hu.
  destruct d; cbn [uint_str forallb] in *; try (eexists; eexists; split; [reflexivity|split; [left; discriminate|reflexivity]]).
  - discriminate.
  - eexists; eexists; split; [reflexivity|split; [|reflexivity]]. right.
    unfold unorm in Hu. cbn [nzhead] in Hu.
    destruct (nzhead d) eqn:Ed; try (rewrite <- Ed in Hu; exfalso; revert Hu; pose proof (nzhead_nonzero d); destruct (nzhead d); intros Hu; try discriminate Hu; congruence).
    injection Hu as <-. reflexivity.
Qed.

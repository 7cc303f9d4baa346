(** * Proofs about shown parse errors *)
From Coq Require Import NArith Arith Bool Ascii String List Lia.
From Verif Require Import Res Str Dec Utf8 LocModel LocSpec LocProofs ErrShowModel ErrShowSpec.
Import ListNotations.
Open Scope nat_scope.
Open Scope list_scope.

Lemma show_nat_number n : is_number (show_nat n) n.
Proof.
  unfold is_number, show_nat. repeat split.
  - apply show_N_digits.
  - apply digits_show.
  - destruct (show_N_head (N.of_nat n)) as (c & r & -> & _). discriminate.
Qed.
Lemma display_report line l r offset message :
  report_of line l r message
    (display {| e_message := message; e_line := l ++ r;
                e_location := {| loc_line := line; loc_column := 1 + List.length l; loc_offset := offset |} |}).
Proof.
  unfold report_of, display, spacing, pad_left. cbn [e_message e_line e_location loc_line loc_column].
  do 8 eexists.
  split; [|split; [apply (show_nat_number line)|repeat (split; [reflexivity|])]].
  2:{ split; [|split; reflexivity]. exists (show_nat (1 + List.length l)). split; [apply show_nat_number|reflexivity]. }
  cbn [unlines]. unfold nl. change newline with 10%N.
  replace (1 + List.length l - 1) with (List.length l) by lia.
  repeat (rewrite <- !app_assoc; cbn [app]). reflexivity.
Qed.

Lemma expectations_last n i l x :
  0 < i -> n = i + S (List.length l) ->
  expectations n i (l ++ [x]) = flat_map (fun e => lit ", " ++ e) l ++ lit " or " ++ x.
Proof.
  revert i. induction l as [|e l IH]; intros i Hi ->; cbn [expectations app flat_map List.length].
  - replace (i + 1 - 1) with i by lia. rewrite Nat.eqb_refl. now rewrite app_nil_r.
  - destruct (Nat.eqb_spec i (i + S (S (List.length l)) - 1)); [lia|].
    destruct (Nat.ltb_spec 0 i); [|lia]. cbn [List.length] in IH. rewrite (IH (S i)) by lia. now rewrite <- !app_assoc.
Qed.
Lemma commas_cons e l : commas (e :: l) = e ++ flat_map (fun e => lit ", " ++ e) l.
Proof.
  revert e. induction l as [|f l IH]; intros e; [cbn; now rewrite app_nil_r|].
  change (commas (e :: f :: l)) with (e ++ lit ", " ++ commas (f :: l)). rewrite IH. cbn [flat_map].
  now rewrite <- app_assoc.
Qed.
Lemma expectations_all es : 2 <= List.length es -> alternatives es (expectations (List.length es) 0 es).
Proof.
  intros H. right. destruct es as [|x es] using rev_ind; [cbn in H; lia|].
  destruct es as [|e es]; [cbn in H; lia|]. exists (e :: es), x. split; [discriminate|]. split; [reflexivity|].
  cbn [app expectations List.length]. rewrite app_length. cbn [List.length].
  destruct (Nat.eqb_spec 0 (S (List.length es + 1) - 1)); [lia|]. change (Nat.ltb 0 0) with false. cbn [app].
  rewrite (expectations_last _ 1 es x) by lia. rewrite commas_cons. now rewrite <- !app_assoc.
Qed.
Lemma label_first cs : first_label cs (label_of cs).
Proof.
  induction cs as [|[s|s] cs IH]; cbn.
  - intros s [].
  - exists [], cs. split; [reflexivity|]. intros t [].
  - destruct (label_of cs) as [t|]; cbn in *.
    + destruct IH as (a & b & -> & H). exists (Expected s :: a), b. split; [reflexivity|].
      intros u [E|E]; [discriminate|]. now apply (H u).
    + intros t [E|E]; [discriminate|]. now apply (IH t).
Qed.
Lemma expected_wanted cs : expected_of cs = wanted cs.
Proof. induction cs as [|[s|s] cs IH]; cbn; trivial. now f_equal. Qed.

(** ** Lines *)
Lemma no_nl_app a b : no_newline a -> no_newline b -> no_newline (a ++ b).
Proof. unfold no_newline. rewrite in_app_iff. tauto. Qed.
Lemma no_nl_flat {A} (f : A -> str) l : (forall x, In x l -> no_newline (f x)) -> no_newline (flat_map f l).
Proof. intros H I. apply in_flat_map in I. destruct I as (x & Hx & I). now apply (H x). Qed.

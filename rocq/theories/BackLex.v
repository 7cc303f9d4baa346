(** * White space and comments between tokens *)
From Coq Require Import NArith Arith Bool String List Lia.
From Verif Require Import Res Str PrimModel EAst ParseBase ParseModel ParseLemmas Eat EatLeaf BackSpec.
Import ListNotations.
Open Scope N_scope.

(** ** Gaps as an inductive predicate *)
Inductive Gap (nl : bool) : str -> Prop :=
| Gap_nil : Gap nl []
| Gap_blank c w : blank nl c = true -> Gap nl w -> Gap nl (c :: w)
| Gap_block x w : find_tag [42; 47] (x ++ [42; 47]) = Some x -> Gap nl w -> Gap nl ([47; 42] ++ x ++ [42; 47] ++ w)
| Gap_line h x e w : nl = true -> h = [35] \/ h = [47; 47] -> forallb not_eol x = true -> e = [10] \/ e = [13; 10] -> Gap nl w -> Gap nl (h ++ x ++ e ++ w).
(** The end of a line: a comment without line break. *)
Definition Open (w : str) : Prop := w = [] \/ exists h x, (h = [35] \/ h = [47; 47]) /\ forallb not_eol x = true /\ w = h ++ x.

Lemma gaps_spec nl op : forall n s, (length s <= n)%nat ->
  (gaps nl op Between s = true -> exists w z, s = w ++ z /\ Gap nl w /\ Open z /\ (op = false -> z = [])) /\
  (gaps nl op InLine s = true -> exists x, forallb not_eol x = true /\ ((op = true /\ s = x) \/
     exists e w z, nl = true /\ s = x ++ e ++ w ++ z /\ (e = [10] \/ e = [13; 10]) /\ Gap nl w /\ Open z /\ (op = false -> z = []))) /\
  (gaps nl op InBlock s = true -> exists x w z, find_tag [42; 47] (x ++ [42; 47]) = Some x /\ s = x ++ [42; 47] ++ w ++ z /\ Gap nl w /\ Open z /\ (op = false -> z = [])).
Proof.
  induction n as [|n IH]; intros s Hn.
  - destruct s; [|cbn in Hn; lia]. cbn [gaps]. repeat split; intros H.
    + exists [], []. repeat split; auto; [constructor|now left].
    + exists []. split; [reflexivity|]. left. auto.
    + discriminate.
  - destruct s as [|c s]; [apply (IH []); cbn; lia|]. cbn [length] in Hn. destruct (IH s) as (I1 & I2 & I3); [lia|]. repeat split; intros H.
    + cbn [gaps] in H. destruct ((c =? 32) || (c =? 9)) eqn:E1.
      { destruct (I1 H) as (w & z & -> & Hw & Hz & Hq). exists (c :: w), z. repeat split; auto. constructor; auto. unfold blank, is_multispace, is_space. destruct nl; rewrite E1; reflexivity. }
      destruct ((c =? 10) || (c =? 13)) eqn:E2.
      { apply andb_true_iff in H. destruct H as [-> H]. destruct (I1 H) as (w & z & -> & Hw & Hz & Hq). exists (c :: w), z. repeat split; auto. constructor; auto.
        unfold blank, is_multispace. rewrite orb_comm in E2. rewrite <- orb_assoc, E2. now rewrite orb_true_r. }
      destruct (N.eqb_spec c 35) as [->|_].
      { apply andb_true_iff in H. destruct H as [_ H]. destruct (I2 H) as (x & Hx & [(-> & ->) | (e & w & z & -> & -> & He & Hw & Hz & Hq)]).
        - exists [], (35 :: x). repeat split; [constructor|right; exists [35], x; auto|discriminate].
        - exists ([35] ++ x ++ e ++ w), z. split; [now rewrite <- !app_assoc|]. split; [|auto]. apply Gap_line; auto. }
      destruct (N.eqb_spec c 47) as [->|_]; [|discriminate]. destruct s as [|d s]; [discriminate|]. destruct (IH s) as (J1 & J2 & J3); [cbn in Hn; lia|].
      destruct (N.eqb_spec d 47) as [->|_].
      { apply andb_true_iff in H. destruct H as [_ H]. destruct (J2 H) as (x & Hx & [(-> & ->) | (e & w & z & -> & -> & He & Hw & Hz & Hq)]).
        - exists [], (47 :: 47 :: x). repeat split; [constructor|right; exists [47; 47], x; auto|discriminate].
        - exists ([47; 47] ++ x ++ e ++ w), z. split; [now rewrite <- !app_assoc|]. split; [|auto]. apply Gap_line; auto. }
      destruct (N.eqb_spec d 42) as [->|_]; [|discriminate]. destruct (J3 H) as (x & w & z & Hx & -> & Hw & Hz & Hq).
      exists ([47; 42] ++ x ++ [42; 47] ++ w), z. split; [now rewrite <- !app_assoc|]. split; [|auto]. now apply Gap_block.
    + cbn [gaps] in H. destruct (N.eqb_spec c 10) as [->|N10].
      { apply andb_true_iff in H. destruct H as [-> H]. destruct (I1 H) as (w & z & -> & Hw & Hz & Hq). exists []. split; [reflexivity|]. right. exists [10], w, z. repeat split; auto. }
      destruct (N.eqb_spec c 13) as [->|N13].
      { destruct s as [|d s]; [discriminate|]. apply andb_true_iff in H. destruct H as [Hd H]. apply N.eqb_eq in Hd. subst d. apply andb_true_iff in H. destruct H as [-> H].
        destruct (IH s) as (J1 & _); [cbn in Hn; lia|]. destruct (J1 H) as (w & z & -> & Hw & Hz & Hq). exists []. split; [reflexivity|]. right. exists [13; 10], w, z. repeat split; auto. }
      assert (Hc : not_eol c = true) by (unfold not_eol; apply N.eqb_neq in N10, N13; now rewrite N10, N13).
      destruct (I2 H) as (x & Hx & [(Ho & ->) | (e & w & z & -> & -> & He & Hw & Hz & Hq)]); exists (c :: x); (split; [cbn [forallb]; now rewrite Hc|]); [left; auto|].
      right. exists e, w, z. repeat split; auto.
    + cbn [gaps] in H. destruct (N.eqb_spec c 42) as [->|N42].
      * destruct s as [|d s]; [discriminate|]. destruct (N.eqb_spec d 47) as [->|N47].
        { destruct (IH s) as (J1 & _); [cbn in Hn; lia|]. destruct (J1 H) as (w & z & -> & Hw & Hz & Hq). exists [], w, z. repeat split; auto. }
        destruct (I3 H) as (x & w & z & Hx & E & Hw & Hz & Hq). exists (42 :: x), w, z. split; [|rewrite E; auto].
        cbn [app find_tag]. destruct x as [|y x]; [cbn [app] in E; injection E as -> _; cbn; reflexivity|]. cbn [app] in E. injection E as <- _. cbn [app] in *.
        replace (starts_with [42; 47] (42 :: d :: x ++ [42; 47])) with false; [now rewrite Hx|]. cbn [starts_with]. apply N.eqb_neq in N47. rewrite (N.eqb_sym 47), N47. reflexivity.
      * destruct (I3 H) as (x & w & z & Hx & E & Hw & Hz & Hq). exists (c :: x), w, z. split; [|rewrite E; auto]. cbn [app find_tag].
        replace (starts_with [42; 47] (c :: x ++ [42; 47])) with false; [now rewrite Hx|]. cbn [starts_with]. apply N.eqb_neq in N42. rewrite (N.eqb_sym 42), N42. reflexivity.
Qed.
Lemma gap_spec nl s : gap nl s = true -> Gap nl s.
Proof. intros H. destruct (gaps_spec nl false (length s) s (le_n _)) as (G & _). destruct (G H) as (w & z & -> & Hw & _ & Hz). rewrite Hz by reflexivity. now rewrite app_nil_r. Qed.
Lemma last_gap_spec nl s : last_gap nl s = true -> exists w z, s = w ++ z /\ Gap nl w /\ Open z.
Proof. intros H. destruct (gaps_spec nl true (length s) s (le_n _)) as (G & _). destruct (G H) as (w & z & -> & Hw & Hz & _). eauto. Qed.
Lemma Gap_app nl a b : Gap nl a -> Gap nl b -> Gap nl (a ++ b).
Proof.
  induction 1 as [|c w Hc Hw IH|x w Hx Hw IH|h x e w Hn Hh Hx He Hw IH]; intros Hb; cbn [app]; auto.
  - constructor; auto.
  - replace (47 :: 42 :: (x ++ 42 :: 47 :: w) ++ b) with ([47; 42] ++ x ++ [42; 47] ++ (w ++ b)) by (cbn [app]; now rewrite <- !app_assoc). apply Gap_block; auto.
  - replace ((h ++ x ++ e ++ w) ++ b) with (h ++ x ++ e ++ (w ++ b)) by now rewrite <- !app_assoc. apply Gap_line; auto.
Qed.
Lemma Gap_up nl w : Gap false w -> Gap nl w.
Proof.
  destruct nl; [|auto]. induction 1 as [|c w Hc Hw IH|x w Hx Hw IH|h x e w Hn]; try discriminate; try (constructor; auto; fail).
  constructor; auto. unfold blank, is_multispace, is_space in *. now rewrite Hc.
Qed.
(** A gap at the end of a line, the line break, another gap. *)
Lemma Gap_line_end w z e v : Gap false w -> Open z -> e = [10] \/ e = [13; 10] -> Gap true v -> Gap true (w ++ z ++ e ++ v).
Proof.
  intros Hw Hz He Hv. apply Gap_app; [now apply Gap_up|]. destruct Hz as [-> | (h & x & Hh & Hx & ->)].
  - cbn [app]. destruct He as [-> | ->]; cbn [app]; repeat (constructor; [reflexivity|]); exact Hv.
  - rewrite <- app_assoc. now apply Gap_line.
Qed.

Section Lex.
Context {inp : str}.
Lemma find_tag_ext t x r : find_tag t (x ++ t) = Some x -> find_tag t (x ++ t ++ r) = Some x.
Proof.
  induction x as [|c x IH]; intros H.
  - cbn [app] in *. destruct t; [destruct r; reflexivity|]. cbn [find_tag app] in *. 
    replace (starts_with (n :: t) (n :: t ++ r)) with true; [reflexivity|]. symmetry. apply (starts_with_app (n :: t)).
  - cbn [app find_tag] in *. destruct (starts_with t (c :: x ++ t)) eqn:E; [discriminate|].
    destruct (find_tag t (x ++ t)) as [y|] eqn:F; [|discriminate]. cbn [option_map] in H. injection H as ->. rewrite IH by reflexivity.
    replace (starts_with t (c :: x ++ t ++ r)) with false; [reflexivity|]. symmetry. destruct (starts_with t (c :: x ++ t ++ r)) eqn:G; [|reflexivity].
    exfalso. apply starts_with_spec in G. destruct G as (q & G). assert (L : firstn (length t) (c :: x ++ t ++ r) = t) by (rewrite G, firstn_app, firstn_all, Nat.sub_diag; now rewrite app_nil_r).
    replace (c :: x ++ t ++ r) with ((c :: x ++ t) ++ r) in L by (cbn [app]; now rewrite <- app_assoc).
    rewrite firstn_app in L. replace (length t - length (c :: x ++ t))%nat with 0%nat in L by (cbn [length]; rewrite app_length; lia).
    cbn [firstn] in L. rewrite app_nil_r in L. assert (S : starts_with t (c :: x ++ t) = true); [|congruence].
    apply starts_with_spec. exists (skipn (length t) (c :: x ++ t)). now rewrite <- L at 2; rewrite firstn_skipn.
Qed.
Lemma eat_block x (Q : unit -> Prop) r : find_tag [42; 47] (x ++ [42; 47]) = Some x -> Q tt -> eat inp inline_comment ([47; 42] ++ x ++ [42; 47]) Q r.
Proof.
  intros Hx HQ. unfold inline_comment. change (lit "/*") with [47; 42]. change (lit "*/") with [42; 47].
  apply (eat_bind _ _ [47; 42] _ T); [now apply eat_tag|]. intros _ _. apply (eat_bind _ _ x [42; 47] T); [|intros _ _; now apply eat_tag].
  intros o _. exists x. split; [|exact I]. unfold take_until. cbn [snd fst]. rewrite (find_tag_ext _ _ r Hx). cbn [snd]. 
  rewrite skipn_app, skipn_all, Nat.sub_diag. reflexivity.
Qed.
Lemma eat_till x (Q : str -> Prop) e r : forallb not_eol x = true -> e = [10] \/ e = [13; 10] -> Q x -> eat inp till_line_ending x Q (e ++ r).
Proof.
  intros Hx He HQ. unfold till_line_ending. apply (eat_bind' _ _ x x [] (eq x)); [now rewrite app_nil_r|apply eat_take_while0; auto; destruct He as [-> | ->]; reflexivity|].
  intros a <- o Ht. exists x. split; [|exact HQ]. cbn [snd app blen]. rewrite N.add_0_r. destruct He as [-> | ->]; reflexivity.
Qed.
Lemma eat_till_end x (Q : str -> Prop) : forallb not_eol x = true -> Q x -> eat inp till_line_ending x Q [].
Proof.
  intros Hx HQ. unfold till_line_ending. apply (eat_bind' _ _ x x [] (eq x)); [now rewrite app_nil_r|apply eat_take_while0; auto; exact I|].
  intros a <- o Ht. exists x. split; [|exact HQ]. cbn [snd app blen]. rewrite N.add_0_r. reflexivity.
Qed.
(** The rest of a line. *)
Definition eol (r : str) : Prop := r = [] \/ exists e r', (e = [10] \/ e = [13; 10]) /\ r = e ++ r'.
Lemma eat_line h x (Q : unit -> Prop) r : h = [35] \/ h = [47; 47] -> forallb not_eol x = true -> eol r -> Q tt ->
  eat inp line_comment (h ++ x) Q r /\ eat inp comment (h ++ x) Q r.
Proof.
  intros Hh Hx He HQ. assert (ET : eat inp till_line_ending x T r) by (destruct He as [-> | (e & r' & He & ->)]; [now apply eat_till_end|now apply eat_till]).
  destruct Hh as [-> | ->]; cbn [app]; split; apply eat_dispatch; cbn [N.eqb Pos.eqb]; try apply eat_alt1.
  1, 2: apply (eat_bind' _ _ (35 :: x) [35] x T); [reflexivity|now apply eat_char|]; intros _ _; apply (eat_bind' _ _ x x [] T); [now rewrite app_nil_r|exact ET|intros _ _; now apply eat_ret].
  1, 2: apply (eat_bind' _ _ (47 :: 47 :: x) [47; 47] x T); [reflexivity|now apply eat_tag|]; intros _ _; apply (eat_bind' _ _ x x [] T); [now rewrite app_nil_r|exact ET|intros _ _; now apply eat_ret].
Qed.
Lemma eat_block_comment x (Q : unit -> Prop) r : find_tag [42; 47] (x ++ [42; 47]) = Some x -> Q tt -> eat inp comment ([47; 42] ++ x ++ [42; 47]) Q r.
Proof.
  intros Hx HQ. cbn [app]. apply eat_dispatch. cbn [N.eqb Pos.eqb]. apply eat_alt2; [|now apply (eat_block x)].
  unfold double_slash_line_comment. apply miss_bind1, miss_tag. reflexivity.
Qed.

(** Nothing of a gap starts here. *)
Definition clear (nl : bool) (r : str) : Prop := ends (blank nl) r /\ (if nl then nocomment r = true else starts_with [47; 42] r = false).
Lemma clear_down nl r : clear true r -> clear nl r.
Proof.
  destruct nl; [auto|]. intros [H1 H2]. split.
  - destruct r as [|c r]; [exact I|]. cbn [ends] in *. unfold blank, is_multispace, is_space in *. rewrite !orb_false_iff in H1. destruct H1 as [[[-> ->] _] _]. reflexivity.
  - unfold nocomment in H2. rewrite negb_true_iff, !orb_false_iff in H2. apply H2.
Qed.
Notation one_comment nl := (if nl then comment else inline_comment).
Lemma miss_one_comment (nl : bool) r : clear nl r -> miss inp (one_comment nl) r.
Proof. intros [_ H]. destruct nl; [now apply miss_comment|]. unfold inline_comment. apply miss_bind1, miss_tag, H. Qed.
(** A gap is blanks and then comments, each of them followed by blanks. *)
Lemma gap_loop nl w r z : Gap nl w -> (z = [] /\ clear nl r \/ nl = true /\ r = [] /\ Open z) -> exists v w', w = v ++ w' /\ forallb (blank nl) v = true /\ ends (blank nl) (w' ++ z ++ r) /\
  eat_loop inp (one_comment nl ;; take_while0 (blank nl)) (w' ++ z) T r.
Proof.
  intros Hw Hz. induction Hw as [|c w Hc Hw IH|x w Hx Hw IH|h x e w Hn Hh Hx He Hw IH].
  - exists [], []. split; [reflexivity|]. split; [reflexivity|]. cbn [app]. destruct Hz as [(-> & Hr) | (-> & -> & [-> | (h & x & Hh & Hx & ->)])].
    + split; [apply Hr|]. apply eat_loop_nil; [now apply miss_bind1, miss_one_comment|exact I].
    + split; [exact I|]. apply eat_loop_nil; [|exact I]. apply miss_bind1, miss_comment. reflexivity.
    + split; [destruct Hh as [-> | ->]; reflexivity|]. rewrite <- (app_nil_r (h ++ x)). apply (eat_loop_cons _ (h ++ x) [] T).
      * destruct Hh as [-> | ->]; discriminate.
      * apply (eat_bind' _ _ _ (h ++ x) [] T); [now rewrite app_nil_r|apply eat_line; auto; [now left|exact I]|]. intros _ _. now apply eat_take_while0.
      * intros a _. apply eat_loop_nil; [|exact I]. apply miss_bind1, miss_comment. reflexivity.
  - destruct IH as (v & w' & -> & H1 & H2 & H3). exists (c :: v), w'. cbn [app forallb]. rewrite Hc. auto.
  - destruct IH as (v & w' & -> & H1 & H2 & H3). exists [], (([47; 42] ++ x ++ [42; 47] ++ v) ++ w'). split; [now rewrite <- !app_assoc|]. split; [reflexivity|].
    split; [destruct nl; reflexivity|]. rewrite <- (app_assoc (_ ++ _) w' z). apply (eat_loop_cons _ _ (w' ++ z) T); [discriminate| |intros a _; exact H3].
    replace ([47; 42] ++ x ++ [42; 47] ++ v) with (([47; 42] ++ x ++ [42; 47]) ++ v) by now rewrite <- !app_assoc.
    apply (eat_bind _ _ _ v T); [destruct nl; [now apply eat_block_comment|now apply eat_block]|]. intros _ _. apply eat_take_while0; [exact H1|now rewrite <- app_assoc|exact I].
  - subst nl. destruct IH as (v & w' & -> & H1 & H2 & H3). exists [], ((h ++ x ++ e ++ v) ++ w'). split; [now rewrite <- !app_assoc|]. split; [reflexivity|].
    split; [destruct Hh as [-> | ->]; reflexivity|]. rewrite <- (app_assoc (_ ++ _) w' z). apply (eat_loop_cons _ _ (w' ++ z) T); [destruct Hh as [-> | ->]; discriminate| |intros a _; exact H3].
    replace (h ++ x ++ e ++ v) with ((h ++ x) ++ (e ++ v)) by now rewrite <- !app_assoc.
    apply (eat_bind _ _ _ (e ++ v) T); [apply eat_line; auto; [right; exists e, (v ++ (w' ++ z) ++ r); split; [exact He|now rewrite <- app_assoc]|exact I]|]. intros _ _.
    apply eat_take_while0; [destruct He as [-> | ->]; exact H1|now rewrite <- app_assoc|exact I].
Qed.
Lemma eat_gap_end nl w z r : Gap nl w -> (z = [] /\ clear nl r \/ nl = true /\ r = [] /\ Open z) -> eat inp (ws_or_sp nl) (w ++ z) T r.
Proof.
  intros Hw Hz. destruct (gap_loop nl w r z Hw Hz) as (v & w' & -> & H1 & H2 & H3). rewrite <- app_assoc in *.
  assert (E : eat inp (take_while0 (blank nl) ;; many0 (one_comment nl ;; take_while0 (blank nl)) ;; ret tt) (v ++ w' ++ z) T r).
  { apply (eat_bind _ _ v (w' ++ z) T); [apply eat_take_while0; [exact H1|now rewrite <- app_assoc|exact I]|]. intros _ _.
    apply (eat_bind' _ _ _ (w' ++ z) [] T); [now rewrite app_nil_r|now apply eat_many0|]. intros _ _. now apply eat_ret. }
  destruct nl; exact E.
Qed.
Lemma eat_gap nl w r : Gap nl w -> clear nl r -> eat inp (ws_or_sp nl) w T r.
Proof. intros Hw Hr. rewrite <- (app_nil_r w). apply eat_gap_end; auto. Qed.

(** ** What remains after a gap *)
Definition rests (nl : bool) (rest r : str) : Prop := exists w, rest = w ++ r /\ eat inp (ws_or_sp nl) w T r.
Lemma rests_gap nl w r : Gap nl w -> clear nl r -> rests nl (w ++ r) r.
Proof. intros Hw Hr. exists w. split; [reflexivity|]. now apply eat_gap. Qed.
Lemma rests_end w z : Gap true w -> Open z -> rests true (w ++ z) [].
Proof. intros Hw Hz. exists (w ++ z). split; [now rewrite app_nil_r|]. apply eat_gap_end; auto. Qed.
(** A line break or a line comment. *)
Definition brk (r : str) : Prop := exists c r', r = c :: r' /\ (c = 10 \/ c = 13 \/ c = 35 \/ c = 47 /\ exists r'', r' = 47 :: r'').
Lemma brk_clear r : brk r -> clear false r.
Proof. intros (c & r' & -> & [-> | [-> | [-> | (-> & r'' & ->)]]]); split; reflexivity. Qed.
(** Whatever the mode, one stops at the next token or at a line break. *)
Lemma rests_any m k w r : Gap k w -> clear true r -> exists r', rests m (w ++ r) r' /\ (r' = r \/ m = false /\ brk r').
Proof.
  intros Hw Hr. destruct m.
  - exists r. split; [|now left]. apply rests_gap; auto. destruct k; [auto|now apply Gap_up].
  - assert (G : exists w1 r', w ++ r = w1 ++ r' /\ Gap false w1 /\ clear false r' /\ (r' = r \/ brk r')).
    { induction Hw as [|c w Hc Hw IH|x w Hx Hw IH|h x e w Hn Hh Hx He Hw IH].
      - exists [], r. split; [reflexivity|]. split; [constructor|]. split; [now apply clear_down|now left].
      - destruct (is_space c) eqn:E.
        + destruct IH as (w1 & r' & E1 & E2 & E3). exists (c :: w1), r'. split; [cbn [app]; now rewrite E1|]. split; [now constructor|exact E3].
        + assert (B : brk ((c :: w) ++ r)).
          { exists c, (w ++ r). split; [reflexivity|]. destruct k; [|unfold blank in Hc; congruence]. unfold blank, is_multispace in Hc. unfold is_space in E. rewrite E in Hc. cbn [orb] in Hc.
            apply orb_true_iff in Hc. rewrite !N.eqb_eq in Hc. tauto. }
          exists [], ((c :: w) ++ r). split; [reflexivity|]. split; [constructor|]. split; [now apply brk_clear|now right].
      - destruct IH as (w1 & r' & E1 & E2 & E3). exists ([47; 42] ++ x ++ [42; 47] ++ w1), r'. split; [rewrite <- !app_assoc; now rewrite E1|]. split; [now apply Gap_block|exact E3].
      - assert (B : brk ((h ++ x ++ e ++ w) ++ r)) by (destruct Hh as [-> | ->]; eexists _, _; (split; [reflexivity|]); eauto 8).
        exists [], ((h ++ x ++ e ++ w) ++ r). split; [reflexivity|]. split; [constructor|]. split; [now apply brk_clear|now right]. }
    destruct G as (w1 & r' & -> & G1 & G2 & G3). exists r'. split; [now apply rests_gap|]. destruct G3; auto.
Qed.
(** Looking ahead. *)
Lemma look_rests nl rest r : rests nl rest r -> forall o, tail_at inp o rest -> exists sp o', forall A (K : bspan -> option str -> parser A),
  (suffix <- pspan (ws_or_sp nl) ;; b <- look2 ;; K suffix b) (mk o rest) = K sp (l2 r) (mk o' r).
Proof.
  intros (w & -> & Hw) o Ht. destruct (Hw o Ht) as (a & Ea & _). exists (o, o + blen w), (o + blen w). intros A K.
  unfold bind at 1, pspan, pmap, bind, with_span, ret. rewrite Ea. reflexivity.
Qed.
End Lex.

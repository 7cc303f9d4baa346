(** * What successful runs of parsers did *)
From Coq Require Import NArith ZArith Arith Bool String List Lia.
From Verif Require Import Res Str Dec PrimModel EAst EncModel ParseBase ParseModel ParseLemmas ParseTop Eat EatLeaf BackSpec BackLex.
Import ListNotations.
Open Scope N_scope.

(** ** Gaps, from their parts *)
Lemma gaps_block nl op x w : find_tag [42; 47] (x ++ [42; 47]) = Some x ->
  gaps nl op InBlock (x ++ [42; 47] ++ w) = gaps nl op Between w.
Proof.
  induction x as [|c x IH]; intros H; [reflexivity|]. cbn [app find_tag] in H.
  destruct (starts_with [42; 47] (c :: x ++ [42; 47])) eqn:E; [discriminate|].
  assert (Hx : find_tag [42; 47] (x ++ [42; 47]) = Some x).
  { destruct (find_tag [42; 47] (x ++ [42; 47])); [|discriminate]. now injection H as ->. }
  specialize (IH Hx). cbn [app gaps]. destruct (N.eqb_spec c 42) as [->|_]; [|exact IH].
  destruct x as [|d x]; [exact IH|]. cbn [app] in *. destruct (N.eqb_spec d 47) as [->|_]; [|exact IH].
  discriminate E.
Qed.
Lemma gaps_line nl op x r : forallb not_eol x = true -> gaps nl op InLine (x ++ r) = gaps nl op InLine r.
Proof.
  induction x as [|c x IH]; intros H; [reflexivity|]. cbn [forallb] in H. apply andb_true_iff in H. destruct H as [Hc H].
  cbn [app gaps]. unfold not_eol in Hc. destruct (c =? 10); [discriminate|]. destruct (c =? 13); [discriminate|]. auto.
Qed.
Lemma Gap_gaps nl op w z : Gap nl w -> gaps nl op Between z = true -> gaps nl op Between (w ++ z) = true.
Proof.
  intros H Hz. induction H as [|c w Hc _ IH|x w Hx _ IH|h x e w -> Hh Hx He _ IH].
  - exact Hz.
  - cbn [app gaps]. destruct ((c =? 32) || (c =? 9)) eqn:E; [exact IH|].
    unfold blank, is_multispace, is_space in Hc. destruct nl; [|rewrite E in Hc; discriminate].
    rewrite E in Hc. cbn [orb] in Hc. rewrite (orb_comm (c =? 10)), Hc. exact IH.
  - repeat rewrite <- app_assoc. change (gaps nl op InBlock (x ++ [42; 47] ++ w ++ z) = true). now rewrite gaps_block.
  - repeat rewrite <- app_assoc.
    assert (G : gaps true op InLine (x ++ e ++ w ++ z) = true).
    { rewrite gaps_line by exact Hx. destruct He as [-> | ->]; exact IH. }
    destruct Hh as [-> | ->]; exact G.
Qed.
Lemma Open_gaps nl z : Open z -> gaps nl true Between z = true.
Proof.
  intros [->|(h & x & Hh & Hx & ->)]; [reflexivity|].
  assert (G : gaps nl true InLine x = true) by (rewrite <- (app_nil_r x), gaps_line by exact Hx; reflexivity).
  destruct Hh as [-> | ->]; cbn; rewrite orb_true_r; exact G.
Qed.
Lemma Gap_gap nl w : Gap nl w -> gap nl w = true.
Proof. intros H. unfold gap. rewrite <- (app_nil_r w). now apply Gap_gaps. Qed.
Lemma Gap_last nl w z : Gap nl w -> Open z -> last_gap nl (w ++ z) = true.
Proof. intros H Hz. unfold last_gap. apply Gap_gaps; auto. now apply Open_gaps. Qed.
Lemma Gap_app nl a c : Gap nl a -> Gap nl c -> Gap nl (a ++ c).
Proof.
  induction 1; intros Hc; auto; repeat rewrite <- app_assoc; cbn [app].
  - constructor; auto.
  - apply (Gap_block nl x (w ++ c)); auto.
  - apply Gap_line; auto.
Qed.
Lemma blanks_Gap nl w : forallb (blank nl) w = true -> Gap nl w.
Proof. induction w as [|c w IH]; cbn; intros H; constructor; apply andb_true_iff in H; tauto. Qed.

(** ** States

    [adv s t s']: the text [t] is what lies between the states [s] and [s']. *)
Definition adv (s : st) (t : str) (s' : st) : Prop := snd s = t ++ snd s' /\ fst s' = fst s + blen t.
Lemma adv_refl s : adv s [] s.
Proof. split; [reflexivity|]. change (blen []) with 0. lia. Qed.
Lemma adv_trans s t s1 t' s2 : adv s t s1 -> adv s1 t' s2 -> adv s (t ++ t') s2.
Proof. intros [A B] [C D]. split; [now rewrite A, C, app_assoc|]. rewrite D, B, blen_app. lia. Qed.

Section Inv.
  Lemma ret_inv {A} (a : A) s b s' : ret a s = POk b s' -> b = a /\ s' = s.
  Proof. unfold ret. intros [= -> ->]. auto. Qed.
  Context {A B : Type}.
  Lemma bind_inv (p : parser A) (f : A -> parser B) s b s' : bind p f s = POk b s' -> exists a s1, p s = POk a s1 /\ f a s1 = POk b s'.
  Proof. unfold bind. destruct (p s) as [a s1| | |]; try discriminate. eauto. Qed.
  Lemma pmap_inv (f : A -> B) p s b s' : pmap f p s = POk b s' -> exists a, p s = POk a s' /\ b = f a.
  Proof. unfold pmap. intros H. apply bind_inv in H. destruct H as (a & s1 & H & E). apply ret_inv in E. destruct E as [-> ->]. eauto. Qed.
  Lemma cut_inv (p : parser A) s a s' : cut p s = POk a s' -> p s = POk a s'.
  Proof. unfold cut. destruct (p s); try discriminate; auto. Qed.
  Lemma alt_inv (p q : parser A) s a s' : alt p q s = POk a s' -> p s = POk a s' \/ (exists s1, p s = PErr false s1) /\ q s = POk a s'.
  Proof.
    unfold alt. destruct (p s) as [x s1|[|] s1| |] eqn:E; try discriminate; auto.
    destruct (q s) as [x s2|[|] s2| |] eqn:F; try discriminate. intros H. right. split; [eauto|exact H].
  Qed.
  Lemma opt_inv (p : parser A) s o s' : opt p s = POk o s' ->
    (exists a, o = Some a /\ p s = POk a s') \/ o = None /\ s' = s /\ exists s1, p s = PErr false s1.
  Proof. unfold opt. destruct (p s) as [x s1|[|] s1| |]; try discriminate; intros [= <- <-]; eauto. Qed.
  Lemma peek_inv (p : parser A) s a s' : peek p s = POk a s' -> s' = s /\ exists s1, p s = POk a s1.
  Proof. unfold peek. destruct (p s) as [x s1| | |]; try discriminate. intros [= -> <-]. eauto. Qed.
  Lemma pnot_inv (p : parser A) s a s' : pnot p s = POk a s' -> s' = s /\ exists s1, p s = PErr false s1.
  Proof. unfold pnot. destruct (p s) as [x s1|[|] s1| |]; try discriminate. intros [= _ <-]. eauto. Qed.
  Lemma verify_inv (p : parser A) (f : A -> option B) s b s' : verify_map p f s = POk b s' -> exists a, p s = POk a s' /\ f a = Some b.
  Proof. unfold verify_map. destruct (p s) as [x s1| | |]; try discriminate. destruct (f x) eqn:E; try discriminate. intros [= -> ->]. eauto. Qed.
  Lemma lift_inv (r : res A) s a s' : lift r s = POk a s' -> r = Done a /\ s' = s.
  Proof. unfold lift. destruct r; try discriminate. intros [= -> ->]. auto. Qed.
  Lemma span_inv (p : parser A) s a s' : with_span p s = POk a s' -> exists x, p s = POk x s' /\ a = (x, (fst s, fst s')).
  Proof. unfold with_span. destruct (p s) as [x s1| | |]; try discriminate. intros [= <- <-]. eauto. Qed.
  Lemma pspan_inv (p : parser A) s a s' : pspan p s = POk a s' -> exists x, p s = POk x s' /\ a = (fst s, fst s').
  Proof.
    unfold pspan, pmap, bind. destruct (with_span p s) as [y s1| | |] eqn:E; try discriminate. intros [= <- <-].
    apply span_inv in E. destruct E as (x & -> & ->). eauto.
  Qed.
  Lemma wtaken_inv (p : parser A) s a s' t : with_taken p s = POk a s' -> (forall x, p s = POk x s' -> adv s t s') ->
    exists x, p s = POk x s' /\ a = (x, t).
  Proof.
    unfold with_taken. destruct (p s) as [x s1| | |]; try discriminate. intros [= <- <-] H. exists x. split; [reflexivity|].
    destruct (H x eq_refl) as [E _]. now rewrite E, consumed_app.
  Qed.
  Lemma taken_inv (p : parser A) s a s' : taken p s = POk a s' -> exists x, p s = POk x s' /\ forall t, adv s t s' -> a = t.
  Proof.
    unfold taken, pmap, bind, with_taken. destruct (p s) as [x s1| | |]; try discriminate. intros [= <- <-]. exists x. split; [reflexivity|].
    intros t [E _]. now rewrite E, consumed_app.
  Qed.
End Inv.
Lemma pos_inv s a s' : pos s = POk a s' -> a = fst s /\ s' = s.
Proof. unfold pos. intros [= -> ->]. auto. Qed.
Lemma any_inv s c s' : any s = POk c s' -> adv s [c] s'.
Proof. unfold any. destruct s as [o [|d r]]; cbn [fst snd]; [discriminate|]. intros [= <- <-]. split; [reflexivity|]. cbn. lia. Qed.
Lemma one_inv f s c s' : one_of f s = POk c s' -> adv s [c] s' /\ f c = true.
Proof.
  unfold one_of. destruct s as [o [|d r]]; cbn [fst snd]; [discriminate|]. destruct (f d) eqn:E; [|discriminate]. intros [= <- <-].
  split; [|exact E]. split; [reflexivity|]. cbn. lia.
Qed.
Lemma char_inv k s c s' : char k s = POk c s' -> adv s [k] s' /\ c = k.
Proof. intros H. apply one_inv in H. destruct H as [H E]. apply N.eqb_eq in E. now subst. Qed.
Lemma starts_split t : forall s, starts_with t s = true -> s = t ++ skipn (List.length t) s.
Proof.
  induction t as [|c t IH]; intros s; [reflexivity|]. destruct s as [|d s]; [discriminate|]. cbn [starts_with]. intros H.
  apply andb_true_iff in H. destruct H as [E H]. apply N.eqb_eq in E. subst d. cbn. f_equal. auto.
Qed.
Lemma tag_inv t s a s' : tag t s = POk a s' -> adv s t s'.
Proof.
  unfold tag. destruct (starts_with t (snd s)) eqn:E; [|discriminate]. intros [= _ <-]. split; [now apply starts_split|reflexivity].
Qed.
Lemma while_inv f s a s' : take_while0 f s = POk a s' -> adv s a s' /\ forallb f a = true /\ ends f (snd s').
Proof.
  unfold take_while0. destruct (span_spec f (snd s)) as (E & F & G). destruct (span f (snd s)) as [x y]. cbn [fst snd] in *.
  intros [= <- <-]. repeat split; auto.
Qed.
Lemma while1_inv f s a s' : take_while1 f s = POk a s' -> adv s a s' /\ forallb f a = true /\ ends f (snd s') /\ a <> [].
Proof.
  unfold take_while1. destruct (span_spec f (snd s)) as (E & F & G). destruct (span f (snd s)) as [x y]. cbn [fst snd] in *.
  destruct x; [discriminate|]. intros [= <- <-]. repeat split; auto. discriminate.
Qed.
Lemma take_until_inv t s a s' : take_until t s = POk a s' -> adv s a s' /\ find_tag t (snd s) = Some a.
Proof.
  unfold take_until. destruct (find_tag t (snd s)) as [x|] eqn:E; [|discriminate]. intros [= <- <-]. split; [|reflexivity].
  split; [|reflexivity]. cbn [snd]. revert x E. generalize (snd s) as r. induction r as [|c r IH]; cbn [find_tag]; intros x.
  - destruct (starts_with t []); [|discriminate]. now intros [= <-].
  - destruct (starts_with t (c :: r)); [now intros [= <-]|]. destruct (find_tag t r) as [y|]; [|discriminate]. intros [= <-].
    cbn. f_equal. now apply IH.
Qed.
Lemma eof_inv s a s' : eof s = POk a s' -> s' = s /\ snd s = [].
Proof. unfold eof. destruct s as [o [|]]; cbn; [|discriminate]. intros [= _ <-]. auto. Qed.
Lemma look2_inv s a s' : look2 s = POk a s' -> s' = s /\ a = l2 (snd s).
Proof. unfold look2. intros [= <- <-]. auto. Qed.

(** Repetition. *)
Inductive runs {A} (p : parser A) : st -> list A -> st -> Prop :=
| runs_nil s s1 : p s = PErr false s1 -> runs p s [] s
| runs_cons s a s1 l s2 : p s = POk a s1 -> List.length (snd s1) <> List.length (snd s) -> runs p s1 l s2 -> runs p s (a :: l) s2.
Lemma many_loop_inv {A} (p : parser A) n : forall s l s', many_loop n p s = POk l s' -> runs p s l s'.
Proof.
  induction n as [|n IH]; intros s l s'; [discriminate|]. cbn [many_loop]. destruct (p s) as [a s1|[|] s1| |] eqn:E; try discriminate.
  - destruct (Nat.eqb_spec (List.length (snd s1)) (List.length (snd s))) as [|L]; [discriminate|].
    destruct (many_loop n p s1) as [l1 s2| | |] eqn:F; try discriminate. intros [= <- <-]. eapply runs_cons; eauto.
  - intros [= <- <-]. eapply runs_nil; eauto.
Qed.
Lemma many0_inv {A} (p : parser A) s l s' : many0 p s = POk l s' -> runs p s l s'.
Proof. apply many_loop_inv. Qed.
Lemma many1_inv {A} (p : parser A) s l s' : many1 p s = POk l s' -> l <> [] /\ exists x s1 l', l = x :: l' /\ p s = POk x s1 /\ runs p s1 l' s'.
Proof.
  unfold many1. intros H. apply bind_inv in H. destruct H as (x & s1 & H1 & H). apply bind_inv in H. destruct H as (l' & s2 & H2 & H).
  apply ret_inv in H. destruct H as [-> ->]. apply many0_inv in H2. split; [discriminate|]. eauto 8.
Qed.

(** ** White space and comments *)
Lemma find_tag_cut t a r : (1 <= List.length t)%nat -> find_tag t (a ++ t ++ r) = Some a -> find_tag t (a ++ t) = Some a.
Proof.
  intros Ht. induction a as [|c a IH]; intros H.
  - cbn [app] in *. destruct t as [|k t]; [cbn in Ht; lia|]. cbn [find_tag]. 
    assert (S : starts_with (k :: t) (k :: t) = true) by (pose proof (starts_with_app (k :: t) []) as S; now rewrite app_nil_r in S).
    now rewrite S.
  - cbn [app find_tag] in *. destruct (starts_with t (c :: a ++ t ++ r)) eqn:E; [discriminate|].
    destruct (starts_with t (c :: a ++ t)) eqn:E2.
    { exfalso. assert (starts_with t ((c :: a ++ t) ++ r) = true); [|cbn [app] in H0; rewrite <- app_assoc in H0; congruence].
      rewrite (starts_split t _ E2), <- app_assoc. apply starts_with_app. }
    destruct (find_tag t (a ++ t ++ r)) as [y|] eqn:F; [|discriminate]. injection H as ->. rewrite IH; auto.
Qed.
Lemma inline_inv s a s' : inline_comment s = POk a s' -> exists x, adv s ([47; 42] ++ x ++ [42; 47]) s' /\ find_tag [42; 47] (x ++ [42; 47]) = Some x.
Proof.
  unfold inline_comment. intros H. apply bind_inv in H. destruct H as (a1 & s1 & H1 & H). apply bind_inv in H. destruct H as (x & s2 & H2 & H3).
  apply tag_inv in H1, H3. apply take_until_inv in H2. destruct H2 as [H2 F]. exists x. split; [eapply adv_trans; [exact H1|eapply adv_trans; eassumption]|].
  destruct H2 as [E _]. destruct H3 as [E3 _]. rewrite E, E3 in F. apply (find_tag_cut [42; 47] x (snd s')); [cbn; lia|exact F].
Qed.
(** A line comment reaches to the end of the line. *)
Definition at_eol (r : str) : Prop := r = [] \/ (exists r', r = 10 :: r') \/ exists r', r = 13 :: 10 :: r'.
Lemma till_inv s a s' : till_line_ending s = POk a s' -> adv s a s' /\ forallb not_eol a = true /\ at_eol (snd s').
Proof.
  unfold till_line_ending. intros H. apply bind_inv in H. destruct H as (x & s1 & H1 & H). apply while_inv in H1. destruct H1 as (H1 & F & G).
  assert (K : snd s1 <> [] -> forall c r, snd s1 = c :: r -> c = 10 \/ c = 13).
  { intros _ c r E. rewrite E in G. unfold ends, not_eol in G. apply negb_false_iff, orb_true_iff in G. destruct G as [G|G]; apply N.eqb_eq in G; auto. }
  assert (W : at_eol (snd s1) /\ POk (A := str) x s1 = POk a s').
  { destruct (snd s1) as [|c r] eqn:E; [split; [now left|exact H]|].
    destruct (K ltac:(discriminate) c r eq_refl) as [->| ->]; [split; [right; left; eauto|exact H]|].
    destruct r as [|d r]; [discriminate H|]. destruct (N.eqb_spec d 10) as [->|Hd]; [split; [right; right; eauto|exact H]|].
    exfalso. clear - H Hd. destruct d as [|d]; [discriminate H|]. do 4 (destruct d as [d|d|]; try discriminate H). congruence. }
  destruct W as [W [= <- <-]]. auto.
Qed.
Definition line_start (h : str) : Prop := h = [35] \/ h = [47; 47].
Lemma hash_inv s a s' : hash_line_comment s = POk a s' -> exists x, adv s ([35] ++ x) s' /\ forallb not_eol x = true /\ at_eol (snd s').
Proof.
  unfold hash_line_comment. intros H. apply bind_inv in H. destruct H as (c & s1 & H1 & H). apply bind_inv in H. destruct H as (x & s2 & H2 & H).
  apply ret_inv in H. destruct H as [_ ->]. apply char_inv in H1. destruct H1 as [H1 _]. apply till_inv in H2. destruct H2 as (H2 & F & G).
  exists x. split; [eapply adv_trans; eassumption|auto].
Qed.
Lemma slash_inv s a s' : double_slash_line_comment s = POk a s' -> exists x, adv s ([47; 47] ++ x) s' /\ forallb not_eol x = true /\ at_eol (snd s').
Proof.
  unfold double_slash_line_comment. intros H. apply bind_inv in H. destruct H as (c & s1 & H1 & H). apply bind_inv in H. destruct H as (x & s2 & H2 & H).
  apply ret_inv in H. destruct H as [_ ->]. apply tag_inv in H1. apply till_inv in H2. destruct H2 as (H2 & F & G).
  exists x. split; [eapply adv_trans; eassumption|auto].
Qed.
Lemma line_comment_inv s a s' : line_comment s = POk a s' -> exists h x, line_start h /\ adv s (h ++ x) s' /\ forallb not_eol x = true /\ at_eol (snd s').
Proof.
  unfold line_comment. intros H. apply bind_inv in H. destruct H as (c & s1 & H1 & H). apply peek_inv in H1. destruct H1 as [-> _].
  destruct (c =? 35); [apply hash_inv in H; destruct H as (x & H); exists [35], x; unfold line_start; auto|].
  destruct (c =? 47); [|discriminate]. apply slash_inv in H; destruct H as (x & H); exists [47; 47], x; unfold line_start; auto.
Qed.
Lemma comment_inv s a s' : comment s = POk a s' ->
  (exists x, adv s ([47; 42] ++ x ++ [42; 47]) s' /\ find_tag [42; 47] (x ++ [42; 47]) = Some x) \/
  (exists h x, line_start h /\ adv s (h ++ x) s' /\ forallb not_eol x = true /\ at_eol (snd s')).
Proof.
  unfold comment. intros H. apply bind_inv in H. destruct H as (c & s1 & H1 & H). apply peek_inv in H1. destruct H1 as [-> _].
  destruct (c =? 35); [apply hash_inv in H; destruct H as (x & H); right; exists [35], x; unfold line_start; auto|].
  destruct (c =? 47); [|discriminate]. apply alt_inv in H. destruct H as [H|[_ H]].
  - apply slash_inv in H; destruct H as (x & H); right; exists [47; 47], x; unfold line_start; auto.
  - left. now apply inline_inv in H.
Qed.
(** White space with line breaks; at the end of the text a comment may be open. *)
Lemma adv_fun s t s' t' : adv s t s' -> adv s t' s' -> t = t'.
Proof. intros [A _] [B _]. rewrite A in B. now apply app_inv_tail in B. Qed.
Lemma ws_items s l s' : runs (comment ;; multispace0) s l s' -> exists w z, adv s (w ++ z) s' /\ Gap true w /\ Open z /\ (snd s' <> [] -> z = []).
Proof.
  induction 1 as [s s1 _|s a s1 l s2 H _ R IH].
  - exists [], []. split; [apply adv_refl|]. split; [constructor|]. split; [now left|auto].
  - destruct IH as (w & z & H2 & Gw & Oz & Hz). apply bind_inv in H. destruct H as (c & s0 & H0 & H). apply while_inv in H. destruct H as (H1 & B & N).
    assert (Gb : Gap true a) by (apply blanks_Gap; exact B).
    apply comment_inv in H0. destruct H0 as [(x & H0 & F)|(h & x & Hh & H0 & F & E)].
    + exists (([47; 42] ++ x ++ [42; 47] ++ a) ++ w), z. repeat split; auto.
      * destruct (adv_trans _ _ _ _ _ H0 (adv_trans _ _ _ _ _ H1 H2)) as [E _]. rewrite E. repeat rewrite <- app_assoc. reflexivity.
      * destruct (adv_trans _ _ _ _ _ H0 (adv_trans _ _ _ _ _ H1 H2)) as [_ E]. rewrite E. f_equal. f_equal. repeat rewrite <- app_assoc. reflexivity.
      * apply Gap_app; auto. now apply Gap_block.
    + destruct (adv_trans _ _ _ _ _ H0 (adv_trans _ _ _ _ _ H1 H2)) as [K1 K2].
      assert (Fin : forall e a', a = e ++ a' -> e = [10] \/ e = [13; 10] -> exists w' z', adv s (w' ++ z') s2 /\ Gap true w' /\ Open z' /\ (snd s2 <> [] -> z' = [])).
      { intros e a' -> He. exists ((h ++ x ++ e ++ a') ++ w), z. repeat split; auto.
        - rewrite K1. repeat rewrite <- app_assoc. reflexivity.
        - rewrite K2. f_equal. f_equal. repeat rewrite <- app_assoc. reflexivity.
        - apply Gap_app; auto. apply Gap_line; auto. apply blanks_Gap. rewrite forallb_app in B. apply andb_true_iff in B. apply B. }
      destruct H1 as [M _]. destruct E as [E|[(r & E)|(r & E)]]; rewrite E in M.
      * symmetry in M. apply app_eq_nil in M. destruct M as [-> M]. destruct H2 as [M2 _]. rewrite M in M2. symmetry in M2. apply app_eq_nil in M2.
        destruct M2 as [M2 M3]. apply app_eq_nil in M2. destruct M2 as [-> ->]. exists [], (h ++ x). cbn [app] in *.
        repeat split; [rewrite K1|rewrite K2| | |]; rewrite ?app_nil_r; try reflexivity; [constructor|right; exists h, x; auto|congruence].
      * destruct a as [|k a]; cbn [app] in M; [rewrite <- M in N; discriminate|injection M as <- _]. apply (Fin [10] a); auto.
      * destruct a as [|k a]; cbn [app] in M; [rewrite <- M in N; discriminate|injection M as <- M].
        destruct a as [|k a]; cbn [app] in M; [rewrite <- M in N; discriminate|injection M as <- _]. apply (Fin [13; 10] a); auto.
Qed.
Lemma ws_inv s a s' : ws s = POk a s' -> exists w z, adv s (w ++ z) s' /\ Gap true w /\ Open z /\ (snd s' <> [] -> z = []).
Proof.
  unfold ws. intros H. apply bind_inv in H. destruct H as (x & s1 & H1 & H). apply bind_inv in H. destruct H as (l & s2 & H2 & H).
  apply ret_inv in H. destruct H as [_ ->]. apply while_inv in H1. destruct H1 as (H1 & B & _). apply many0_inv, ws_items in H2.
  destruct H2 as (w & z & H2 & Gw & Oz & Hz). exists (x ++ w), z. rewrite <- app_assoc. split; [eapply adv_trans; eassumption|].
  split; [|auto]. apply Gap_app; auto. now apply blanks_Gap.
Qed.
Lemma sp_items s l s' : runs (inline_comment ;; space0) s l s' -> exists w, adv s w s' /\ Gap false w.
Proof.
  induction 1 as [s s1 _|s a s1 l s2 H _ R IH]; [exists []; split; [apply adv_refl|constructor]|].
  destruct IH as (w & H2 & Gw). apply bind_inv in H. destruct H as (c & s0 & H0 & H). apply while_inv in H. destruct H as (H1 & B & _).
  apply inline_inv in H0. destruct H0 as (x & H0 & F). exists (([47; 42] ++ x ++ [42; 47]) ++ a ++ w).
  split; [eapply adv_trans; [exact H0|eapply adv_trans; eassumption]|]. repeat rewrite <- app_assoc. apply Gap_block; auto.
  apply Gap_app; auto. now apply blanks_Gap.
Qed.
Lemma sp_inv s a s' : sp s = POk a s' -> exists w, adv s w s' /\ Gap false w.
Proof.
  unfold sp. intros H. apply bind_inv in H. destruct H as (x & s1 & H1 & H). apply bind_inv in H. destruct H as (l & s2 & H2 & H).
  apply ret_inv in H. destruct H as [_ ->]. apply while_inv in H1. destruct H1 as (H1 & B & _). apply many0_inv, sp_items in H2.
  destruct H2 as (w & H2 & Gw). exists (x ++ w). split; [eapply adv_trans; eassumption|]. apply Gap_app; auto. now apply blanks_Gap.
Qed.
Lemma ws_or_sp_inv nl s a s' : ws_or_sp nl s = POk a s' -> exists w z, adv s (w ++ z) s' /\ Gap nl w /\ Open z /\ (snd s' <> [] -> z = []).
Proof.
  destruct nl; [apply ws_inv|]. intros H. apply sp_inv in H. destruct H as (w & H & G). exists w, []. rewrite app_nil_r.
  split; [exact H|]. split; [exact G|]. split; [now left|auto].
Qed.
Lemma sp_comment_inv s a s' : sp_comment s = POk a s' -> exists w z, adv s (w ++ z) s' /\ Gap false w /\ Open z.
Proof.
  unfold sp_comment. intros H. apply bind_inv in H. destruct H as (x & s1 & H1 & H). apply bind_inv in H. destruct H as (l & s2 & H2 & H).
  apply ret_inv in H. destruct H as [_ ->]. apply sp_inv in H1. destruct H1 as (w & H1 & G). apply opt_inv in H2.
  destruct H2 as [(c & _ & H2)|(_ & -> & _)].
  - apply line_comment_inv in H2. destruct H2 as (h & y & Hh & H2 & F & _). exists w, (h ++ y). split; [eapply adv_trans; eassumption|].
    split; [exact G|]. right. exists h, y. auto.
  - exists w, []. rewrite app_nil_r. split; [exact H1|]. split; [exact G|now left].
Qed.
(** After white space there is no more of it. *)
Lemma runs_end {A} (p : parser A) s l s' : runs p s l s' -> exists s1, p s' = PErr false s1.
Proof. induction 1; eauto. Qed.
Lemma ws_items_end s l s' : runs (comment ;; multispace0) s l s' -> ends is_multispace (snd s) -> ends is_multispace (snd s').
Proof.
  induction 1 as [|s a s1 l s2 H _ R IH]; auto. intros _. apply IH. apply bind_inv in H. destruct H as (c & s0 & _ & H). apply while_inv in H. tauto.
Qed.
Lemma ws_again s a s1 : ws s = POk a s1 -> ws s1 = POk tt s1.
Proof.
  unfold ws. intros H. apply bind_inv in H. destruct H as (x & s0 & H1 & H). apply bind_inv in H. destruct H as (l & s2 & H2 & H).
  apply ret_inv in H. destruct H as [_ ->]. apply while_inv in H1. destruct H1 as (_ & _ & N). apply many0_inv in H2.
  assert (E := ws_items_end _ _ _ H2 N). destruct (runs_end _ _ _ _ H2) as (s3 & F).
  assert (M : multispace0 s2 = POk [] s2).
  { unfold multispace0, take_while0. destruct s2 as [o [|c r]]; cbn [snd] in *; cbn [span]; [|cbn [ends] in E; rewrite E]; cbn [fst]; change (blen []) with 0; now rewrite N.add_0_r. }
  unfold bind at 1. rewrite M. unfold bind at 1. unfold many0. cbn [many_loop]. rewrite F. reflexivity.
Qed.

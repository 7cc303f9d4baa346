(** * Reading printed trees: terms, operators and conditionals with comments between their parts *)
From Coq Require Import NArith ZArith Arith Bool String List Lia.
From Verif Require Import Res Str Dec NumberModel PrimModel PrimProofs EAst ParseBase ParseModel ParseLemmas PrattSpec PrattProofs Grammar Eat StrSpec StrProofs EatLeaf EatExpr
  BackSpec SameSpec BackLex BackWear.
Import ListNotations.
Open Scope N_scope.

(** What does not go on here: a traversal, a binary operation, a conditional, a call. *)
Definition untrav (r : str) : bool := match r with [] => true | c :: r' => if c =? 46 then starts_with [46] r' else negb (c =? 91) end.
Definition unbin (r : str) : bool :=
  match r with
  | [] => true
  | c :: r' =>
      if c =? 61 then negb (starts_with [61] r')
      else if c =? 47 then starts_with [47] r' || starts_with [42] r'
      else negb (existsb (N.eqb c) (lit "!<>+-*%&|"))
  end.
Definition uncond (r : str) : bool := match r with [] => true | c :: _ => negb (c =? 63) end.
Definition uncall (r : str) : bool := negb (call2 (l2 r)).
Definition quiet1 (r : str) : bool := untrav r && unbin r.
Definition quiet2 (r : str) : bool := untrav r && unbin r && uncond r.
Lemma untrav_trav r : untrav r = true -> trav2 (l2 r) = false.
Proof.
  intros H. unfold trav2. change (lit "..") with [46; 46]. rewrite l2_two. unfold untrav in H.
  destruct r as [|c r]; [reflexivity|]. destruct (N.eqb_spec c 46) as [->|Hc].
  - rewrite starts2, H. reflexivity.
  - rewrite andb_false_iff. right. apply l2_head. intros c' r' [= <- <-]. apply N.eqb_neq in Hc. rewrite Hc. now apply negb_true_iff in H.
Qed.
Lemma unbin_ahead r : unbin r = true -> binop_ahead (l2 r) = false.
Proof.
  intros H. unfold binop_ahead. change (lit "//") with [47; 47]. change (lit "/*") with [47; 42]. change (lit "==") with [61; 61]. rewrite !l2_two.
  destruct r as [|c r]; [reflexivity|]. cbn [unbin] in H. destruct (N.eqb_spec c 61) as [->|H61].
  { apply negb_true_iff in H. rewrite (starts2 61 61), H, orb_false_l, andb_false_iff. right. apply l2_head. intros c' r' [= <- <-]. reflexivity. }
  destruct (N.eqb_spec c 47) as [->|H47].
  { rewrite !starts2, H. reflexivity. }
  apply N.eqb_neq in H61, H47. replace (starts_with [61; 61] (c :: r)) with false by (cbn [starts_with]; now rewrite N.eqb_sym, H61).
  rewrite orb_false_l, andb_false_iff. right. apply l2_head. intros c' r' [= <- <-]. rewrite H47. lits_in H. cbn [existsb] in H.
  rewrite negb_true_iff, !orb_false_iff in H. destruct H as (E1 & E2 & E3 & E4 & E5 & E6 & E7 & E8 & E9 & _). now rewrite E1, E2, E3, E4, E5, E6, E7, E8, E9.
Qed.
Lemma uncond_ahead r : uncond r = true -> head_is (N.eqb 63) (l2 r) = false.
Proof. intros H. apply l2_head. intros c r' ->. cbn [uncond] in H. apply negb_true_iff in H. now rewrite N.eqb_sym. Qed.
Lemma brk_quiet r : brk r -> uncall r = true /\ quiet2 r = true.
Proof. intros (c & r' & -> & [-> | [-> | [-> | (-> & r'' & ->)]]]); (split; [|reflexivity]); try reflexivity; (destruct r' as [|d r']; reflexivity). Qed.
Lemma quiet2_1 r : quiet2 r = true -> quiet1 r = true.
Proof. intros H. unfold quiet2 in H. apply andb_true_iff in H. apply H. Qed.
Lemma quiet1_trav r : quiet1 r = true -> untrav r = true.
Proof. intros H. unfold quiet1 in H. apply andb_true_iff in H. apply H. Qed.
Lemma quiet1_bin r : quiet1 r = true -> unbin r = true.
Proof. intros H. unfold quiet1 in H. apply andb_true_iff in H. apply H. Qed.

Section Expr.
Context {inp : str} (u : unicode) (b : build) (pf : str -> f64).
Context (HU : ascii_exact u).
Notation Rn n := (recs_at u b pf pratt_group items_insert n).
Notation startp n nl := (term_start u b pf items_insert (Rn n) nl).
Notation termp n nl := (expr_term u b pf items_insert (Rn n) nl).
Notation exprp n nl := (pexpr u b pf pratt_group items_insert (Rn n) nl).
Notation START := (@START inp u b pf).
Notation TERM := (@TERM inp u b pf).
Notation EXPR := (@EXPR inp u b pf).
Notation OP := (@OP inp u b pf).
Notation OPN := (@OPN inp u b pf).
Notation opens := (opens u).
Notation rests := (@rests inp).
Notation from := (from inp).
Notation wears := (wears inp).

Lemma START_bald nl t fl (Q : xexpr -> Prop) rest : START nl t fl Q rest -> START nl t fl (fun x => Q x /\ bald x) rest.
Proof. intros H n Hn. eapply eat_imp; [apply (gives_eat _ _ _ _ _ _ (H n Hn) (start_bald u b pf n nl))|]. intros a [[H1 H2] H3]. auto. Qed.
Lemma TERM_bald nl t fl (Q : xexpr -> Prop) rest : TERM nl t fl Q rest -> TERM nl t fl (fun x => Q x /\ bald x) rest.
Proof. intros H n Hn. eapply eat_imp; [apply (gives_eat _ _ _ _ _ _ (H n Hn) (term_bald u b pf n nl))|]. intros a [[H1 H2] H3]. auto. Qed.
Lemma EXPR_bald nl t (Q : xexpr -> Prop) rest : EXPR nl t Q rest -> EXPR nl t (fun x => Q x /\ bald x) rest.
Proof. intros H n Hn. apply (gives_eat _ _ _ _ _ _ (H n Hn) (expr_bald u b pf n nl)). Qed.
Lemma bald_put_suffix g r x : bald x -> from g r -> wears None (Some g) (x_meta (x_upd (set_suffix r) x)).
Proof. intros [H _] F. rewrite x_meta_upd. split; cbn; [now rewrite H|exact F]. Qed.

(** After a gap something follows of which [F] is true. *)
Definition follows (F : str -> bool) (nl : bool) (rest : str) : Prop := exists r, rests nl rest r /\ F r = true.
Lemma follows_imp (F G : str -> bool) nl rest : (forall r, F r = true -> G r = true) -> follows F nl rest -> follows G nl rest.
Proof. intros H (r & Hr & E). exists r. auto. Qed.

Lemma opens_clear nl t r : opens t -> clear nl (t ++ r).
Proof. intros H. apply clear_down. split; [now apply (opens_ends u HU true)|now apply (opens_nocomment u HU)]. Qed.

(** ** Terms *)
Lemma back_plain nl t fl (Q : xexpr -> Prop) rest : START nl t fl Q rest -> stable Q -> follows untrav fl rest -> TERM nl t fl Q rest.
Proof.
  intros H HS (r & Hr & Hf) n Hn. unfold expr_term. apply (eat_bind _ _ [] t T); [now apply eat_pos|]. intros o _.
  apply (eat_bind' _ _ t t [] (fun p => Q (fst (fst p)) /\ snd (fst p) = fl)); [now rewrite app_nil_r| |].
  { apply eat_with_span. eapply eat_imp; [now apply H|]. cbn [fst snd]. auto. }
  intros [[e nl'] s] [HQ E]. cbn [fst snd] in *. subst nl'. intros o' Ht. cbn [app] in *. eexists (_, fl). split; [|split; [apply HS, HQ|reflexivity]].
  destruct (look_rests fl rest r Hr o' Ht) as (sp & o'' & ->). apply untrav_trav in Hf. unfold trav2 in Hf. rewrite Hf. cbn [blen]. now rewrite N.add_0_r.
Qed.

(** A name which is not called. *)
Lemma back_ident nl x (Q : xexpr -> Prop) rest : is_ident u x = true -> ends (is_id_continue u) rest -> follows uncall nl rest ->
  Q (keyword x) -> START nl x nl Q rest.
Proof.
  intros Hx He (r & Hr & Hc) HQ n _. destruct x as [|c x]; [discriminate|]. apply eat_dispatch. pose proof Hx as Hs. cbn [is_ident] in Hs. apply andb_true_iff in Hs.
  destruct Hs as [Hs _]. rewrite !(id_start_not u HU c) by (try exact Hs; try lia; reflexivity). rewrite (id_start_digit u HU c Hs), Hs.
  unfold identlike. apply (eat_bind' _ _ _ (c :: x) [] (fun p => fst p = c :: x)); [now rewrite app_nil_r| |].
  { apply eat_with_span. eapply eat_imp; [apply (eat_str_ident u (c :: x) (eq (c :: x))); auto|]. intros a <- sp. reflexivity. }
  intros [y ys] E. cbn [fst] in E. subst y. intros o Ht. cbn [app] in *. exists (keyword (c :: x), nl). split; [|split; [exact HQ|reflexivity]].
  destruct (look_rests nl rest r Hr o Ht) as (sp & o' & ->). unfold uncall in Hc. apply negb_true_iff in Hc. unfold call2 in Hc. rewrite Hc. cbn [blen].
  now rewrite N.add_0_r.
Qed.
(** A number with a minus sign. *)
Lemma back_negative nl w t n n' (Q : xexpr -> Prop) rest : number_text b pf t n -> num_neg b n = Done n' -> Gap false w ->
  numend rest -> nofrac rest ->
  Q (XNum no_meta n' (Some (raw_of_str ([45] ++ w ++ t)))) -> START nl ([45] ++ w ++ t) nl Q rest.
Proof.
  intros Ht Hneg Hw He Hf HQ k _. cbn [app]. apply eat_dispatch. cbn [N.eqb Pos.eqb].
  change (is_digit 45) with false. cbn iota. apply eat_pmap, eat_alt1. cbn [fst snd]. eapply eat_imp; [|intros a Ha; split; [exact Ha|reflexivity]]. unfold neg_number.
  apply (eat_bind' _ _ _ ([45] ++ w ++ t) [] (fun p => p = (n, [45] ++ w ++ t))); [now rewrite app_nil_r| |].
  - apply eat_with_taken. apply (eat_bind _ _ [45] _ T); [now apply eat_char|]. intros _ _. apply (eat_bind _ _ w t T).
    + destruct (number_text_head b pf t n Ht) as (c & t' & -> & Hc). apply (eat_gap false); [exact Hw|]. split.
      * cbn. destruct (is_space c) eqn:E; [|reflexivity]. exfalso. unfold is_space in E. rewrite orb_true_iff, !N.eqb_eq in E. destruct E as [-> | ->]; discriminate Hc.
      * cbn [app starts_with]. destruct (N.eqb_spec 47 c) as [<-|]; [discriminate|]. reflexivity.
    + intros _ _. eapply eat_number; eauto.
  - intros a ->. apply (eat_bind _ _ [] [] (eq n')); [eapply eat_lift; eauto|]. intros a <-. now apply eat_ret.
Qed.

(** ** Traversals *)
Inductive TRAV (fl : bool) (rest : str) : str -> (list xtrop -> Prop) -> Prop :=
| TRAV_nil (Q : list xtrop -> Prop) : Q [] -> follows untrav fl rest -> TRAV fl rest [] Q
| TRAV_cons g t1 t2 (P : xop -> Prop) (Q Q' : list xtrop -> Prop) : Gap fl g -> op_head t1 -> OP t1 P (t2 ++ rest) -> TRAV fl rest t2 Q ->
    (forall m o l, wears (Some g) None m -> P o -> Q l -> Q' (XTrop m o :: l)) -> TRAV fl rest ((g ++ t1) ++ t2) Q'.
Notation trav_item n fl := (prefix_decorated trop_upd (ws_or_sp fl) (pnot (tag (lit "..")) ;; pmap (XTrop no_meta) (traversal_operator u (Rn n)))).
Lemma op_head_gap fl t r : op_head t -> clear fl (t ++ r) /\ starts_with [46; 46] (t ++ r) = false /\ trav2 (l2 (t ++ r)) = true.
Proof.
  intros H. destruct (op_head_clear t r H true) as (H1 & H2 & H3 & H4). split; [|auto]. apply clear_down. now split.
Qed.
Lemma back_trav_item fl g t P rest n : Gap fl g -> op_head t -> OP t P rest -> (length t <= n)%nat ->
  eat inp (trav_item n fl) (g ++ t) (fun x => exists m o, x = XTrop m o /\ wears (Some g) None m /\ P o) rest.
Proof.
  intros Hg Hh HO Hn. destruct (op_head_gap fl t rest Hh) as (H1 & H3 & _). unfold prefix_decorated.
  apply (eat_bind _ _ g t (fun sp => from g (raw_of_span sp))); [apply eat_span_from; [now apply eat_gap|]; auto|]. intros sp1 Hsp.
  apply (eat_bind' _ _ t t [] (fun x => exists m o, x = XTrop m o /\ m_decor m = no_decor /\ P o)); [now rewrite app_nil_r| |].
  - unfold spanned. apply (eat_bind' _ _ t t [] (fun p => exists o, fst p = XTrop no_meta o /\ P o)); [now rewrite app_nil_r| |].
    + apply eat_with_span. apply (eat_bind _ _ [] t T); [apply eat_pnot; [|exact I]; apply miss_tag, H3|]. intros _ _.
      apply eat_pmap. eapply eat_imp; [now apply HO|]. intros o Ho sp2. exists o. auto.
    + intros [x sp2] (o & E & Ho). cbn [fst] in E. subst x. apply eat_ret. cbn. eauto.
  - intros x (m & o & -> & Hm & Ho). apply eat_ret. cbn. eexists _, _. split; [reflexivity|]. split; [|exact Ho]. split; cbn; [exact Hsp|]. now rewrite Hm.
Qed.
Lemma back_miss_trav fl rest n : follows untrav fl rest -> miss inp (trav_item n fl) rest.
Proof.
  intros (r & (w & -> & Hw) & Hf). unfold prefix_decorated.
  apply (miss_bind2 _ _ w T); [apply eat_pspan; [exact Hw|]; intros; exact I|]. intros sp0 _. apply miss_bind1. unfold spanned. apply miss_bind1, miss_with_span.
  destruct (starts_with [46; 46] r) eqn:E2.
  - apply miss_bind1. apply starts_with_spec in E2. destruct E2 as (q & ->). change (lit "..") with [46; 46]. apply (miss_pnot _ [46; 46] T). now apply eat_tag.
  - apply (miss_bind2 (pnot _) _ [] T r); [apply eat_pnot; [now apply miss_tag|exact I]|]. intros _ _. apply miss_pmap. unfold traversal_operator.
    destruct r as [|c r]; [apply miss_bind1, miss_any|]. apply (miss_bind2 any _ [c] (eq c)); [now apply eat_any|]. intros a <-. cbn [untrav] in Hf.
    destruct (N.eqb_spec c 46) as [->|].
    + rewrite starts2 in E2. congruence.
    + apply negb_true_iff in Hf. rewrite Hf. apply miss_fail.
Qed.
Lemma back_trav_loop fl rest t Q : TRAV fl rest t Q -> forall n, (length t <= n)%nat -> eat_loop inp (trav_item n fl) t Q rest.
Proof.
  induction 1 as [Q HQ Hl|g t1 t2 P Q Q' Hg Hh HO HT IH HQ]; intros n Hn.
  - apply eat_loop_nil; [now apply back_miss_trav|exact HQ].
  - rewrite !app_length in Hn. apply (eat_loop_cons _ (g ++ t1) t2 (fun x => exists m o, x = XTrop m o /\ wears (Some g) None m /\ P o)).
    + destruct Hh as (c & t' & -> & _). destruct g; discriminate.
    + apply back_trav_item; auto. lia.
    + intros x (m & o & -> & Hm & Ho). eapply eat_loop_imp; [apply IH; lia|]. cbv beta. auto.
Qed.
Lemma back_look {A} fl w t (Q : A -> Prop) rest (K : st -> bspan -> option str -> parser A) :
  Gap fl w -> clear fl (t ++ rest) ->
  (forall s0 sp, from w (raw_of_span sp) -> eat inp (K s0 sp (l2 (t ++ rest))) t Q rest) ->
  eat inp (fun s0 => (suffix <- pspan (ws_or_sp fl) ;; b <- look2 ;; K s0 suffix b) s0) (w ++ t) Q rest.
Proof.
  intros H1 H2 H o Ht. assert (E : eat inp (suffix <- pspan (ws_or_sp fl) ;; b <- look2 ;; K (mk o ((w ++ t) ++ rest)) suffix b) (w ++ t) Q rest).
  { apply (eat_bind _ _ w t (fun sp => from w (raw_of_span sp))); [apply eat_span_from; [now apply eat_gap|]; auto|]. intros sp Hsp.
    apply (eat_bind _ _ [] t (eq (l2 (t ++ rest)))); [now apply eat_look2|]. intros a <-. now apply H. }
  exact (E o Ht).
Qed.
Lemma back_trav nl t fl (Q : xexpr -> Prop) g t1 t2 P (Qs : list xtrop -> Prop) (Q' : xexpr -> Prop) rest :
  START nl t fl Q ((g ++ t1) ++ t2 ++ rest) -> stable Q -> Gap fl g -> op_head t1 -> OP t1 P (t2 ++ rest) -> TRAV fl rest t2 Qs ->
  (forall m x m' o l, Q x -> wears None (Some g) (x_meta x) -> wears (Some []) None m' -> P o -> Qs l -> Q' (XTrav m x (XTrop m' o :: l))) -> TERM nl (t ++ (g ++ t1) ++ t2) fl Q' rest.
Proof.
  intros H HS Hg Hh HO HT HQ n Hn. apply START_bald in H. rewrite !app_length in Hn. unfold expr_term. apply (eat_bind _ _ [] _ T); [now apply eat_pos|]. intros o _.
  apply (eat_bind _ _ t ((g ++ t1) ++ t2) (fun p => (Q (fst (fst p)) /\ bald (fst (fst p))) /\ snd (fst p) = fl)).
  { apply eat_with_span. rewrite <- app_assoc. eapply eat_imp; [apply H; lia|]. cbn [fst snd]. auto. }
  intros [[e nl'] s] [[He Hb] E]. cbn [fst snd] in *. subst nl'. rewrite <- app_assoc.
  destruct (op_head_gap fl t1 (t2 ++ rest) Hh) as (H1 & H3 & H4).
  apply (back_look fl g (t1 ++ t2)); [exact Hg|now rewrite <- app_assoc|]. intros s0 sp Hsp. rewrite <- app_assoc.
  unfold trav2 in H4. rewrite H4. apply (eat_bind' _ _ _ (t1 ++ t2) [] (fun p => exists m o l, fst p = XTrop m o :: l /\ wears (Some []) None m /\ P o /\ Qs l)); [now rewrite app_nil_r| |].
  - apply eat_with_span. unfold traversal. apply (eat_many1 _ t1 t2 (fun x => exists m o, x = XTrop m o /\ wears (Some []) None m /\ P o)).
    + apply (back_trav_item fl []); auto; [constructor|lia].
    + intros x (m & op & -> & Hm & Ho). eapply eat_loop_imp; [eapply back_trav_loop; [exact HT|lia]|]. intros l Hl sp'. cbn [fst]. eauto 8.
  - intros [ops s'] (m & op & l & E & Hm & Ho & Hl). cbn [fst snd] in *. subst ops. apply eat_ret. cbn [fst snd]. split; [|reflexivity]. cbn [x_upd].
    apply HQ; auto. apply bald_put_suffix; [now apply bald_span|exact Hsp].
Qed.

(** ** Decoration *)
Lemma back_prefix {A} (upd : (meta -> meta) -> A -> A) nl (p : parser A) w t (Q Q' : A -> Prop) rest :
  Gap nl w -> clear nl (t ++ rest) ->
  eat inp p t Q rest -> (forall f g x, Q x -> Q' (upd f (upd g x))) -> eat inp (prefix_decorated upd (ws_or_sp nl) p) (w ++ t) Q' rest.
Proof.
  intros H1 H2 H HQ. unfold prefix_decorated. apply (eat_bind _ _ w t T); [apply eat_pspan; [now apply eat_gap|]; intros; exact I|]. intros a _.
  unfold spanned. apply (eat_bind' _ _ t t [] (fun x => forall f, Q' (upd f x))); [now rewrite app_nil_r| |intros x Hx; now apply eat_ret].
  apply (eat_bind' _ _ t t [] (fun p => Q (fst p))); [now rewrite app_nil_r| |intros [x s] Hx; apply eat_ret; intros f; now apply HQ].
  apply eat_with_span. eapply eat_imp; [exact H|]. auto.
Qed.
Lemma back_suffix {A} (upd : (meta -> meta) -> A -> A) nl (p : parser A) t w (Q Q' : A -> Prop) rest :
  Gap nl w -> clear nl rest ->
  eat inp p t Q (w ++ rest) -> (forall f g x, Q x -> Q' (upd f (upd g x))) -> eat inp (suffix_decorated upd p (ws_or_sp nl)) (t ++ w) Q' rest.
Proof.
  intros H1 H2 H HQ. unfold suffix_decorated, spanned. apply (eat_bind _ _ t w (fun x => forall f, Q' (upd f x))).
  - apply (eat_bind' _ _ t t [] (fun p => Q (fst p))); [now rewrite app_nil_r| |intros [x s] Hx; apply eat_ret; intros f; now apply HQ].
    apply eat_with_span. eapply eat_imp; [exact H|]. auto.
  - intros x Hx. apply (eat_bind' _ _ w w [] T); [now rewrite app_nil_r| |intros; now apply eat_ret]. apply eat_pspan; [now apply eat_gap|]. intros; exact I.
Qed.
Lemma back_decorated {A} (upd : (meta -> meta) -> A -> A) nl nl' (p : parser A) w t w' (Q Q' : A -> Prop) rest :
  Gap nl w -> clear nl (t ++ w' ++ rest) -> Gap nl' w' -> clear nl' rest ->
  eat inp p t Q (w' ++ rest) -> (forall f g x, Q x -> Q' (upd f (upd g x))) ->
  eat inp (decorated upd (ws_or_sp nl) p (ws_or_sp nl')) (w ++ t ++ w') Q' rest.
Proof.
  intros H1 H2 H4 H5 H HQ. unfold decorated. apply (eat_bind _ _ w (t ++ w') T); [apply eat_pspan; [apply eat_gap; auto; now rewrite <- app_assoc|]; intros; exact I|]. intros a _.
  unfold spanned. apply (eat_bind _ _ t w' (fun x => forall f, Q' (upd f x))).
  - apply (eat_bind' _ _ t t [] (fun p => Q (fst p))); [now rewrite app_nil_r| |intros [x s] Hx; apply eat_ret; intros f; now apply HQ].
    apply eat_with_span. eapply eat_imp; [exact H|]. auto.
  - intros x Hx. apply (eat_bind' _ _ w' w' [] T); [now rewrite app_nil_r| |intros; now apply eat_ret]. apply eat_pspan; [now apply eat_gap|]. intros; exact I.
Qed.
(** The same, with what is left on the node. *)
Lemma worn_prefix {A} (upd : (meta -> meta) -> A -> A) (get : A -> meta) nl (p : parser A) w t (Q Q' : A -> Prop) rest :
  (forall f x, get (upd f x) = f (get x)) -> Gap nl w -> clear nl (t ++ rest) ->
  eat inp p t Q rest -> (forall f g x, Q x -> (d_suffix (m_decor (get x)) = None -> wears (Some w) None (get (upd f (upd g x)))) -> Q' (upd f (upd g x))) ->
  eat inp (prefix_decorated upd (ws_or_sp nl) p) (w ++ t) Q' rest.
Proof.
  intros HG H1 H2 H HQ. unfold prefix_decorated. apply (eat_bind _ _ w t (fun sp => from w (raw_of_span sp))); [apply eat_span_from; [now apply eat_gap|]; auto|]. intros a Ha.
  unfold spanned. apply (eat_bind' _ _ t t [] (fun x => Q' (upd (set_prefix (raw_of_span a)) x))); [now rewrite app_nil_r| |intros x Hx; now apply eat_ret].
  apply (eat_bind' _ _ t t [] (fun p => Q (fst p))); [now rewrite app_nil_r| |].
  2: { intros [x s] Hx. apply eat_ret. apply HQ; [exact Hx|]. intros Hs. rewrite !HG. split; cbn; [exact Ha|now rewrite Hs]. }
  apply eat_with_span. eapply eat_imp; [exact H|]. auto.
Qed.
Lemma worn_suffix {A} (upd : (meta -> meta) -> A -> A) (get : A -> meta) nl (p : parser A) t w (Q Q' : A -> Prop) rest :
  (forall f x, get (upd f x) = f (get x)) -> Gap nl w -> clear nl rest ->
  eat inp p t Q (w ++ rest) -> (forall f g x, Q x -> (d_prefix (m_decor (get x)) = None -> wears None (Some w) (get (upd f (upd g x)))) -> Q' (upd f (upd g x))) ->
  eat inp (suffix_decorated upd p (ws_or_sp nl)) (t ++ w) Q' rest.
Proof.
  intros HG H1 H2 H HQ. unfold suffix_decorated, spanned. apply (eat_bind _ _ t w (fun x => forall sp, from w (raw_of_span sp) -> Q' (upd (set_suffix (raw_of_span sp)) x))).
  - apply (eat_bind' _ _ t t [] (fun p => Q (fst p))); [now rewrite app_nil_r| |].
    2: { intros [x s] Hx. apply eat_ret. intros sp Hsp. apply HQ; [exact Hx|]. intros Hs. rewrite !HG. split; cbn; [now rewrite Hs|exact Hsp]. }
    apply eat_with_span. eapply eat_imp; [exact H|]. auto.
  - intros x Hx. apply (eat_bind' _ _ w w [] (fun sp => from w (raw_of_span sp))); [now rewrite app_nil_r| |intros; apply eat_ret; auto]. apply eat_span_from; [now apply eat_gap|]. auto.
Qed.
Lemma worn_decorated {A} (upd : (meta -> meta) -> A -> A) (get : A -> meta) nl nl' (p : parser A) w t w' (Q Q' : A -> Prop) rest :
  (forall f x, get (upd f x) = f (get x)) -> Gap nl w -> clear nl (t ++ w' ++ rest) -> Gap nl' w' -> clear nl' rest ->
  eat inp p t Q (w' ++ rest) -> (forall f g x, Q x -> wears (Some w) (Some w') (get (upd f (upd g x))) -> Q' (upd f (upd g x))) ->
  eat inp (decorated upd (ws_or_sp nl) p (ws_or_sp nl')) (w ++ t ++ w') Q' rest.
Proof.
  intros HG H1 H2 H4 H5 H HQ. unfold decorated.
  apply (eat_bind _ _ w (t ++ w') (fun sp => from w (raw_of_span sp))); [apply eat_span_from; [apply eat_gap; auto; now rewrite <- app_assoc|]; auto|]. intros a Ha.
  unfold spanned. apply (eat_bind _ _ t w' (fun x => forall sp, from w' (raw_of_span sp) -> Q' (upd (fun m => set_suffix (raw_of_span sp) (set_prefix (raw_of_span a) m)) x))).
  - apply (eat_bind' _ _ t t [] (fun p => Q (fst p))); [now rewrite app_nil_r| |].
    2: { intros [x s] Hx. apply eat_ret. intros sp Hsp. apply HQ; [exact Hx|]. rewrite !HG. split; cbn; [exact Ha|exact Hsp]. }
    apply eat_with_span. eapply eat_imp; [exact H|]. auto.
  - intros x Hx. apply (eat_bind' _ _ w' w' [] (fun sp => from w' (raw_of_span sp))); [now rewrite app_nil_r| |intros; apply eat_ret; auto]. apply eat_span_from; [now apply eat_gap|]. auto.
Qed.
Definition op_meta (o : xop) : meta :=
  match o with XAttrSplat m | XFullSplat m | XLegacy m _ => m | XGetAttr i => i_meta i | XIndex e => x_meta e end.
Lemma op_meta_upd f o : op_meta (op_upd f o) = f (op_meta o).
Proof. destruct o; try reflexivity. apply x_meta_upd. Qed.
Lemma worn_dexpr n nl w t w' (Q Q' : xexpr -> Prop) rest : stable Q -> opens t -> EXPR nl t Q (w' ++ rest) -> (length t < n)%nat ->
  Gap true w -> Gap true w' -> clear true rest -> (forall x, Q x -> wears (Some w) (Some w') (x_meta x) -> Q' x) ->
  eat inp (decorated_expr (r_expr (Rn n) nl)) (w ++ t ++ w') Q' rest.
Proof.
  intros HS Ho H Hn H1 H2 H3 HQ. unfold decorated_expr. apply (worn_decorated x_upd x_meta true true _ w t w' Q Q' rest); auto using x_meta_upd.
  - now apply opens_clear.
  - now apply EXPR_rec.
Qed.
Lemma back_dexpr n nl w t w' (Q : xexpr -> Prop) rest : stable Q -> opens t -> EXPR nl t Q (w' ++ rest) -> (length t < n)%nat ->
  Gap true w -> Gap true w' -> clear true rest ->
  eat inp (decorated_expr (r_expr (Rn n) nl)) (w ++ t ++ w') Q rest.
Proof.
  intros HS Ho H Hn H1 H2 H3. unfold decorated_expr. apply (back_decorated x_upd true true _ w t w' Q Q rest); auto.
  - now apply opens_clear.
  - now apply EXPR_rec.
Qed.

(** ** Traversal operators *)
Lemma clear_id nl x r : is_ident u x = true -> clear nl (x ++ r).
Proof.
  intros Hx. destruct x as [|c x]; [discriminate|]. cbn [is_ident] in Hx. apply andb_true_iff in Hx. destruct Hx as [Hs _]. apply clear_down. split.
  - cbn [app ends]. unfold blank, is_multispace. rewrite !(id_start_not u HU c) by (try exact Hs; try lia; reflexivity). reflexivity.
  - unfold nocomment. change (lit "//") with [47; 47]. change (lit "/*") with [47; 42]. cbn [app starts_with]. rewrite (N.eqb_sym 35 c), (N.eqb_sym 47 c).
    rewrite !(id_start_not u HU c) by (try exact Hs; try lia; reflexivity). reflexivity.
Qed.
Lemma clear_digit nl c r : is_digit c = true -> clear nl (c :: r).
Proof.
  intros Hd. assert (L : forall q, is_digit q = false -> (c =? q) = false) by (intros q Hq; destruct (N.eqb_spec c q); [congruence|reflexivity]).
  apply clear_down. split.
  - cbn [ends]. unfold blank, is_multispace. now rewrite !L by reflexivity.
  - unfold nocomment. change (lit "//") with [47; 47]. change (lit "/*") with [47; 42]. cbn [starts_with]. rewrite (N.eqb_sym 35 c), (N.eqb_sym 47 c). now rewrite !L by reflexivity.
Qed.
Lemma back_attr g x (Q : xop -> Prop) rest : Gap true g -> is_ident u x = true -> ends (is_id_continue u) rest -> (forall m, wears (Some g) None m -> Q (XGetAttr (Did m x))) -> OP ([46] ++ g ++ x) Q rest.
Proof.
  intros Hg Hx He HQ n _. unfold traversal_operator. apply (eat_bind _ _ [46] (g ++ x) (eq 46)); [now apply eat_any|]. intros c <-. cbn [N.eqb Pos.eqb].
  apply (worn_prefix op_upd op_meta true _ g x (eq (XGetAttr (Did no_meta x)))); [apply op_meta_upd|exact Hg|now apply clear_id| |].
  - destruct x as [|c x]; [discriminate|]. pose proof Hx as Hs. cbn [is_ident] in Hs. apply andb_true_iff in Hs. destruct Hs as [Hs _].
    apply eat_dispatch. rewrite !(id_start_not u HU c) by (try exact Hs; try lia; reflexivity). rewrite (id_start_digit u HU c Hs), Hs. apply eat_pmap. unfold ident. apply eat_pmap.
    apply eat_str_ident; auto.
  - intros f h o <- Hw. cbn. apply HQ. exact (Hw eq_refl).
Qed.
Lemma back_splat g (Q : xop -> Prop) rest : Gap true g -> (forall m, wears (Some g) None m -> Q (XAttrSplat m)) -> OP ([46] ++ g ++ [42]) Q rest.
Proof.
  intros Hg HQ n _. unfold traversal_operator. apply (eat_bind _ _ [46] (g ++ [42]) (eq 46)); [now apply eat_any|]. intros c <-. cbn [N.eqb Pos.eqb].
  apply (worn_prefix op_upd op_meta true _ g [42] (eq (XAttrSplat no_meta))); [apply op_meta_upd|exact Hg|split; reflexivity| |intros f h o <- Hw; cbn; apply HQ; exact (Hw eq_refl)].
  apply eat_dispatch. cbn [N.eqb Pos.eqb]. apply (eat_bind _ _ [42] [] T); [now apply eat_char|]. intros _ _. now apply eat_ret.
Qed.
Lemma back_full g g' (Q : xop -> Prop) rest : Gap true g -> Gap true g' -> (forall m, wears (Some g) (Some g') m -> Q (XFullSplat m)) -> OP ([91] ++ (g ++ [42] ++ g') ++ [93]) Q rest.
Proof.
  intros Hg Hg' HQ n _. unfold traversal_operator. apply (eat_bind _ _ [91] _ (eq 91)); [now apply eat_any|]. intros c <-. cbn [N.eqb Pos.eqb].
  apply (eat_bind _ _ (g ++ [42] ++ g') [93] (fun o => exists m, o = XFullSplat m /\ wears (Some g) (Some g') m)).
  - apply (worn_decorated op_upd op_meta true true _ g [42] g' (fun o => exists m, o = XFullSplat m)); [apply op_meta_upd|exact Hg|split; reflexivity|exact Hg'|split; reflexivity| |intros f h o (m & ->) Hw; cbn in *; eauto].
    apply eat_dispatch. cbn [N.eqb Pos.eqb]. apply (eat_bind _ _ [42] [] T); [now apply eat_char|]. intros _ _. apply eat_ret. eauto.
  - intros o (m & -> & Hw). apply (eat_bind _ _ [93] [] T); [apply eat_cut; now apply eat_char|]. intros _ _. apply eat_ret. auto.
Qed.
Lemma back_index g t g' (P : xexpr -> Prop) (Q : xop -> Prop) rest : Gap true g -> Gap true g' -> opens t -> stable P -> EXPR true t P (g' ++ [93] ++ rest) ->
  (forall x, P x -> wears (Some g) (Some g') (x_meta x) -> Q (XIndex x)) -> OP ([91] ++ (g ++ t ++ g') ++ [93]) Q rest.
Proof.
  intros Hg Hg' Ho HP H HQ n Hn. rewrite !app_length in Hn. cbn [length] in Hn. unfold traversal_operator. apply (eat_bind _ _ [91] _ (eq 91)); [now apply eat_any|]. intros c <-. cbn [N.eqb Pos.eqb].
  apply (eat_bind _ _ (g ++ t ++ g') [93] (fun o => exists x, o = XIndex x /\ P x /\ wears (Some g) (Some g') (x_meta x))).
  - apply (worn_decorated op_upd op_meta true true _ g t g' (fun o => exists x, o = XIndex x /\ P x)); [apply op_meta_upd|exact Hg|now apply opens_clear|exact Hg'|split; reflexivity| |].
    + destruct Ho as (c & t' & E & Hc & _). rewrite E. apply eat_dispatch. rewrite (first_char_not u HU c 42) by (try exact Hc; try lia; reflexivity).
      rewrite <- E. apply eat_pmap. eapply eat_imp; [apply EXPR_rec; [exact H|lia]|]. eauto.
    + intros f h o (x & -> & Hx) Hw. cbn in *. eauto 6.
  - intros o (x & -> & Hx & Hw). apply (eat_bind _ _ [93] [] T); [apply eat_cut; now apply eat_char|]. intros _ _. now apply eat_ret; auto.
Qed.
Lemma back_legacy g k (Q : xop -> Prop) rest : Gap true g -> (Z.of_N k <= u64_max)%Z -> ends is_digit rest -> (forall m, wears (Some g) None m -> Q (XLegacy m k)) -> OP ([46] ++ g ++ show_N k) Q rest.
Proof.
  intros Hg Hk He HQ n _. unfold traversal_operator. apply (eat_bind _ _ [46] _ (eq 46)); [now apply eat_any|]. intros c <-. cbn [N.eqb Pos.eqb].
  destruct (show_N_head k) as (c & r & E & Hc & Hd). pose proof (show_N_digits k) as Hds. rewrite E in Hds. cbn [forallb] in Hds. apply andb_true_iff in Hds. destruct Hds as [_ Hr].
  assert (L : forall q, is_digit q = false -> (c =? q) = false) by (intros q Hq; destruct (N.eqb_spec c q); [congruence|reflexivity]).
  apply (worn_prefix op_upd op_meta true _ g (show_N k) (eq (XLegacy no_meta k))); [apply op_meta_upd|exact Hg|rewrite E; now apply clear_digit| |].
  - rewrite E. apply eat_dispatch. rewrite L by reflexivity. rewrite Hd. apply eat_pmap. unfold dec_uint. apply eat_verify_map, eat_taken.
    + destruct (N.eqb_spec 48 c) as [<-|Hn].
      * apply eat_alt2; [apply miss_bind1, miss_one_of; reflexivity|]. destruct Hc as [Hc | ->]; [congruence|].
        apply (eat_bind _ _ [48] [] T); [now apply eat_char|]. intros _ _. now apply eat_ret.
      * apply eat_alt1. apply (eat_bind _ _ [c] r T).
        { apply eat_one_of; [|exact I]. unfold is_digit in Hd. rewrite andb_true_iff, !N.leb_le in *. lia. }
        intros _ _. apply (eat_bind' _ _ r r [] T); [now rewrite app_nil_r|now apply eat_take_while0|]. intros _ _. now apply eat_ret.
    + cbv beta zeta. rewrite <- E, digits_show. apply Z.leb_le in Hk. rewrite Hk. eauto.
  - intros f h o <- Hw. cbn. apply HQ. exact (Hw eq_refl).
Qed.

(** ** Operators *)
Notation loopp n k fl o x := (fun s => expr_loop pratt_group (Rn n) k fl o x s).
Lemma back_opn nl t fl (Q : xexpr -> Prop) rest : OPN nl t fl Q rest -> follows (fun r => unbin r && uncond r) fl rest -> EXPR nl t Q rest.
Proof.
  intros H (r & Hr & Hf) n Hn o Ht. destruct (H n Hn o Ht) as (x & k & Hk & HQ & E). exists x. split; [|exact HQ]. rewrite E. destruct k as [|k]; [lia|]. cbn [expr_loop].
  destruct (look_rests fl rest r Hr (o + blen t) (tail_app _ _ _ _ Ht)) as (sp & o' & ->). apply andb_true_iff in Hf. destruct Hf as [Hb Hc].
  apply unbin_ahead in Hb. apply uncond_ahead in Hc. rewrite Hb, Hc. reflexivity.
Qed.
Lemma back_cond nl t fl (Qc : xexpr -> Prop) g1 g2 ta (Qa : xexpr -> Prop) g3 g4 tb (Qb : xexpr -> Prop) (Q : xexpr -> Prop) rest :
  Gap fl g1 -> Gap fl g2 -> Gap fl g3 -> Gap fl g4 ->
  OPN nl t fl (fun x => Qc x /\ bald x) (g1 ++ [63] ++ (g2 ++ ta ++ g3) ++ [58] ++ g4 ++ tb ++ rest) -> EXPR fl ta Qa (g3 ++ [58] ++ g4 ++ tb ++ rest) -> EXPR fl tb Qb rest ->
  opens t -> opens ta -> opens tb -> stable Qc -> stable Qa -> stable Qb ->
  (forall m c x y, Qc c -> wears None (Some g1) (x_meta c) -> Qa x -> wears (Some g2) (Some g3) (x_meta x) -> Qb y -> (lone y -> wears (Some g4) None (x_meta y)) -> Q (XCond m c x y)) ->
  EXPR nl (t ++ g1 ++ [63] ++ (g2 ++ ta ++ g3) ++ [58] ++ g4 ++ tb) Q rest.
Proof.
  intros G1 G2 G3 G4 H Ha Hb Ho Hoa Hob Sc Sa Sb HQ n Hn o Ht. rewrite !app_length in Hn.
  assert (Hl : (1 <= length t)%nat) by (destruct Ho as (c & t' & -> & _); cbn; lia).
  repeat rewrite <- app_assoc in Ht. repeat rewrite <- app_assoc in H. destruct (H n ltac:(lia) o Ht) as (x & k & Hk & [HQc Hbc] & E). destruct k as [|k]; [lia|].
  assert (EE : eat inp (loopp n (S k) fl o x) (g1 ++ [63] ++ (g2 ++ ta ++ g3) ++ [58] ++ g4 ++ tb) Q rest).
  2: { destruct (EE (o + blen t)) as (y & Ey & HQy); [repeat rewrite <- app_assoc; apply tail_app, Ht|]. exists y. split; [|exact HQy].
       repeat rewrite <- app_assoc. rewrite E. repeat rewrite <- app_assoc in Ey. refine (eq_trans Ey _). rewrite (blen_app t). now rewrite N.add_assoc. }
  cbn [expr_loop].
  apply (back_look fl g1 ([63] ++ (g2 ++ ta ++ g3) ++ [58] ++ g4 ++ tb)); [exact G1|destruct fl; split; reflexivity|].
  intros s0 sp1 Hsp1.
  replace (head_is (N.eqb 63) (l2 (([63] ++ (g2 ++ ta ++ g3) ++ [58] ++ g4 ++ tb) ++ rest))) with true
    by (destruct Hoa as (c & t' & -> & _); destruct g2; reflexivity).
  apply (eat_bind' _ _ _ ([63] ++ (g2 ++ ta ++ g3) ++ [58] ++ g4 ++ tb) [] (fun p => (Qa (fst (fst p)) /\ wears (Some g2) (Some g3) (x_meta (fst (fst p)))) /\ Qb (snd (fst p)) /\ (lone (snd (fst p)) -> wears (Some g4) None (x_meta (snd (fst p)))))); [now rewrite app_nil_r| |].
  2: { intros [[y z] s] [[H1 H1'] [H2 H2']]. cbn [fst snd] in *. apply eat_ret. cbn [x_upd]. apply HQ; auto. now apply bald_put_suffix. }
  apply eat_with_span. unfold conditional.
  apply (eat_bind _ _ [63] _ T); [now apply eat_char|]. intros _ _.
  apply (eat_bind _ _ _ _ (fun y => Qa y /\ wears (Some g2) (Some g3) (x_meta y))).
  { apply (worn_decorated x_upd x_meta fl fl _ g2 ta g3 Qa); auto using x_meta_upd; [now apply opens_clear|destruct fl; split; reflexivity|].
    apply EXPR_rec; [|lia]. repeat rewrite <- app_assoc. exact Ha. }
  intros y Hy. apply (eat_bind _ _ [58] _ T); [apply eat_cut; now apply eat_char|]. intros _ _.
  apply (eat_bind' _ _ _ (g4 ++ tb) [] (fun y => Qb y /\ (lone y -> wears (Some g4) None (x_meta y)))); [now rewrite app_nil_r| |].
  - apply (worn_prefix x_upd x_meta fl _ g4 tb (fun x => Qb x /\ bald x)); auto using x_meta_upd; [now apply opens_clear|apply EXPR_rec; [now apply EXPR_bald|lia]|].
    intros f h z [Hx [_ Hs]] Hw. split; [auto|]. rewrite !lone_upd. auto.
  - intros z Hz. apply eat_ret. cbn [fst snd]. auto.
Qed.

(** An operator and what is before and after it. *)
Definition gapped := ((str * str) * binop)%type.
Definition gapped_fits (g : gapped) (o : oper) : Prop := snd o = snd g /\ wears (Some (fst (fst g))) (Some (snd (fst g))) (fst o).
Definition gop_fits (a : gapped * (xexpr -> Prop)) (p : oper * xexpr) : Prop := gapped_fits (fst a) (fst p) /\ snd a (snd p) /\ bald (snd p).
(** Chains of operators.  A slash must not become the start of a comment. *)
Inductive OPS (fl : bool) (rest : str) : str -> list (gapped * (xexpr -> Prop)) -> Prop :=
| OPS_nil : follows unbin fl rest -> OPS fl rest [] []
| OPS_cons o g g' t fl' (Q : xexpr -> Prop) t2 l : Gap fl g -> Gap fl g' -> (o = OpDiv -> ends (N.eqb 47) g') ->
    TERM fl t fl' Q (t2 ++ rest) -> opens t -> OPS fl rest t2 l ->
    OPS fl rest ((g ++ binop_str o ++ g' ++ t) ++ t2) ((g, g', o, Q) :: l).
Notation op_item n fl := (o <- decorated oper_upd (ws_or_sp fl) (pmap (pair no_meta) binary_operator) (ws_or_sp fl) ;; e <- r_term (Rn n) fl ;; ret (o, e)).
Lemma Gap_head nl c g : Gap nl (c :: g) -> blank nl c = true \/ c = 35 \/ c = 47.
Proof.
  intros H. remember (c :: g) as s eqn:E. destruct H as [|d w Hd Hw|x w Hx Hw|h x e w Hn Hh Hx He Hw]; try discriminate.
  - injection E as -> ->. now left.
  - injection E as <- _. auto.
  - destruct Hh as [-> | ->]; injection E as <- _; auto.
Qed.
(** The character after an operator. *)
Lemma op_next fl o g t r : Gap fl g -> (o = OpDiv -> ends (N.eqb 47) g) -> opens t ->
  exists d q, (g ++ t) ++ r = d :: q /\ (d =? 61) = false /\ (d =? 42) = false /\ (o = OpDiv -> (d =? 47) = false).
Proof.
  intros Hg Ho Ht. destruct g as [|d g].
  - destruct Ht as (d & t' & -> & Hd & _). exists d, (t' ++ r). split; [reflexivity|].
    repeat split; try intros _; rewrite (first_char_not u HU d) by (try exact Hd; try lia; reflexivity); reflexivity.
  - exists d, ((g ++ t) ++ r). split; [reflexivity|]. apply Gap_head in Hg. cbn [ends] in Ho. repeat split; [| |intros E; rewrite N.eqb_sym; now apply Ho].
    all: destruct Hg as [Hg | [-> | ->]]; try reflexivity; match goal with |- (?z =? ?q) = false => destruct (N.eqb_spec z q) as [->|]; [destruct fl; discriminate Hg|reflexivity] end.
Qed.
Lemma back_binop o d q : (d =? 61) = false -> (d =? 42) = false -> (o = OpDiv -> (d =? 47) = false) -> eat inp binary_operator (binop_str o) (eq o) (d :: q).
Proof.
  intros H1 H2 H3. assert (M : miss inp (char 61) (d :: q)) by (apply miss_char; cbn [ends]; now rewrite N.eqb_sym).
  unfold binary_operator. destruct o; cbn [binop_str]; lits;
  match goal with |- eat _ _ [?c] _ _ => apply (eat_bind' _ _ [c] [c] [] (eq c)); [reflexivity|now apply eat_any|]
                | |- eat _ _ [?c; ?d] _ _ => apply (eat_bind' _ _ [c; d] [c] [d] (eq c)); [reflexivity|now apply eat_any|] end;
  intros c <-; cbn [N.eqb Pos.eqb]; try now apply eat_ret.
  all: try (match goal with |- eat _ (alt _ _) [_] _ _ => apply eat_alt1 | |- eat _ (alt _ _) [] _ _ => apply eat_alt2; [now apply miss_bind1|now apply eat_ret] end).
  all: try (match goal with |- eat _ _ [?c] _ _ => apply (eat_bind' _ _ [c] [c] [] T); [reflexivity|now apply eat_char|intros _ _; now apply eat_ret] end).
  apply (eat_bind' _ _ [] [] [] T); [reflexivity| |intros _ _; now apply eat_ret]. apply eat_pnot; [|exact I]. apply miss_one_of. cbn [app ends]. now rewrite H2, H3.
Qed.
Lemma back_binop_clear fl o d q : (o = OpDiv -> (d =? 47) = false) -> (d =? 42) = false -> (d =? 61) = false -> clear fl (binop_str o ++ d :: q) /\
  head_is (N.eqb 63) (l2 (binop_str o ++ d :: q)) = false /\ binop_ahead (l2 (binop_str o ++ d :: q)) = true.
Proof.
  intros H1 H2 H3. split.
  - apply clear_down. split; [destruct o; reflexivity|]. unfold nocomment. change (lit "//") with [47; 47]. change (lit "/*") with [47; 42].
    destruct o; cbn [binop_str]; lits; try reflexivity. cbn [app starts_with]. rewrite (N.eqb_sym 47 d), (N.eqb_sym 42 d), H1, H2; reflexivity.
  - split; [destruct o; reflexivity|]. destruct o; try reflexivity. unfold binop_ahead. change (lit "//") with [47; 47]. change (lit "/*") with [47; 42]. change (lit "==") with [61; 61]. rewrite !l2_two.
    change (binop_str OpDiv) with [47]. cbn [app starts_with]. rewrite (N.eqb_sym 47 d), (N.eqb_sym 42 d), H1, H2; reflexivity.
Qed.
Lemma back_op_item n fl o g g' t fl' (Q : xexpr -> Prop) rest : Gap fl g -> Gap fl g' -> (o = OpDiv -> ends (N.eqb 47) g') -> TERM fl t fl' Q rest -> opens t -> (length t < n)%nat ->
  eat inp (op_item n fl) (g ++ binop_str o ++ g' ++ t) (gop_fits (g, g', o, Q)) rest.
Proof.
  intros Hg Hg' Hd H Ho Hn. replace (g ++ binop_str o ++ g' ++ t) with ((g ++ binop_str o ++ g') ++ t) by now rewrite <- !app_assoc.
  destruct (op_next fl o g' t rest Hg' Hd Ho) as (d & q & E & D1 & D2 & D3). destruct (back_binop_clear fl o d q D3 D2 D1) as (B1 & _).
  apply (eat_bind _ _ _ t (gapped_fits (g, g', o))).
  - rewrite <- app_assoc in E. apply (worn_decorated oper_upd fst fl fl _ g (binop_str o) g' (fun p => snd p = o)); auto; [now rewrite E|now apply opens_clear| |now intros f h x Hx Hw; split].
    apply eat_pmap. rewrite E. eapply eat_imp; [now apply back_binop|]. intros a <-. reflexivity.
  - intros mo E'. apply (eat_bind' _ _ t t [] (fun x => Q x /\ bald x)); [now rewrite app_nil_r|eapply TERM_rec; [now apply TERM_bald; exact H|exact Hn]|].
    intros x Hx. apply eat_ret. split; [exact E'|exact Hx].
Qed.
Lemma back_miss_op n fl rest : follows unbin fl rest -> miss inp (op_item n fl) rest.
Proof.
  intros (r & (w & -> & Hw) & Hb). unfold decorated. apply miss_bind1.
  apply (miss_bind2 _ _ w T); [apply eat_pspan; [exact Hw|]; intros; exact I|]. intros sp0 _. apply miss_bind1. unfold spanned. apply miss_bind1, miss_with_span, miss_pmap.
  unfold binary_operator. destruct r as [|c r]; [apply miss_bind1, miss_any|]. apply (miss_bind2 any _ [c] (eq c)); [now apply eat_any|]. intros a <-. cbn [unbin] in Hb.
  destruct (N.eqb_spec c 61) as [->|].
  { apply miss_bind1, miss_char. apply negb_true_iff in Hb. destruct r as [|d r]; [exact I|]. cbn [starts_with] in Hb. rewrite andb_true_r in Hb. exact Hb. }
  destruct (N.eqb_spec c 47) as [->|].
  { cbn [N.eqb Pos.eqb]. apply miss_bind1. destruct r as [|d r]; [discriminate|]. apply (miss_pnot _ [d] T). apply eat_one_of; [|exact I]. cbn [starts_with] in Hb.
    rewrite !andb_true_r in Hb. now rewrite (N.eqb_sym d 47), (N.eqb_sym d 42). }
  lits_in Hb. cbn [existsb] in Hb. rewrite negb_true_iff, !orb_false_iff in Hb. destruct Hb as (E1 & E2 & E3 & E4 & E5 & E6 & E7 & E8 & E9 & _).
  rewrite E1, E2, E3, E4, E5, E6, E7, E8, E9. apply miss_fail.
Qed.
Lemma back_OPS_loop fl rest t l : OPS fl rest t l -> forall n, (length t < n)%nat -> eat_loop inp (op_item n fl) t (Forall2 gop_fits l) rest.
Proof.
  induction 1 as [Hr|o g g' t fl' Q t2 l Hg Hg' Hd HT Ho HO IH]; intros n Hn.
  - apply eat_loop_nil; [now apply back_miss_op|constructor].
  - rewrite !app_length in Hn. apply (eat_loop_cons _ _ t2 (gop_fits (g, g', o, Q))); [destruct g; [destruct o; discriminate|discriminate]|eapply back_op_item; eauto; lia|].
    intros x Hx. eapply eat_loop_imp; [apply IH; lia|]. intros k Hk. now constructor.
Qed.
Notation gtree := (optree (xexpr -> Prop) gapped).
Notation tree := (optree xexpr oper).
Fixpoint gfits (s : gtree) (x : xexpr) : Prop :=
  match s with
  | Leaf Q => Q x
  | Node l o r => exists m xl m' xr, x = XBinary m xl m' (snd o) xr /\ gapped_fits o (m', snd o) /\ (gfits l xl /\ bald xl) /\ gfits r xr /\ bald xr
  end.
Fixpoint alike (s : gtree) (t : tree) : Prop :=
  match s, t with
  | Leaf Q, Leaf x => Q x /\ bald x
  | Node l o r, Node l' o' r' => gapped_fits o o' /\ alike l l' /\ alike r r'
  | _, _ => False
  end.
Lemma alike_bald s t : alike s t -> bald (tree_expr t).
Proof. intros H. apply tree_bald. destruct s, t; cbn in *; try contradiction; auto. apply H. Qed.
Lemma alike_fits (s : gtree) : forall t, alike s t -> gfits s (tree_expr t).
Proof.
  induction s as [Q|l IHl o r IHr]; intros [x|l' o' r']; cbn [alike gfits tree_expr]; try contradiction; [intros [H _]; exact H|]. intros ((E & W) & H1 & H2).
  unfold infix_expr. rewrite E. eexists _, _, _, _. split; [reflexivity|]. split; [split; [reflexivity|exact W]|]. eauto 8 using alike_bald.
Qed.
Lemma alike_build (s : gtree) : forall e ops, head s e -> bald e -> Forall2 gop_fits (tail s) ops -> exists t : tree, alike s t /\ head t = e /\ tail t = ops.
Proof.
  induction s as [Q|l IHl o r IHr]; intros e ops He Hbe Hops; cbn [head tail] in *.
  - inversion Hops; subst. now exists (Leaf e).
  - apply Forall2_app_inv_l in Hops. destruct Hops as (o1 & o2 & H1 & H2 & ->). inversion H2 as [|a p ? ? (E & Hp & Hpb) H3]; subst. destruct p as [o' x]. cbn [fst snd] in *.
    destruct (IHl e o1 He Hbe H1) as (tl & S1 & <- & <-). destruct (IHr x l' Hp Hpb H3) as (tr & S2 & <- & <-). exists (Node tl o' tr). cbn. auto.
Qed.
Lemma alike_root (s : gtree) t : alike s t -> forall n, root_ge snd n s -> root_ge bin n t.
Proof. destruct s as [|l [g o] r], t as [|l' [m o'] r']; cbn; try contradiction; auto. intros ((E & _) & _) n H. cbn in E. now rewrite E. Qed.
Lemma alike_grouped (s : gtree) : forall t, alike s t -> grouped snd s -> grouped bin t.
Proof.
  induction s as [Q|l IHl [g o] r IHr]; intros [x|l' [m o'] r']; cbn [alike grouped]; try contradiction; auto. intros ((E & _) & S1 & S2) (G1 & G2 & G3 & G4). cbn [snd] in *. subst o'.
  repeat split; eauto using alike_root.
Qed.
Lemma gfits_ops l ops : Forall2 gop_fits l ops -> opsof ops = map (fun a => snd (fst a)) l.
Proof. induction 1 as [|a p l ops ((E & _) & _) _ IH]; [reflexivity|]. cbn [opsof map]. f_equal; [exact E|exact IH]. Qed.
Lemma opn_bald nl t fl (Q : xexpr -> Prop) rest : TERM nl t fl Q rest -> OPN nl t fl (fun x => Q x /\ bald x) rest.
Proof. intros H. apply opn_term, TERM_bald, H. Qed.
Lemma back_binary nl t fl (s : gtree) o g g' t1 fl1 (Q1 : xexpr -> Prop) t2 l rest :
  Gap fl g -> Gap fl g' -> (o = OpDiv -> ends (N.eqb 47) g') ->
  TERM nl t fl (head s) ((g ++ binop_str o ++ g' ++ t1) ++ t2 ++ rest) ->
  TERM fl t1 fl1 Q1 (t2 ++ rest) -> opens t1 -> OPS fl rest t2 l -> tail s = (g, g', o, Q1) :: l ->
  grouped snd s -> ~ chained (map (fun a => snd (fst a)) (tail s)) -> opens t ->
  OPN nl (t ++ (g ++ binop_str o ++ g' ++ t1) ++ t2) fl (fun x => gfits s x /\ bald x) rest.
Proof.
  intros Hgg Hg' Hd H H1 Ho1 HO Etl HG HC Ho n Hn p Ht. assert (Hl : (1 <= length t)%nat) by (destruct Ho as (c & t' & -> & _); cbn; lia).
  remember (g ++ binop_str o ++ g' ++ t1) as ti eqn:Eti.
  rewrite <- !app_assoc in Ht |- *. rewrite !app_length in Hn. destruct (opn_bald _ _ _ _ _ H n ltac:(lia) p Ht) as (x & k & Hk & [HQ Hbx] & E). rewrite E.
  destruct k as [|k]; [lia|]. cbn [expr_loop].
  destruct (op_next fl o g' t1 (t2 ++ rest) Hg' Hd Ho1) as (d & q & Eq & D1 & D2 & D3). destruct (back_binop_clear fl o d q D3 D2 D1) as (B1 & EB1 & EB2).
  assert (Esk : ti ++ t2 ++ rest = g ++ binop_str o ++ d :: q) by (rewrite Eti, <- Eq; now rewrite <- !app_assoc).
  pose proof (tail_app _ _ _ _ Ht) as Ht1.
  assert (R : rests fl (ti ++ t2 ++ rest) (binop_str o ++ d :: q)) by (rewrite Esk; now apply rests_gap).
  destruct (look_rests fl (ti ++ t2 ++ rest) _ R (p + blen t) Ht1) as (sp & o' & EL).
  assert (EO : eat inp (binary_ops (Rn n) fl) (ti ++ t2) (Forall2 gop_fits (tail s)) rest).
  { rewrite Etl. unfold binary_ops. apply (eat_many1 _ ti t2 (gop_fits (g, g', o, Q1))).
    - rewrite Eti. eapply back_op_item; eauto. rewrite Eti, !app_length in Hn. lia.
    - intros y Hy. eapply eat_loop_imp; [eapply back_OPS_loop; [exact HO|lia]|]. intros q' Hq. now constructor. }
  destruct (EO (p + blen t)) as (ops & Eops & Hops); [now rewrite <- app_assoc|]. rewrite <- app_assoc in Eops.
  destruct (pratt_group_spec x ops) as (tr & rem & Eg & Hg & Hh & Htl & Hrem).
  assert (rem = []) as -> by (apply Hrem; now rewrite (gfits_ops _ _ Hops)). rewrite app_nil_r in Htl.
  destruct (alike_build s x ops HQ Hbx Hops) as (tr' & Hs & Hh' & Ht').
  assert (tr = tr') as -> by (apply (grouped_unique bin); [exact Hg|eapply alike_grouped; eauto|exact (eq_trans Hh (eq_sym Hh'))|exact (eq_trans (eq_sym Htl) (eq_sym Ht'))]).
  pose proof (alike_fits _ _ Hs) as Hfit. pose proof (alike_bald _ _ Hs) as Hbt.
  eexists (x_upd _ (tree_expr tr')), k. split; [|split].
  - rewrite !app_length in Hk. assert (1 <= length ti)%nat by (rewrite Eti, !app_length; destruct o; cbn; lia). lia.
  - split; [|now apply bald_span]. destruct s as [Qs|sl so sr]; [discriminate Etl|]. cbn [gfits] in *. destruct Hfit as (m & xl & m' & xr & -> & F1 & F2 & F3). cbn [x_upd]. eauto 10.
  - rewrite EL, EB1, EB2. unfold bind at 1, with_span. rewrite Eops. rewrite Eg. rewrite (blen_app t), N.add_assoc. reflexivity.
Qed.

(** ** Prefix operators and parentheses *)
Lemma back_paren nl g t g' (P Q : xexpr -> Prop) rest : Gap true g -> Gap true g' -> opens t -> stable P -> EXPR true t P (g' ++ [41] ++ rest) -> (forall m x, P x -> wears (Some g) (Some g') (x_meta x) -> Q (XParen m x)) ->
  START nl ([40] ++ (g ++ t ++ g') ++ [41]) nl Q rest.
Proof.
  intros Hg Hg' Ho HP H HQ n Hn. rewrite !app_length in Hn. cbn [length] in Hn. unfold term_start. cbn [app]. apply eat_dispatch. cbn [N.eqb Pos.eqb].
  change (is_digit 40) with false. cbn iota. apply eat_pmap. cbn [fst snd]. unfold parenthesis.
  apply (eat_bind _ _ [40] ((g ++ t ++ g') ++ [41]) T); [apply eat_cut; now apply eat_char|]. intros _ _. apply (eat_bind _ _ (g ++ t ++ g') [41] (fun x => P x /\ wears (Some g) (Some g') (x_meta x))).
  - apply (worn_dexpr _ _ _ _ _ P); auto; [lia|split; reflexivity].
  - intros x [Hx Hw]. apply (eat_bind _ _ [41] [] T); [apply eat_cut; now apply eat_char|]. intros _ _. apply eat_ret. auto.
Qed.
Lemma back_unary_op n nl o g t fl (P Q : xexpr -> Prop) rest : Gap false g -> opens t -> stable P -> TERM nl t fl P rest -> (length t < n)%nat -> (forall m s x, P x -> (lone x -> wears (Some g) None (x_meta x)) -> Q (XUnary m s o x)) ->
  eat inp (unary_op (Rn n) nl) (unop_str o ++ g ++ t) Q rest.
Proof.
  intros Hg Ho HP H Hn HQ. unfold unary_op. apply (eat_bind _ _ _ (g ++ t) (fun p => fst p = o)); [apply eat_with_span; eapply eat_imp; [apply eat_unop|]; intros a <- sp1; reflexivity|].
  intros [o' s] E. cbn [fst] in E. subst o'. apply (eat_bind' _ _ (g ++ t) (g ++ t) [] (fun x => P x /\ (lone x -> wears (Some g) None (x_meta x)))); [now rewrite app_nil_r| |intros x [Hx Hw]; apply eat_ret; auto].
  apply (worn_prefix x_upd x_meta false _ g t (fun x => P x /\ bald x)); auto using x_meta_upd; [now apply opens_clear|eapply TERM_rec; [now apply TERM_bald; exact H|exact Hn]|].
  intros f h x [Hx [_ Hs]] Hw. split; [auto|]. rewrite !lone_upd. auto.
Qed.
Lemma back_unary nl o g t fl (P Q : xexpr -> Prop) rest : Gap false g -> opens t -> stable P -> TERM nl t fl P rest -> (o = Neg -> ends is_digit t) -> (forall m s x, P x -> (lone x -> wears (Some g) None (x_meta x)) -> Q (XUnary m s o x)) ->
  START nl (unop_str o ++ g ++ t) nl Q rest.
Proof.
  intros Hg Ho HP H Hd HQ n Hn. rewrite !app_length in Hn. unfold term_start.
  assert (L : length (unop_str o) = 1%nat) by (destruct o; reflexivity).
  assert (EU : eat inp (unary_op (Rn n) nl) (unop_str o ++ g ++ t) Q rest) by (eapply back_unary_op; eauto; lia).
  destruct o; change (unop_str Neg) with [45] in *; change (unop_str Not) with [33] in *; cbn [app] in *; apply eat_dispatch; cbn [N.eqb Pos.eqb].
  - change (is_digit 45) with false. cbn iota. apply eat_pmap. cbn [fst snd]. apply eat_alt2; [|eapply eat_imp; [exact EU|auto]].
    unfold neg_number. apply miss_bind1, miss_with_taken. cbn [app]. rewrite <- app_assoc. apply (miss_bind2 (char 45) _ [45] T (g ++ t ++ rest)); [now apply eat_char|]. intros _ _.
    apply (miss_bind2 sp _ g T (t ++ rest)); [apply (eat_gap false); [exact Hg|now apply opens_clear]|]. intros _ _. apply miss_number.
    destruct Ho as (c & t' & -> & _). apply (Hd eq_refl).
  - change (is_digit 33) with false. cbn iota. apply eat_pmap. cbn [fst snd]. eapply eat_imp; [exact EU|auto].
Qed.
End Expr.

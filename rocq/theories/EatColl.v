(** * Parsing succeeds: arrays, objects, calls and for expressions *)
From Coq Require Import NArith ZArith Arith Bool String List Lia.
From Verif Require Import Res Str Dec NumberModel PrimModel PrimProofs EAst ParseBase ParseModel ParseLemmas Grammar Eat StrSpec StrProofs EatLeaf EatExpr.
Import ListNotations.
Open Scope N_scope.

Notation multi w := (forallb is_multispace w = true).
(** Predicates for each element of a list. *)
Definition alls {A} (l : list (A -> Prop)) (xs : list A) : Prop := Forall2 (fun (Q : A -> Prop) x => Q x) l xs.

Section Coll.
Context {inp : str} (u : unicode) (b : build) (pf : str -> f64).
Context (HU : ascii_exact u).
Notation Rn n := (recs_at u b pf pratt_group items_insert n).
Notation START := (@START inp u b pf).
Notation EXPR := (@EXPR inp u b pf).
Notation opens := (opens u).

(** ** The word [for] *)
Notation for_ahead := (ws ;; tag (lit "for") ;; one_of (fun c => (c =? 32) || (c =? 9) || (c =? 35) || (c =? 47) || (c =? 10))).
Lemma cont_letter c : c < 128 -> is_ascii_letter c = true -> is_id_continue u c = true.
Proof. intros H L. unfold is_id_continue. destruct (HU c H) as [_ ->]. now rewrite L. Qed.
Lemma cont_not c k : is_id_continue u c = true -> k < 128 -> is_ascii_letter k || is_digit k || (k =? 95) || (k =? 45) = false -> (c =? k) = false.
Proof.
  intros H Hk Hn. destruct (N.eqb_spec c k) as [->|]; [|reflexivity]. unfold is_id_continue in H. destruct (HU k Hk) as [_ E]. rewrite E in H. congruence.
Qed.
Lemma miss_for w t r : multi w -> opens t -> ends (is_id_continue u) r -> miss inp for_ahead (w ++ t ++ r).
Proof.
  intros Hw Ho Hr. apply (miss_bind2 ws _ w EatLeaf.T (t ++ r)); [apply (eat_blank true); [exact Hw|now apply (opens_ends u HU true)|now apply (opens_nocomment u HU)]|]. intros _ _.
  destruct (starts_with (lit "for") (t ++ r)) eqn:E; [|now apply miss_bind1, miss_tag].
  destruct Ho as (c & t' & -> & Hc & Hs). lits_in E. cbn [app starts_with] in E. apply andb_true_iff in E. destruct E as [E1 E]. apply N.eqb_eq in E1. subst c.
  assert (Hs' : is_id_start u 102 = true). { unfold is_id_start. destruct (HU 102) as [-> _]; [lia|reflexivity]. }
  destruct (Hs Hs') as (x & r0 & Ex & Hx & He & Hf). destruct x as [|c x]; [discriminate|]. injection Ex as <- ->.
  rewrite <- app_assoc in E. change ((102 :: x ++ r0) ++ r) with (102 :: ((x ++ r0) ++ r)). rewrite <- app_assoc. assert (He' : ends (is_id_continue u) (r0 ++ r)) by (destruct r0; auto).
  assert (C : forall k (s : str) , k < 128 -> is_ascii_letter k = true -> (match s with [] => false | y :: _ => (k =? y) end) = true -> ends (is_id_continue u) s -> False).
  { intros k s Hk Hl Ek Hs0. destruct s as [|y s]; [discriminate|]. apply N.eqb_eq in Ek. subst y. cbn in Hs0. rewrite cont_letter in Hs0 by auto. discriminate. }
  destruct x as [|c1 x].
  { exfalso. apply (C 111 (r0 ++ r)); auto; [lia|]. cbn [app] in E. destruct (r0 ++ r); [discriminate|]. apply andb_true_iff in E. apply E. }
  cbn [app] in E. apply andb_true_iff in E. destruct E as [E1 E]. apply N.eqb_eq in E1. subst c1.
  destruct x as [|c2 x].
  { exfalso. apply (C 114 (r0 ++ r)); auto; [lia|]. cbn [app] in E. destruct (r0 ++ r); [discriminate|]. apply andb_true_iff in E. apply E. }
  cbn [app] in E. apply andb_true_iff in E. destruct E as [E1 E]. apply N.eqb_eq in E1. subst c2.
  destruct x as [|c3 x]; [now contradiction Hf|]. cbn [is_ident forallb] in Hx. rewrite !andb_true_iff in Hx. destruct Hx as (_ & _ & _ & H3 & _).
  change (102 :: (111 :: 114 :: c3 :: x) ++ r0 ++ r) with (102 :: 111 :: 114 :: c3 :: x ++ r0 ++ r).
  change (102 :: 111 :: 114 :: c3 :: x ++ r0 ++ r) with (lit "for" ++ (c3 :: x ++ r0 ++ r)).
  apply (miss_bind2 (tag (lit "for")) _ (lit "for") EatLeaf.T); [now apply eat_tag|]. intros _ _. apply miss_one_of. cbn [ends app].
  rewrite !(cont_not c3) by (try exact H3; try lia; reflexivity). reflexivity.
Qed.
Lemma miss_for_close c r : is_multispace c = false -> (c =? 35) = false -> (c =? 47) = false -> (102 =? c) = false -> miss inp for_ahead (c :: r).
Proof.
  intros H1 H2 H3 H4. apply (miss_bind2 ws _ [] EatLeaf.T (c :: r)).
  - apply (eat_blank true); [reflexivity|exact H1|]. unfold nocomment. lits. cbn [starts_with]. rewrite (N.eqb_sym 35), (N.eqb_sym 47), H2, H3. reflexivity.
  - intros _ _. apply miss_bind1, miss_tag. lits. cbn [starts_with]. now rewrite H4.
Qed.
Lemma eat_items {A} (f i : parser A) t (Q : A -> Prop) rest : miss inp for_ahead (t ++ rest) -> eat inp i t Q rest -> eat inp (for_expr_or_items f i) t Q rest.
Proof. intros M H o Ht. destruct (M o Ht) as (s' & E). unfold for_expr_or_items. rewrite E. now apply H. Qed.

(** ** Elements separated by commas *)
Definition closes (rest : str) : Prop := exists c r, rest = c :: r /\ (c = 93 \/ c = 41 \/ c = 46).
Lemma closes_clear rest : closes rest -> ends is_multispace rest /\ nocomment rest = true /\ ends (N.eqb 44) rest.
Proof. intros (c & r & -> & [-> |[-> | ->]]); repeat split. Qed.
Inductive MORE (rest : str) : str -> list (xexpr -> Prop) -> Prop :=
| MORE_nil : MORE rest [] []
| MORE_cons w t w' (Q : xexpr -> Prop) t2 l : multi w -> multi w' -> opens t -> stable Q -> EXPR true t Q (w' ++ t2 ++ rest) -> MORE rest t2 l ->
    MORE rest ([44] ++ (w ++ t ++ w') ++ t2) (Q :: l).
Section Guard.
Context {X : Type} (guard : parser X) (guard_ok : forall t r, opens t -> eat inp guard [] EatLeaf.T (t ++ r)).
Notation item n := (decorated_expr (guard ;; r_expr (Rn n) true)).
Lemma eat_item n w t w' (Q : xexpr -> Prop) rest : multi w -> multi w' -> opens t -> stable Q -> EXPR true t Q (w' ++ rest) -> (length t < n)%nat ->
  ends is_multispace rest -> nocomment rest = true -> eat inp (item n) (w ++ t ++ w') Q rest.
Proof.
  intros H1 H2 Ho HS H Hn H3 H4. unfold decorated_expr. apply (eat_decorated x_upd true _ w t w' Q Q rest); auto.
  - apply (opens_ends u HU true), Ho.
  - now apply (opens_nocomment u HU).
  - apply (eat_bind _ _ [] t EatLeaf.T); [now apply guard_ok|]. intros _ _. now apply EXPR_rec.
Qed.
Lemma more_clear rest t2 l : closes rest -> MORE rest t2 l -> ends is_multispace (t2 ++ rest) /\ nocomment (t2 ++ rest) = true.
Proof. intros Hc [|]; [destruct (closes_clear _ Hc) as (? & ? & _); now split|split; reflexivity]. Qed.
Lemma MORE_loop rest t l : closes rest -> MORE rest t l -> forall n, (length t <= n)%nat -> eat_loop inp (char 44 ;; item n) t (alls l) rest.
Proof.
  intros Hc. induction 1 as [|w t w' Q t2 l H1 H2 Ho HS H HM IH]; intros n Hn.
  - apply eat_loop_nil; [apply miss_bind1, miss_char; now apply closes_clear|constructor].
  - rewrite !app_length in Hn. cbn [length] in Hn. destruct (more_clear _ _ _ Hc HM) as [C1 C2]. rewrite app_assoc. apply (eat_loop_cons _ _ t2 Q); [discriminate| |].
    + apply (eat_bind _ _ [44] _ EatLeaf.T); [now apply eat_char|]. intros _ _. apply eat_item; auto. lia.
    + intros x Hx. eapply eat_loop_imp; [apply IH; lia|]. intros k Hk. now constructor.
Qed.
Lemma eat_separated n w t w' (Q : xexpr -> Prop) t2 l rest : closes rest -> multi w -> multi w' -> opens t -> stable Q -> EXPR true t Q (w' ++ t2 ++ rest) -> MORE rest t2 l ->
  (length t < n)%nat -> (length t2 <= n)%nat -> eat inp (separated1 (item n) (char 44)) ((w ++ t ++ w') ++ t2) (alls (Q :: l)) rest.
Proof.
  intros Hc H1 H2 Ho HS H HM L1 L2. destruct (more_clear _ _ _ Hc HM) as [C1 C2]. unfold separated1. apply (eat_bind _ _ _ t2 Q); [now apply eat_item|]. intros x Hx.
  apply (eat_bind' _ _ t2 t2 [] (alls l)); [now rewrite app_nil_r|apply eat_many0; apply MORE_loop; auto|]. intros k Hk. apply eat_ret. now constructor.
Qed.
End Guard.
Lemma eat_raw_ws w r (Q : raw -> Prop) : multi w -> ends is_multispace r -> nocomment r = true -> (forall x, Q x) -> eat inp (raw_string ws) w Q r.
Proof. intros H1 H2 H3 HQ. unfold raw_string. apply eat_pmap, eat_pspan; [now apply (eat_blank true)|]. intros sp0. apply HQ. Qed.

(** ** Arrays *)
Lemma dispatch_array n nl t (Q : xexpr -> Prop) rest : eat inp (array u (Rn n)) ([91] ++ t) Q rest -> eat inp (term_start u b pf items_insert (Rn n) nl) ([91] ++ t) (fun p => Q (fst p) /\ snd p = true) rest.
Proof. intros H. unfold term_start. cbn [app]. apply eat_dispatch. cbn [N.eqb Pos.eqb]. apply eat_pmap. cbn [fst snd]. eapply eat_imp; [exact H|auto]. Qed.
Lemma pnot_guard t r : opens t -> eat inp (pnot (char 93)) [] EatLeaf.T (t ++ r).
Proof. intros (c & t' & -> & Hc & _). apply eat_pnot; [|exact I]. apply miss_char. cbn [ends app]. rewrite N.eqb_sym. now apply (first_char_not u HU c 93). Qed.
Lemma start_array_nil nl (Q : xexpr -> Prop) rest : (forall m t, Q (XArr m [] false t)) -> START nl [91; 93] true Q rest.
Proof.
  intros HQ n _. change [91; 93] with ([91] ++ [93]). apply dispatch_array. unfold array. apply (eat_bind _ _ [91] [93] EatLeaf.T); [now apply eat_char|]. intros _ _.
  apply (eat_bind _ _ [] [93] Q).
  - apply eat_items; [now apply miss_for_close|]. unfold array_items. apply (eat_bind _ _ [] [] (eq [])).
    + unfold separated0. apply eat_pmap. apply eat_opt_none; [|reflexivity]. unfold separated1. apply miss_bind1. unfold decorated_expr, decorated.
      apply (miss_bind2 (pspan ws) _ [] EatLeaf.T ([93] ++ rest)); [apply eat_pspan; [now apply (eat_blank true)|intros; exact I]|]. intros sp0 _.
      apply miss_bind1. unfold spanned. apply miss_bind1, miss_with_span, miss_bind1. apply (miss_pnot _ [93] EatLeaf.T). now apply eat_char.
    + intros l <-. apply (eat_bind _ _ [] [] (eq None)); [apply eat_opt_none; [now apply miss_char|reflexivity]|]. intros c <-.
      apply (eat_bind _ _ [] [] EatLeaf.T); [apply eat_raw_ws; try reflexivity; intros; exact I|]. intros r _. now apply eat_ret.
  - intros x Hx. apply (eat_bind' _ _ _ [93] [] EatLeaf.T); [reflexivity|apply eat_cut; now apply eat_char|]. intros _ _. now apply eat_ret.
Qed.
Lemma start_array nl w t w' (Q : xexpr -> Prop) t2 l (Q' : xexpr -> Prop) rest : multi w -> multi w' -> opens t -> stable Q ->
  EXPR true t Q (w' ++ t2 ++ [93] ++ rest) -> MORE ([93] ++ rest) t2 l -> ends (is_id_continue u) (w' ++ t2 ++ [93] ++ rest) ->
  (forall m xs tr, alls (Q :: l) xs -> Q' (XArr m xs false tr)) -> START nl ([91] ++ ((w ++ t ++ w') ++ t2) ++ [93]) true Q' rest.
Proof.
  intros H1 H2 Ho HS H HM He HQ n Hn. rewrite !app_length in Hn. cbn [length] in Hn. apply dispatch_array. unfold array. apply (eat_bind _ _ [91] _ EatLeaf.T); [now apply eat_char|]. intros _ _.
  assert (Hc : closes ([93] ++ rest)) by (exists 93, rest; auto).
  apply (eat_bind _ _ _ [93] Q').
  - apply eat_items; [repeat rewrite <- app_assoc; now apply miss_for|]. unfold array_items. apply (eat_bind' _ _ _ ((w ++ t ++ w') ++ t2) [] (alls (Q :: l))); [now rewrite app_nil_r| |].
    + unfold separated0. apply eat_pmap. apply eat_opt. cbv beta iota. change ([] ++ [93] ++ rest) with ([93] ++ rest).
      apply eat_separated; auto; [intros; now apply pnot_guard|lia|lia].
    + intros xs Hxs. apply (eat_bind _ _ [] [] (eq None)); [apply eat_opt_none; [now apply miss_char|reflexivity]|]. intros c <-.
      apply (eat_bind _ _ [] [] EatLeaf.T); [apply eat_raw_ws; try reflexivity; intros; exact I|]. intros r _. apply eat_ret. now apply HQ.
  - intros x Hx. apply (eat_bind' _ _ _ [93] [] EatLeaf.T); [reflexivity|apply eat_cut; now apply eat_char|]. intros _ _. now apply eat_ret.
Qed.

(** ** Function calls *)
(** What is between the parentheses of a call: its arguments and the marker "...". *)
Inductive ARGS (rest : str) : str -> list (xexpr -> Prop) -> bool -> Prop :=
| ARGS_nil : ARGS rest [] [] false
| ARGS_cons w t w' (Q : xexpr -> Prop) t2 l (ex : bool) : multi w -> multi w' -> opens t -> stable Q ->
    EXPR true t Q (w' ++ t2 ++ (if ex then lit "..." else []) ++ [41] ++ rest) -> MORE ((if ex then lit "..." else []) ++ [41] ++ rest) t2 l ->
    ARGS rest (((w ++ t ++ w') ++ t2) ++ (if ex then lit "..." else [])) (Q :: l) ex.
Lemma arg_guard t r : opens t -> eat inp (peek (one_of (fun c => negb ((c =? 44) || (c =? 46) || (c =? 41))))) [] EatLeaf.T (t ++ r).
Proof.
  intros (c & t' & -> & Hc & _). change ((c :: t') ++ r) with ([c] ++ t' ++ r). apply eat_peek. apply eat_one_of; [|exact I].
  rewrite (first_char_not u HU c 44), (first_char_not u HU c 46), (first_char_not u HU c 41) by (auto; lia). reflexivity.
Qed.
Definition args_fit (l : list (xexpr -> Prop)) (ex : bool) (a : list xexpr * bool * bool * raw) : Prop :=
  let '(xs, e, co, tr) := a in alls l xs /\ e = ex /\ co = false.
Lemma eat_func_args n t l ex rest : ARGS rest t l ex -> (length t < n)%nat -> eat inp (func_args (Rn n)) ([40] ++ t ++ [41]) (args_fit l ex) rest.
Proof.
  intros HA Hn. unfold func_args. apply (eat_bind _ _ [40] _ EatLeaf.T); [apply eat_cut; now apply eat_char|]. intros _ _. destruct HA as [|w t w' Q t2 l ex H1 H2 Ho HS H HM].
  - apply (eat_bind _ _ [] [41] (eq None)).
    + apply eat_opt_none; [|reflexivity]. apply miss_bind1. unfold separated1. apply miss_bind1. unfold decorated_expr, decorated.
      apply (miss_bind2 (pspan ws) _ [] EatLeaf.T ([41] ++ rest)); [apply eat_pspan; [now apply (eat_blank true)|intros; exact I]|]. intros sp0 _.
      apply miss_bind1. unfold spanned. apply miss_bind1, miss_with_span, miss_bind1, miss_peek, miss_one_of. reflexivity.
    + intros o <-. apply (eat_bind _ _ [] [41] EatLeaf.T); [apply eat_raw_ws; try reflexivity; intros; exact I|]. intros r _.
      apply (eat_bind' _ _ _ [41] [] EatLeaf.T); [reflexivity|apply eat_cut; now apply eat_char|]. intros _ _. apply eat_ret. repeat split. constructor.
  - rewrite !app_length in Hn. set (e := if ex then lit "..." else []) in *.
    apply (eat_bind _ _ _ [41] (fun o => exists xs, o = Some (xs, if ex then Some true else None) /\ alls (Q :: l) xs)).
    + apply eat_opt. assert (Hc : closes (e ++ [41] ++ rest)). { destruct ex; unfold e; [exists 46, (lit ".." ++ [41] ++ rest)|exists 41, rest]; split; auto. }
      apply (eat_bind _ _ _ e (alls (Q :: l))).
      * apply eat_separated; auto; [intros; now apply arg_guard|lia|lia].
      * intros xs Hxs. apply (eat_bind' _ _ _ e [] (eq (if ex then Some true else None))); [now rewrite app_nil_r| |intros o <-; apply eat_ret; exists xs; auto].
        destruct ex; unfold e.
        -- apply eat_opt. unfold trailer. change (lit "...") with ([46] ++ lit ".."). apply (eat_bind _ _ [46] _ (eq 46)); [now apply eat_any|]. intros c <-. cbn [N.eqb Pos.eqb].
           apply (eat_bind' _ _ _ (lit "..") [] EatLeaf.T); [reflexivity|apply eat_cut; now apply eat_tag|]. intros _ _. now apply eat_ret.
        -- apply eat_opt_none; [|reflexivity]. unfold trailer. apply (miss_bind2 any _ [41] (eq 41) rest); [now apply eat_any|]. intros c <-. cbn [N.eqb Pos.eqb]. apply miss_fail.
    + intros o (xs & -> & Hxs). apply (eat_bind _ _ [] [41] EatLeaf.T); [apply eat_raw_ws; try reflexivity; intros; exact I|]. intros r _.
      apply (eat_bind' _ _ _ [41] [] EatLeaf.T); [reflexivity|apply eat_cut; now apply eat_char|]. intros _ _. apply eat_ret. destruct ex; repeat split; exact Hxs.
Qed.
(** A call: identifiers separated by "::", the last one is the name of the function. *)
Definition comps (xs : list str) : str := flat_map (fun x => lit "::" ++ x) xs.
Lemma ident_clear nl x r : is_ident u x = true -> ends (blank nl) (x ++ r) /\ nocomment (x ++ r) = true.
Proof.
  destruct x as [|c x]; [discriminate|]. cbn [is_ident]. intros H. apply andb_true_iff in H. destruct H as [H _]. assert (F : first_char u c = true).
  { unfold first_char. rewrite H. apply orb_true_r || (rewrite ?orb_true_r; reflexivity). }
  split.
  - cbn [ends app]. destruct nl; cbn [blank]; unfold is_multispace, is_space; rewrite ?(first_char_not u HU c 32), ?(first_char_not u HU c 9), ?(first_char_not u HU c 10), ?(first_char_not u HU c 13) by (auto; lia); reflexivity.
  - unfold nocomment. lits. cbn [app starts_with]. rewrite (N.eqb_sym 35), (N.eqb_sym 47), (first_char_not u HU c 35), (first_char_not u HU c 47) by (auto; lia). reflexivity.
Qed.
Lemma eat_did nl w x w' (Q : did -> Prop) rest : forallb (blank nl) w = true -> is_ident u x = true -> forallb (blank nl) w' = true -> ends (is_id_continue u) (w' ++ rest) ->
  ends (blank nl) rest -> nocomment rest = true -> (forall m, Q (Did m x)) -> eat inp (decorated did_upd (ws_or_sp nl) (cut (ident u)) (ws_or_sp nl)) (w ++ x ++ w') Q rest.
Proof.
  intros H1 Hx H2 He H3 H4 HQ. destruct (ident_clear nl x (w' ++ rest) Hx) as [C1 C2]. apply (eat_decorated did_upd nl _ w x w' (fun i => i_name i = x) Q); auto.
  - apply eat_cut. unfold ident. apply eat_pmap. now apply eat_str_ident.
  - intros f g [m y] <-. apply HQ.
Qed.
Lemma comps_ends xs r : ends (is_id_continue u) r -> ends (is_id_continue u) (comps xs ++ r).
Proof. destruct xs; [auto|]. intros _. unfold comps. cbn [flat_map ends app]. lits. cbn [app ends]. unfold is_id_continue. destruct (HU 58) as [_ ->]; [lia|reflexivity]. Qed.
Lemma paren_ends r : ends (is_id_continue u) (40 :: r).
Proof. cbn [ends]. unfold is_id_continue. destruct (HU 40) as [_ ->]; [lia|reflexivity]. Qed.
Lemma eat_comps xs rest nl : forallb (is_ident u) xs = true -> 
  eat_loop inp (tag (lit "::") ;; decorated did_upd (ws_or_sp nl) (cut (ident u)) (ws_or_sp nl)) (comps xs) (fun l => map i_name l = xs) ([40] ++ rest).
Proof.
  induction xs as [|x xs IH]; intros H.
  - apply eat_loop_nil; [|reflexivity]. apply miss_bind1, miss_tag. reflexivity.
  - cbn [forallb] in H. apply andb_true_iff in H. destruct H as [Hx H]. change (comps (x :: xs)) with ((lit "::" ++ x) ++ comps xs).
    apply (eat_loop_cons _ _ _ (fun i => i_name i = x)); [discriminate| |].
    + apply (eat_bind _ _ (lit "::") x EatLeaf.T); [now apply eat_tag|]. intros _ _. replace x with ([] ++ x ++ []) at 1 by now rewrite app_nil_r.
      apply (eat_did nl); auto; [apply comps_ends, paren_ends| |].
      * destruct xs; [destruct nl; reflexivity|]. unfold comps; cbn [flat_map app]. destruct nl; reflexivity.
      * destruct xs; reflexivity.
    + intros i Hi. eapply eat_loop_imp; [now apply IH|]. intros l Hl. cbn [map]. now f_equal.
Qed.
Lemma start_call nl x xs t l ex (Q : xexpr -> Prop) rest : is_ident u x = true -> forallb (is_ident u) xs = true -> ARGS rest t l ex ->
  (forall m ns name m' ys tr, map i_name (ns ++ [name]) = x :: xs -> alls l ys -> Q (XCall m ns name m' ys ex false tr)) ->
  START nl (x ++ comps xs ++ [40] ++ t ++ [41]) true Q rest.
Proof.
  intros Hx Hxs HA HQ n Hn. rewrite !app_length in Hn. cbn [length] in Hn. set (r := comps xs ++ [40] ++ t ++ [41]) in *.
  assert (D : exists c x', x = c :: x' /\ is_id_start u c = true). { destruct x as [|c x']; [discriminate|]. cbn in Hx. apply andb_true_iff in Hx. exists c, x'. tauto. }
  destruct D as (c & x' & Ex & Hc). unfold term_start. rewrite Ex. cbn [app]. apply eat_dispatch.
  rewrite (id_start_not u HU c 34), (id_start_not u HU c 91), (id_start_not u HU c 123), (id_start_digit u HU c), (id_start_not u HU c 60), (id_start_not u HU c 45), (id_start_not u HU c 33), (id_start_not u HU c 40), Hc by (auto; lia).
  change (c :: x' ++ r) with ((c :: x') ++ r). rewrite <- Ex. clear c x' Ex Hc.
  unfold identlike. apply (eat_bind _ _ x r (fun p => fst p = x)).
  { apply eat_with_span. apply eat_str_ident; auto. unfold r. rewrite <- !app_assoc. apply comps_ends, paren_ends. }
  intros [y xs0] Hy. cbn [fst] in Hy. subst y.
  assert (EE : eat inp (suffix <- pspan (ws_or_sp nl) ;; b0 <- look2 ;;
       if opt_seqb b0 (lit "::") || head_is (N.eqb 40) b0 then
         let i := Did (set_span xs0 (set_suffix (raw_of_span suffix) no_meta)) x in
         '(ns, name) <- (if opt_seqb b0 (lit "::") then l <- func_namespace_components u nl ;; lift (match rev l with n :: r => Done (i :: rev r, n) | [] => Panic end) else ret ([], i)) ;;
         '(l, ex, co, tr) <- func_args (Rn n) ;;
         ret (XCall no_meta ns name no_meta l ex co tr, true)
       else fail) r (fun p => Q (fst p) /\ snd p = true) rest).
  2: { intros o Ho. destruct (EE o Ho) as (y & Ey & Hy). exists y. split; [|exact Hy]. clear EE.
       revert Ey. unfold bind. destruct (pspan (ws_or_sp nl) (mk o (r ++ rest))) as [sp0 s1| | |]; try discriminate. unfold look2. cbv zeta beta iota.
       match goal with |- (if ?cnd then _ else _) _ = _ -> _ => destruct cnd; [auto|discriminate] end. }
  apply (eat_bind _ _ [] r EatLeaf.T).
  { apply eat_pspan; [|intros; exact I]. apply eat_blank; [reflexivity| |]; unfold r; destruct xs; cbn [comps flat_map app]; try (destruct nl; reflexivity); reflexivity. }
  intros suf _. apply (eat_bind _ _ [] r (eq (l2 (r ++ rest)))); [now apply eat_look2|]. intros b0 <-.
  change (lit "::") with [58; 58]. rewrite l2_two.
  assert (Hcall : starts_with [58; 58] (r ++ rest) || head_is (N.eqb 40) (l2 (r ++ rest)) = true /\ (xs = [] -> starts_with [58; 58] (r ++ rest) = false) /\ (xs <> [] -> starts_with [58; 58] (r ++ rest) = true)).
  { unfold r. destruct xs as [|z xs]; cbn [comps flat_map app].
    - repeat split; [|now intros]. rewrite orb_true_iff. right. unfold l2. destruct (t ++ [41]) as [|c q] eqn:E; [now destruct t|]. reflexivity.
    - repeat split. intros H; discriminate. }
  destruct Hcall as (-> & Hc1 & Hc2). cbv zeta.
  apply (eat_bind _ _ (comps xs) ([40] ++ t ++ [41]) (fun p => map i_name (fst p ++ [snd p]) = x :: xs)).
  - destruct xs as [|z xs].
    + rewrite Hc1 by reflexivity. now apply eat_ret.
    + rewrite Hc2 by discriminate. unfold func_namespace_components. apply (eat_bind' _ _ _ (comps (z :: xs)) [] (fun l => map i_name l = z :: xs)); [now rewrite app_nil_r| |].
      * rewrite <- app_assoc. change (comps (z :: xs)) with ((lit "::" ++ z) ++ comps xs). cbn [forallb] in Hxs. apply andb_true_iff in Hxs. destruct Hxs as [Hz Hxs].
        apply (eat_many1 _ _ _ (fun i => i_name i = z)).
        -- apply (eat_bind _ _ (lit "::") z EatLeaf.T); [now apply eat_tag|]. intros _ _. replace z with ([] ++ z ++ []) at 1 by now rewrite app_nil_r.
           apply (eat_did nl); auto; [apply comps_ends, paren_ends| |].
           ++ destruct xs; [destruct nl; reflexivity|]. unfold comps; cbn [flat_map app]. destruct nl; reflexivity.
           ++ destruct xs; reflexivity.
        -- intros i Hi. eapply eat_loop_imp; [now apply eat_comps|]. intros k Hk. cbn [map]. now f_equal.
      * intros k Hk. destruct (rev k) as [|i k'] eqn:E.
        { apply (f_equal (@rev did)) in E. rewrite rev_involutive in E. subst k. discriminate. }
        apply (eat_lift _ (Did (set_span xs0 (set_suffix (raw_of_span suf) no_meta)) x :: rev k', i)); [reflexivity|]. cbn [fst snd app map i_name]. f_equal.
        rewrite <- Hk. f_equal. rewrite <- (rev_involutive k), E. reflexivity.
  - intros [ns name] Hp. cbn [fst snd] in Hp. apply (eat_bind' _ _ _ ([40] ++ t ++ [41]) [] (args_fit l ex)); [now rewrite app_nil_r|apply eat_func_args; [exact HA|lia]|].
    intros [[[ys e] co] tr] (H1 & -> & ->). apply eat_ret. cbn [fst snd]. split; [now apply HQ|reflexivity].
Qed.

(** ** Objects *)
Definition key_stable (K : xkey -> Prop) : Prop := forall f k, K k -> K (key_upd f k).
Definition KEY (t : str) (K : xkey -> Prop) (rest : str) : Prop := exists Q, EXPR false t Q rest /\ (forall x, Q x -> K (key_of_expr x)).
Definition okv : Type := (xkey -> Prop) * (xexpr -> Prop).
Definition item_fits (p : okv) (i : xitem) : Prop := match i with XItem k _ v _ => fst p k /\ snd p v end.
Definition apart (p p' : okv) : Prop := forall k k', fst p k -> fst p' k' -> key_eqb k k' = false.
(** What follows an item: a line break or a comma and more items, or the end of the object. *)
Inductive OBJ (rest : str) : str -> list okv -> Prop :=
| OBJ_end w : multi w -> OBJ rest w []
| OBJ_last w tk tv w' (K : xkey -> Prop) (Q : xexpr -> Prop) : multi w -> forallb is_space w' = true -> opens tk -> key_stable K -> KEY tk K (lit " = " ++ tv ++ w' ++ [125] ++ rest) ->
    opens tv -> stable Q -> EXPR false tv Q (w' ++ [125] ++ rest) -> OBJ rest (w ++ tk ++ lit " = " ++ tv ++ w') [(K, Q)]
| OBJ_more w tk tv c (K : xkey -> Prop) (Q : xexpr -> Prop) t2 l : multi w -> c = 10 \/ c = 44 -> opens tk -> key_stable K -> KEY tk K (lit " = " ++ tv ++ [c] ++ t2 ++ [125] ++ rest) ->
    opens tv -> stable Q -> EXPR false tv Q ([c] ++ t2 ++ [125] ++ rest) -> OBJ rest t2 l -> OBJ rest ((w ++ tk ++ lit " = " ++ tv ++ [c]) ++ t2) ((K, Q) :: l).
Lemma insert_apart i acc (p : okv) l : Forall2 item_fits l acc -> item_fits p i -> Forall (fun q => apart q p) l -> items_insert i acc = acc ++ [i].
Proof.
  intros H Hi. induction H as [|q j l acc Hj H IH]; intros Ha; [reflexivity|]. inversion Ha as [|? ? Hq Ha']; subst. cbn [items_insert app].
  destruct i as [k a v t], j as [k' a' v' t']. destruct Hi as [Hi1 Hi2], Hj as [Hj1 Hj2]. cbn [item_key]. rewrite (Hq k' k) by auto. now rewrite IH.
Qed.
Lemma eat_object_item n tr tk tv w' (K : xkey -> Prop) (Q : xexpr -> Prop) te (Qe : bool) rest : (length tk + length tv < n)%nat -> opens tk -> key_stable K ->
  KEY tk K (lit " = " ++ tv ++ w' ++ te ++ rest) -> opens tv -> stable Q -> EXPR false tv Q (w' ++ te ++ rest) -> forallb is_space w' = true -> ends is_space (te ++ rest) -> nocomment (te ++ rest) = true ->
  (forall v, eat inp (item_end v) te (fun p => fst (fst p) = v /\ snd p = Qe) rest) ->
  eat inp (object_item (Rn n) tr) (tk ++ lit " = " ++ tv ++ w' ++ te) (fun p => item_fits (K, Q) (fst p) /\ snd p = Qe) rest.
Proof.
  intros Hn Ho KS (P & HP & HK) Hov HS HV Hw He Hc HE. unfold object_item.
  replace (tk ++ lit " = " ++ tv ++ w' ++ te) with ((tk ++ [32]) ++ [61] ++ ([32] ++ tv ++ w') ++ te) by now rewrite <- !app_assoc.
  apply (eat_bind _ _ _ _ K).
  { unfold object_key. apply (eat_suffix key_upd false _ tk [32] K K); auto; [reflexivity|]. apply eat_pmap. apply (eat_imp _ _ P); [|exact HK].
    apply EXPR_rec; [|lia]. repeat rewrite <- app_assoc in *. exact HP. }
  intros k Hk. apply (eat_bind _ _ [61] _ EatLeaf.T).
  { unfold object_value_assignment. apply (eat_bind' _ _ _ [61] [] (eq 61)); [reflexivity|now apply eat_any|]. intros c <-. cbn [N.eqb Pos.eqb]. now apply eat_ret. }
  intros a _. apply (eat_bind _ _ _ te Q).
  { apply (eat_decorated x_upd false _ [32] tv w' Q Q); auto; [now apply (opens_ends u HU)|now apply (opens_nocomment u HU)|]. apply EXPR_rec; [exact HV|lia]. }
  intros v Hv. apply (eat_bind' _ _ _ te [] (fun p => fst (fst p) = v /\ snd p = Qe)); [now rewrite app_nil_r|apply HE|].
  intros [[v' t] e] [H1 H2]. cbn [fst snd] in *. subst. apply eat_ret. cbn [fst snd item_fits]. auto.
Qed.
Lemma eat_object_loop n rest t l : OBJ rest t l -> (length t < n)%nat -> forall k done acc (Q : xexpr -> Prop), (length t < k)%nat -> Forall2 item_fits done acc -> ForallOrdPairs apart (done ++ l) ->
  (forall m is tr, Forall2 item_fits (done ++ l) is -> Q (XObj m is tr)) -> eat inp (object_loop items_insert (Rn n) k acc) t Q ([125] ++ rest).
Proof.
  intros H Hn. induction H as [w Hw|w tk tv w' K Q0 Hw Hw' Ho KS HK Hov HS HV|w tk tv c K Q0 t2 l Hw Hc Ho KS HK Hov HS HV H IH]; intros k done acc Q Hk Hd Ha HQ; (destruct k as [|k]; [lia|]); cbn [object_loop].
  - apply (eat_bind' _ _ _ w [] EatLeaf.T); [now rewrite app_nil_r|apply eat_raw_ws; [exact Hw|reflexivity|reflexivity|intros; exact I]|]. intros tr _.
    apply (eat_bind _ _ [] [] (eq 125)); [apply (eat_peek any [125]); now apply eat_any|]. intros c <-. cbn [N.eqb Pos.eqb]. apply eat_ret. apply HQ. now rewrite app_nil_r.
  - rewrite !app_length in Hn. destruct Ho as (c & tk' & Etk & Hc & Hid). assert (Ho : opens tk) by (exists c, tk'; auto).
    apply (eat_bind _ _ w _ EatLeaf.T).
    { rewrite <- app_assoc. apply eat_raw_ws; [exact Hw|now apply (opens_ends u HU true)|now apply (opens_nocomment u HU)|intros; exact I]. }
    intros tr _. apply (eat_bind _ _ [] _ (eq c)).
    { rewrite Etk. apply (eat_peek any [c]). now apply eat_any. }
    intros c0 <-. rewrite (first_char_not u HU c 125) by (auto; lia).
    apply (eat_bind' _ _ _ (tk ++ lit " = " ++ tv ++ w' ++ []) [] (fun p => item_fits (K, Q0) (fst p) /\ snd p = true)); [now rewrite !app_nil_r| |].
    + apply eat_object_item; auto; [lia|reflexivity|]. intros v. unfold item_end. apply (eat_bind _ _ [] [] (eq 125)); [apply (eat_peek any [125]); now apply eat_any|].
      intros c0 <-. cbn [N.eqb Pos.eqb]. now apply eat_ret.
    + intros [i e] [Hi He]. cbn [fst snd] in *. subst e. apply eat_ret.
      assert (Hap : Forall (fun q => apart q (K, Q0)) done).
      { clear - Ha. induction done as [|q d IHd]; [constructor|]. inversion Ha; subst. constructor; [|now apply IHd]. now apply Forall_app in H1 as [_ H1]; inversion H1. }
      rewrite (insert_apart i acc (K, Q0) done) by auto. apply HQ. apply Forall2_app; auto.
  - rewrite !app_length in Hn, Hk. cbn [length] in Hn, Hk. destruct Ho as (a & tk' & Etk & Hc' & Hid). assert (Ho : opens tk) by (exists a, tk'; auto).
    replace ((w ++ tk ++ lit " = " ++ tv ++ [c]) ++ t2) with (w ++ (tk ++ lit " = " ++ tv ++ [] ++ [c]) ++ t2) by now rewrite <- !app_assoc.
    apply (eat_bind _ _ w _ EatLeaf.T).
    { rewrite <- !app_assoc. apply eat_raw_ws; [exact Hw|now apply (opens_ends u HU true)|now apply (opens_nocomment u HU)|intros; exact I]. }
    intros tr _. apply (eat_bind _ _ [] _ (eq a)).
    { rewrite Etk. apply (eat_peek any [a]). now apply eat_any. }
    intros c0 <-. rewrite (first_char_not u HU a 125) by (auto; lia).
    apply (eat_bind _ _ _ t2 (fun p => item_fits (K, Q0) (fst p) /\ snd p = false)).
    + apply eat_object_item; auto; [lia|destruct Hc as [-> | ->]; reflexivity|destruct Hc as [-> | ->]; reflexivity|].
      intros v. unfold item_end. apply (eat_bind _ _ [] [c] (eq c)); [apply (eat_peek any [c]); now apply eat_any|].
      intros c0 <-. destruct Hc as [-> | ->]; cbn [N.eqb Pos.eqb]; [apply (eat_bind' _ _ [10] [10] [] EatLeaf.T); [reflexivity|now apply eat_char|]; intros _ _; now apply eat_ret|apply (eat_bind' _ _ [44] [44] [] EatLeaf.T); [reflexivity|now apply eat_any|]; intros _ _; now apply eat_ret].
    + intros [i e] [Hi He]. cbn [fst snd] in *. subst e. 
      assert (Hap : Forall (fun q => apart q (K, Q0)) done).
      { clear - Ha. induction done as [|q d IHd]; [constructor|]. inversion Ha; subst. constructor; [|now apply IHd]. now apply Forall_app in H1 as [_ H1]; inversion H1. }
      rewrite (insert_apart i acc (K, Q0) done) by auto. apply (IH ltac:(lia) k (done ++ [(K, Q0)])); [lia|apply Forall2_app; auto| |].
      * now rewrite <- app_assoc.
      * intros m is tr0. rewrite <- app_assoc. apply HQ.
Qed.
Lemma start_object nl t l (Q : xexpr -> Prop) rest : OBJ rest t l -> miss inp for_ahead (t ++ [125] ++ rest) -> ForallOrdPairs apart l -> (forall m is tr, Forall2 item_fits l is -> Q (XObj m is tr)) ->
  START nl ([123] ++ t ++ [125]) nl Q rest.
Proof.
  intros H HM Ha HQ n Hn. rewrite !app_length in Hn. cbn [length] in Hn. unfold term_start. cbn [app]. apply eat_dispatch. cbn [N.eqb Pos.eqb]. unfold object.
  change (123 :: t ++ [125]) with ([123] ++ t ++ [125]). apply (eat_bind _ _ [123] _ EatLeaf.T); [now apply eat_char|]. intros _ _.
  apply (eat_bind _ _ t [125] (fun p => Q (fst p) /\ snd p = nl)).
  - apply eat_items; [exact HM|]. apply eat_pmap. cbn [fst snd]. apply (eat_imp _ _ Q); [|auto].
    intros o Ho. unfold object_items. cbn [snd]. eapply (eat_object_loop n rest t l H ltac:(lia) _ [] []); [rewrite app_length; lia|constructor|exact Ha|exact HQ|exact Ho].
  - intros x Hx. apply (eat_bind' _ _ _ [125] [] EatLeaf.T); [reflexivity|apply eat_cut; now apply eat_char|]. intros _ _. now apply eat_ret.
Qed.

(** ** For expressions *)
Definition opt_key (k : option str) : str := match k with Some k => k ++ lit ", " | None => [] end.
Definition kname (k : option did) : option str := match k with Some d => Some (i_name d) | None => None end.
Definition for_text (k : option str) (v tc : str) : str := lit "for " ++ opt_key k ++ v ++ lit " in " ++ tc ++ lit " :".
Definition opt_ident (k : option str) : bool := match k with Some k => is_ident u k | None => true end.
Definition intro_fits (k : option str) (v : str) (P : xexpr -> Prop) (i : intro_t) : Prop := let '(_, (kv, vv, c)) := i in kname kv = k /\ i_name vv = v /\ P c.
Lemma not_cont c r : c < 128 -> is_ascii_letter c || is_digit c || (c =? 95) || (c =? 45) = false -> ends (is_id_continue u) (c :: r).
Proof. intros Hc H. cbn [ends]. unfold is_id_continue. destruct (HU c Hc) as [_ ->]. exact H. Qed.
Lemma eat_for_intro n k v tc (P : xexpr -> Prop) rest : (length tc < n)%nat -> opt_ident k = true -> is_ident u v = true -> opens tc -> stable P -> EXPR false tc P (lit " :" ++ rest) ->
  eat inp (for_intro u (Rn n)) (for_text k v tc) (intro_fits k v P) rest.
Proof.
  intros Hn Hk Hv Ho HS HP. unfold for_intro, for_text. set (t := lit "for " ++ opt_key k ++ v ++ lit " in " ++ tc ++ lit " :").
  apply (eat_prefix intro_upd true _ [] t (intro_fits k v P) (intro_fits k v P) rest); [reflexivity|reflexivity|reflexivity| |intros f g [m [[kv vv] c]]; auto].
  unfold t. clear t.
  assert (TL : forall (x : did) (y : option did), kname (match y with Some _ => Some x | None => None end) = k -> i_name (match y with Some y => y | None => x end) = v ->
     eat inp (cut (tag (lit "in")) ;; c <- decorated_expr (r_expr (Rn n) false) ;; cut (char 58) ;;
       ret (no_meta, (match y with Some y => (Some x, y, c) | None => (None, x, c) end))) (lit "in" ++ ([32] ++ tc ++ [32]) ++ [58]) (intro_fits k v P) rest).
  { intros x y H1 H2. apply (eat_bind _ _ (lit "in") _ EatLeaf.T); [apply eat_cut; now apply eat_tag|]. intros _ _.
    apply (eat_bind _ _ _ [58] P); [apply (eat_dexpr u b pf HU); auto; reflexivity|]. intros c Hc. apply (eat_bind' _ _ _ [58] [] EatLeaf.T); [reflexivity|apply eat_cut; now apply eat_char|]. intros _ _. apply eat_ret.
    destruct y; repeat split; auto. }
  change (lit "for ") with (lit "for" ++ [32]). rewrite <- app_assoc. apply (eat_bind _ _ (lit "for") _ EatLeaf.T); [now apply eat_tag|]. intros _ _. unfold decorated_ident.
  destruct k as [k|]; cbn [opt_key opt_ident] in *.
  - replace ([32] ++ (k ++ lit ", ") ++ v ++ lit " in " ++ tc ++ lit " :") with (([32] ++ k ++ []) ++ ([44] ++ ([32] ++ v ++ [32])) ++ (lit "in" ++ ([32] ++ tc ++ [32]) ++ [58])).
    2: { change (lit ", ") with ([44] ++ [32]). change (lit " in ") with ([32] ++ lit "in" ++ [32]). change (lit " :") with ([32] ++ [58]). rewrite <- !app_assoc. reflexivity. }
    apply (eat_bind _ _ _ _ (fun i => i_name i = k)).
    { apply (eat_did true); auto; try reflexivity. apply not_cont; [lia|reflexivity]. }
    intros x Hx. apply (eat_bind _ _ _ _ (fun o => exists y, o = Some y /\ i_name y = v)).
    { apply eat_opt. apply (eat_bind _ _ [44] _ EatLeaf.T); [now apply eat_char|]. intros _ _. apply (eat_did true); auto; try reflexivity; [apply not_cont; [lia|reflexivity]|]. intros m. now exists (Did m v). }
    intros o (y & -> & Hy). apply (TL x (Some y)); cbn [kname]; congruence.
  - replace ([32] ++ [] ++ v ++ lit " in " ++ tc ++ lit " :") with (([32] ++ v ++ [32]) ++ (lit "in" ++ ([32] ++ tc ++ [32]) ++ [58])).
    2: { change (lit " in ") with ([32] ++ lit "in" ++ [32]). change (lit " :") with ([32] ++ [58]). rewrite <- !app_assoc. reflexivity. }
    apply (eat_bind _ _ _ _ (fun i => i_name i = v)).
    { apply (eat_did true); auto; try reflexivity. apply not_cont; [lia|reflexivity]. }
    intros x Hx. apply (eat_bind _ _ [] _ (eq None)).
    { apply eat_opt_none; [apply miss_bind1, miss_char; reflexivity|reflexivity]. }
    intros o <-. now apply (TL x None).
Qed.
Lemma eat_for {A} (f i : parser A) t (Q : A -> Prop) rest : eat inp f (lit "for " ++ t) Q rest -> eat inp (for_expr_or_items f i) (lit "for " ++ t) Q rest.
Proof.
  intros H o Ht.
  assert (E : eat inp (peek for_ahead) [] EatLeaf.T ((lit "for " ++ t) ++ rest)).
  { rewrite <- app_assoc. apply eat_peek. change (lit "for ") with ([] ++ lit "for" ++ [32]). apply (eat_bind _ _ [] _ EatLeaf.T); [now apply (eat_blank true)|]. intros _ _.
    apply (eat_bind _ _ (lit "for") [32] EatLeaf.T); [now apply eat_tag|]. intros _ _. now apply eat_one_of. }
  destruct (E o Ht) as (a & Ea & _). unfold for_expr_or_items. unfold peek in Ea. 
  match type of Ea with match ?x with _ => _ end = _ => destruct x; try discriminate end. now apply H.
Qed.
(** The condition of a for expression. *)
Definition cond_text (tc : option str) : str := match tc with Some t => lit "if " ++ t | None => [] end.
Definition COND (tc : option str) (P : xexpr -> Prop) (rest : str) : Prop := match tc with Some t => opens t /\ stable P /\ EXPR true t P rest | None => True end.
Definition cond_fits (tc : option str) (P : xexpr -> Prop) (c : option xcond) : Prop := match tc, c with Some _, Some (XForCond _ e) => P e | None, None => True | _, _ => False end.
Lemma eat_for_cond n tc (P : xexpr -> Prop) c rest : c = 93 \/ c = 125 -> (length (cond_text tc) < n)%nat -> COND tc P ([c] ++ rest) -> eat inp (opt (for_cond (Rn n) true)) (cond_text tc) (cond_fits tc P) ([c] ++ rest).
Proof.
  intros Hc Hn HC. destruct tc as [t|]; cbn [cond_text COND cond_fits] in *.
  - destruct HC as (Ho & HS & H). rewrite app_length in Hn. apply eat_opt. unfold for_cond.
    apply (eat_prefix cond_upd true _ [] (lit "if " ++ t) (fun c => match c with XForCond _ e => P e end)); try reflexivity; [|intros f g [m e]; auto].
    change (lit "if ") with (lit "if" ++ [32]). rewrite <- app_assoc. apply (eat_bind _ _ (lit "if") _ EatLeaf.T); [now apply eat_tag|]. intros _ _. apply eat_pmap.
    replace ([32] ++ t) with ([32] ++ t ++ []) by now rewrite app_nil_r. apply (eat_dexpr u b pf HU); auto; try (destruct Hc as [-> | ->]; reflexivity). lia.
  - apply eat_opt_none; [|exact I]. unfold for_cond, prefix_decorated. apply (miss_bind2 (pspan ws) _ [] EatLeaf.T ([c] ++ rest)).
    + apply eat_pspan; [|intros; exact I]. apply (eat_blank true); destruct Hc as [-> | ->]; reflexivity.
    + intros sp0 _. apply miss_bind1. unfold spanned. apply miss_bind1, miss_with_span, miss_bind1, miss_tag. destruct Hc as [-> | ->]; reflexivity.
Qed.
Definition cond_sep (tc : option str) : str := match tc with Some _ => [32] | None => [] end.
Lemma start_for_list nl k v tc (Pc : xexpr -> Prop) tv (Pv : xexpr -> Prop) tf (Pf : xexpr -> Prop) (Q : xexpr -> Prop) rest :
  opt_ident k = true -> is_ident u v = true -> opens tc -> stable Pc -> EXPR false tc Pc (lit " :" ++ [32] ++ tv ++ cond_sep tf ++ cond_text tf ++ [93] ++ rest) ->
  opens tv -> stable Pv -> EXPR true tv Pv (cond_sep tf ++ cond_text tf ++ [93] ++ rest) -> COND tf Pf ([93] ++ rest) ->
  (forall m im kv vv c e f, kname kv = k -> i_name vv = v -> Pc c -> Pv e -> cond_fits tf Pf f -> Q (XFor m im kv vv c None e false f)) ->
  START nl ([91] ++ (for_text k v tc ++ [32] ++ tv ++ cond_sep tf ++ cond_text tf) ++ [93]) true Q rest.
Proof.
  intros Hk Hv Hoc Sc Hc Hov Sv HV HF HQ n Hn. apply dispatch_array. unfold array. apply (eat_bind _ _ [91] _ EatLeaf.T); [now apply eat_char|]. intros _ _. repeat rewrite app_length in Hn. cbn [length] in Hn.
  assert (Ltc : (length tc < length (for_text k v tc))%nat) by (unfold for_text; repeat rewrite app_length; cbn; lia).
  apply (eat_bind _ _ _ [93] Q).
  2: { intros x Hx. apply (eat_bind' _ _ _ [93] [] EatLeaf.T); [reflexivity|apply eat_cut; now apply eat_char|]. intros _ _. now apply eat_ret. }
  assert (EE : eat inp (for_list_expr u (Rn n) true) (for_text k v tc ++ [32] ++ tv ++ cond_sep tf ++ cond_text tf) Q ([93] ++ rest)).
  { unfold for_list_expr. apply (eat_bind _ _ _ _ (intro_fits k v Pc)); [apply eat_for_intro; auto; [lia|repeat rewrite <- app_assoc; exact Hc]|].
    intros [im [[kv vv] c]] (H1 & H2 & H3). replace ([32] ++ tv ++ cond_sep tf ++ cond_text tf) with (([32] ++ tv ++ cond_sep tf) ++ cond_text tf) by now rewrite <- !app_assoc.
    apply (eat_bind _ _ _ _ Pv).
    { apply (eat_dexpr u b pf HU); auto; [lia|destruct tf; reflexivity|destruct tf; reflexivity|destruct tf; reflexivity]. }
    intros e He. apply (eat_bind' _ _ _ (cond_text tf) [] (cond_fits tf Pf)); [now rewrite app_nil_r|apply eat_for_cond; auto; lia|]. intros f Hf. apply eat_ret. now apply HQ. }
  unfold for_text in *. repeat rewrite <- app_assoc in EE |- *. now apply eat_for.
Qed.
Definition group_text (g : bool) : str := if g then lit "..." else [].
Lemma start_for_object nl k v tc (Pc : xexpr -> Prop) tk (Pk : xexpr -> Prop) tv (Pv : xexpr -> Prop) (g : bool) tf (Pf : xexpr -> Prop) (Q : xexpr -> Prop) rest :
  opt_ident k = true -> is_ident u v = true ->
  let r3 := cond_sep tf ++ cond_text tf ++ [125] ++ rest in let r2 := group_text g ++ r3 in let r1 := lit "=> " ++ tv ++ r2 in
  opens tc -> stable Pc -> EXPR false tc Pc (lit " :" ++ [32] ++ tk ++ [32] ++ r1) ->
  opens tk -> stable Pk -> EXPR false tk Pk ([32] ++ r1) ->
  opens tv -> stable Pv -> EXPR false tv Pv r2 -> COND tf Pf ([125] ++ rest) ->
  (forall m im kv vv c x e f, kname kv = k -> i_name vv = v -> Pc c -> Pk x -> Pv e -> cond_fits tf Pf f -> Q (XFor m im kv vv c (Some x) e g f)) ->
  START nl ([123] ++ (for_text k v tc ++ [32] ++ tk ++ lit " => " ++ tv ++ group_text g ++ cond_sep tf ++ cond_text tf) ++ [125]) true Q rest.
Proof.
  intros Hk Hv r3 r2 r1 Hoc Sc Hc Hok Sk HK Hov Sv HV HF HQ n Hn. unfold term_start. cbn [app]. apply eat_dispatch. cbn [N.eqb Pos.eqb]. unfold object.
  set (body := for_text k v tc ++ 32 :: tk ++ lit " => " ++ tv ++ group_text g ++ cond_sep tf ++ cond_text tf) in *.
  assert (Ltc : (length tc < length (for_text k v tc))%nat) by (unfold for_text; repeat rewrite app_length; cbn; lia).
  cbn [length app] in Hn. rewrite app_length in Hn. unfold body in Hn. repeat (rewrite app_length in Hn; cbn [length] in Hn).
  change (123 :: body ++ [125]) with ([123] ++ body ++ [125]). apply (eat_bind _ _ [123] _ EatLeaf.T); [now apply eat_char|]. intros _ _.
  apply (eat_bind _ _ body [125] (fun p => Q (fst p) /\ snd p = true)).
  2: { intros x Hx. apply (eat_bind' _ _ _ [125] [] EatLeaf.T); [reflexivity|apply eat_cut; now apply eat_char|]. intros _ _. now apply eat_ret. }
  assert (EE : eat inp (for_object_expr u (Rn n)) body (fun p => Q (fst p) /\ snd p = true) ([125] ++ rest)).
  { unfold for_object_expr, body. apply (eat_bind _ _ _ _ (intro_fits k v Pc)).
    { apply eat_for_intro; auto; [lia|]. change (lit " => ") with ([32] ++ lit "=> "). cbn [app]. repeat (rewrite <- app_assoc; cbn [app]). exact Hc. }
    intros [im [[kv vv] c]] (H1 & H2 & H3).
    replace (32 :: tk ++ lit " => " ++ tv ++ group_text g ++ cond_sep tf ++ cond_text tf) with
      (([32] ++ tk ++ [32]) ++ lit "=>" ++ ([32] ++ tv ++ (if g then [] else cond_sep tf)) ++ (group_text g ++ (if g then cond_sep tf else [])) ++ cond_text tf).
    2: { change (lit " => ") with ([32] ++ lit "=>" ++ [32]). cbn [app]. repeat (rewrite <- app_assoc; cbn [app]). destruct g; reflexivity. }
    apply (eat_bind _ _ _ _ Pk).
    { apply (eat_dexpr u b pf HU); auto; [|lia|reflexivity]. repeat rewrite <- app_assoc. unfold r1, r2, r3 in HK. destruct g; exact HK. }
    intros x Hx. apply (eat_bind _ _ (lit "=>") _ EatLeaf.T); [apply eat_cut; now apply eat_tag|]. intros _ _.
    apply (eat_bind _ _ _ _ Pv).
    { apply (eat_dexpr u b pf HU); auto; [|lia|destruct g, tf; reflexivity|destruct g, tf; reflexivity|destruct g, tf; reflexivity].
      repeat rewrite <- app_assoc. unfold r2, r3 in HV. destruct g; exact HV. }
    intros e He. apply (eat_bind _ _ _ _ (fun o : option raw => (if o then true else false) = g)).
    { destruct g.
      - apply eat_opt. apply (eat_bind _ _ (lit "...") _ EatLeaf.T); [now apply eat_tag|]. intros _ _. apply eat_raw_ws; [destruct tf; reflexivity|destruct tf; reflexivity|destruct tf; reflexivity|reflexivity].
      - cbn [group_text app]. apply eat_opt_none; [|reflexivity]. apply miss_bind1, miss_tag. destruct tf; reflexivity. }
    intros gt Hg. apply (eat_bind' _ _ _ (cond_text tf) [] (cond_fits tf Pf)); [now rewrite app_nil_r|apply eat_for_cond; auto; lia|]. intros f Hf. apply eat_ret.
    destruct gt as [gt|]; cbn in Hg; subst g; [destruct f as [[mc fe]|]|]; cbn [fst snd]; split; try reflexivity; apply HQ; auto. }
  unfold body, for_text in EE |- *. cbn [app] in EE |- *. repeat rewrite <- app_assoc in EE |- *. now apply eat_for.
Qed.
End Coll.

(** * Reading printed trees: arrays, objects, calls and for expressions *)
From Coq Require Import NArith ZArith Arith Bool String List Lia.
From Verif Require Import Res Str Dec NumberModel PrimModel PrimProofs EAst ParseBase ParseModel ParseLemmas Grammar ParseSoundRec ParseTop Eat StrSpec StrProofs EatLeaf EatExpr EatColl
  BackSpec SameSpec BackLex BackWear BackExpr.
Import ListNotations.
Open Scope N_scope.

Section Coll.
Context {inp : str} (u : unicode) (b : build) (pf : str -> f64).
Context (HU : ascii_exact u).
Notation Rn n := (recs_at u b pf pratt_group items_insert n).
Notation START := (@START inp u b pf).
Notation EXPR := (@EXPR inp u b pf).
Notation opens := (opens u).
Notation T := EatLeaf.T.
Notation from := (from inp).
Notation wears := (wears inp).
(** An expression with the decor [w] and [w']. *)
Definition slot (w w' : str) (Q : xexpr -> Prop) (x : xexpr) : Prop := Q x /\ wears (Some w) (Some w') (x_meta x).

(** ** The word [for] *)
Notation for_ahead := (ws ;; tag (lit "for") ;; one_of (fun c => (c =? 32) || (c =? 9) || (c =? 35) || (c =? 47) || (c =? 10))).
Lemma for_gap w r : Gap true w -> clear true r -> miss inp (tag (lit "for") ;; one_of (fun c => (c =? 32) || (c =? 9) || (c =? 35) || (c =? 47) || (c =? 10))) r -> miss inp for_ahead (w ++ r).
Proof. intros Hw Hr H. apply (miss_bind2 ws _ w T r); [now apply (eat_gap true)|]. intros _ _. exact H. Qed.
Lemma for_word t r : opens t -> ends (is_id_continue u) r -> miss inp (tag (lit "for") ;; one_of (fun c => (c =? 32) || (c =? 9) || (c =? 35) || (c =? 47) || (c =? 10))) (t ++ r).
Proof.
  intros Ho Hr.
  destruct (starts_with (lit "for") (t ++ r)) eqn:E; [|now apply miss_bind1, miss_tag].
  destruct Ho as (c & t' & -> & Hc & Hs). lits_in E. cbn [app starts_with] in E. apply andb_true_iff in E. destruct E as [E1 E]. apply N.eqb_eq in E1. subst c.
  assert (Hs' : is_id_start u 102 = true). { unfold is_id_start. destruct (HU 102) as [-> _]; [lia|reflexivity]. }
  destruct (Hs Hs') as (x & r0 & Ex & Hx & He & Hf). destruct x as [|c x]; [discriminate|]. injection Ex as <- ->.
  rewrite <- app_assoc in E. change ((102 :: x ++ r0) ++ r) with (102 :: ((x ++ r0) ++ r)). rewrite <- app_assoc. assert (He' : ends (is_id_continue u) (r0 ++ r)) by (destruct r0; auto).
  assert (C : forall k (s : str) , k < 128 -> is_ascii_letter k = true -> (match s with [] => false | y :: _ => (k =? y) end) = true -> ends (is_id_continue u) s -> False).
  { intros k s Hk Hl Ek Hs0. destruct s as [|y s]; [discriminate|]. apply N.eqb_eq in Ek. subst y. cbn in Hs0. rewrite (cont_letter u HU) in Hs0 by auto. discriminate. }
  destruct x as [|c1 x].
  { exfalso. apply (C 111 (r0 ++ r)); auto; [lia|]. cbn [app] in E. destruct (r0 ++ r); [discriminate|]. apply andb_true_iff in E. apply E. }
  cbn [app] in E. apply andb_true_iff in E. destruct E as [E1 E]. apply N.eqb_eq in E1. subst c1.
  destruct x as [|c2 x].
  { exfalso. apply (C 114 (r0 ++ r)); auto; [lia|]. cbn [app] in E. destruct (r0 ++ r); [discriminate|]. apply andb_true_iff in E. apply E. }
  cbn [app] in E. apply andb_true_iff in E. destruct E as [E1 E]. apply N.eqb_eq in E1. subst c2.
  destruct x as [|c3 x]; [now contradiction Hf|]. cbn [is_ident forallb] in Hx. rewrite !andb_true_iff in Hx. destruct Hx as (_ & _ & _ & H3 & _).
  change (102 :: (111 :: 114 :: c3 :: x) ++ r0 ++ r) with (lit "for" ++ (c3 :: x ++ r0 ++ r)).
  apply (miss_bind2 (tag (lit "for")) _ (lit "for") T); [now apply eat_tag|]. intros _ _. apply miss_one_of. cbn [ends app].
  rewrite !(cont_not u HU c3) by (try exact H3; try lia; reflexivity). reflexivity.
Qed.
Lemma back_miss_for w t r : Gap true w -> opens t -> ends (is_id_continue u) r -> miss inp for_ahead (w ++ t ++ r).
Proof. intros Hw Ho Hr. apply for_gap; [exact Hw|now apply (opens_clear u HU)|now apply for_word]. Qed.
Lemma back_miss_close w c r : Gap true w -> c = 93 \/ c = 125 -> miss inp for_ahead (w ++ c :: r).
Proof.
  intros Hw Hc. apply for_gap; [exact Hw|destruct Hc as [-> | ->]; split; reflexivity|]. apply miss_bind1, miss_tag. destruct Hc as [-> | ->]; reflexivity.
Qed.

(** Raw text. *)
Lemma tail_at_ o t r : tail_at inp o (t ++ r) -> at_ inp o t.
Proof. intros (pre & E & H). exists pre, r. auto. Qed.
Lemma eat_raw_any (p : parser unit) t (Q : raw -> Prop) r : eat inp p t (fun _ => True) r -> (forall x, raw_despan inp x = raw_of_str t -> Q x) -> eat inp (raw_string p) t Q r.
Proof.
  intros H HQ. unfold raw_string. apply eat_pmap, eat_pspan_at; [exact H|]. intros o Ho. apply HQ. apply tail_at_ in Ho. exact (despan_rw inp o t Ho).
Qed.
Lemma eat_raw_gap w (Q : raw -> Prop) r : Gap true w -> clear true r -> (forall x, raw_despan inp x = raw_of_str w -> Q x) -> eat inp (raw_string ws) w Q r.
Proof. intros H1 H2 HQ. apply eat_raw_any; [now apply (eat_gap true)|exact HQ]. Qed.

Lemma eat_raw_from w (Q : raw -> Prop) r : Gap true w -> clear true r -> (forall x, from w x -> Q x) -> eat inp (raw_string ws) w Q r.
Proof. intros H1 H2 HQ. unfold raw_string. apply eat_pmap. apply (eat_span_from inp); [now apply (eat_gap true)|auto]. Qed.

(** ** Elements separated by commas *)
Inductive MORE (rest : str) : str -> list (xexpr -> Prop) -> Prop :=
| MORE_nil : MORE rest [] []
| MORE_cons w t w' (Q : xexpr -> Prop) t2 l : Gap true w -> Gap true w' -> opens t -> stable Q -> EXPR true t Q (w' ++ t2 ++ rest) -> MORE rest t2 l ->
    MORE rest ([44] ++ (w ++ t ++ w') ++ t2) (slot w w' Q :: l).
Section Guard.
Context {X : Type} (guard : parser X) (guard_ok : forall t r, opens t -> eat inp guard [] T (t ++ r)).
Notation item n := (decorated_expr (guard ;; r_expr (Rn n) true)).
Lemma back_item n w t w' (Q : xexpr -> Prop) rest : Gap true w -> Gap true w' -> opens t -> stable Q -> EXPR true t Q (w' ++ rest) -> (length t < n)%nat ->
  clear true rest -> eat inp (item n) (w ++ t ++ w') (slot w w' Q) rest.
Proof.
  intros H1 H2 Ho HS H Hn H3. unfold decorated_expr. apply (worn_decorated x_upd x_meta true true _ w t w' Q _ rest); auto using x_meta_upd.
  - now apply (opens_clear u HU).
  - apply (eat_bind _ _ [] t T); [now apply guard_ok|]. intros _ _. now apply EXPR_rec.
  - intros f g x Hx Hw. split; auto.
Qed.
(** No further element follows. *)
Definition shut (rest : str) : Prop := clear true rest /\ forall n, miss inp (char 44 ;; item n) rest.
Lemma back_more_clear rest t2 l : clear true rest -> MORE rest t2 l -> clear true (t2 ++ rest).
Proof. intros Hc [|]; [exact Hc|split; reflexivity]. Qed.
Lemma back_MORE_loop rest t l : shut rest -> MORE rest t l -> forall n, (length t <= n)%nat -> eat_loop inp (char 44 ;; item n) t (alls l) rest.
Proof.
  intros [Hc Hm]. induction 1 as [|w t w' Q t2 l H1 H2 Ho HS H HM IH]; intros n Hn.
  - apply eat_loop_nil; [apply Hm|constructor].
  - rewrite !app_length in Hn. cbn [length] in Hn. pose proof (back_more_clear _ _ _ Hc HM) as C1. rewrite app_assoc. apply (eat_loop_cons _ _ t2 (slot w w' Q)); [discriminate| |].
    + apply (eat_bind _ _ [44] _ T); [now apply eat_char|]. intros _ _. apply back_item; auto. lia.
    + intros x Hx. eapply eat_loop_imp; [apply IH; lia|]. intros k Hk. now constructor.
Qed.
Lemma back_separated n w t w' (Q : xexpr -> Prop) t2 l rest : shut rest -> Gap true w -> Gap true w' -> opens t -> stable Q -> EXPR true t Q (w' ++ t2 ++ rest) -> MORE rest t2 l ->
  (length t < n)%nat -> (length t2 <= n)%nat -> eat inp (separated1 (item n) (char 44)) ((w ++ t ++ w') ++ t2) (alls (slot w w' Q :: l)) rest.
Proof.
  intros Hs H1 H2 Ho HS H HM L1 L2. pose proof (back_more_clear _ _ _ (proj1 Hs) HM) as C1. unfold separated1. apply (eat_bind _ _ _ t2 (slot w w' Q)); [now apply back_item|]. intros x Hx.
  apply (eat_bind' _ _ t2 t2 [] (alls l)); [now rewrite app_nil_r|apply eat_many0; apply back_MORE_loop; auto|]. intros k Hk. apply eat_ret. now constructor.
Qed.
(** Only a gap before the closing bracket. *)
Lemma back_miss_item n w r : Gap true w -> clear true r -> miss inp guard r -> miss inp (item n) (w ++ r).
Proof.
  intros Hw Hc Hg. unfold decorated_expr, decorated. apply (miss_bind2 (pspan ws) _ w T r); [apply eat_pspan; [now apply (eat_gap true)|intros; exact I]|]. intros sp0 _.
  apply miss_bind1. unfold spanned. apply miss_bind1, miss_with_span, miss_bind1, Hg.
Qed.
Lemma shut_not r : clear true r -> ends (N.eqb 44) r -> shut r.
Proof. intros Hc He. split; [exact Hc|]. intros n. now apply miss_bind1, miss_char. Qed.
Lemma shut_comma w r : Gap true w -> clear true r -> miss inp guard r -> shut ([44] ++ w ++ r).
Proof.
  intros Hw Hc Hg. split; [split; reflexivity|]. intros n. apply (miss_bind2 (char 44) _ [44] T); [now apply eat_char|]. intros _ _. now apply back_miss_item.
Qed.
End Guard.

(** ** Arrays *)
Definition comma (co : bool) : str := if co then [44] else [].
Lemma array_guard_close r : miss inp (pnot (char 93)) (93 :: r).
Proof. apply (miss_pnot _ [93] T). now apply eat_char. Qed.
Lemma back_array_nil nl w (Q : xexpr -> Prop) rest : Gap true w -> (forall m t, raw_despan inp t = raw_of_str w -> Q (XArr m [] false t)) -> START nl ([91] ++ w ++ [93]) true Q rest.
Proof.
  intros Hw HQ n _. apply dispatch_array. unfold array. apply (eat_bind _ _ [91] _ T); [now apply eat_char|]. intros _ _.
  apply (eat_bind _ _ w [93] Q).
  - apply eat_items; [apply back_miss_close; auto|]. unfold array_items. apply (eat_bind _ _ [] w (eq [])).
    + unfold separated0. apply eat_pmap. apply eat_opt_none; [|reflexivity]. unfold separated1. apply miss_bind1. apply back_miss_item; [exact Hw|split; reflexivity|apply array_guard_close].
    + intros l <-. apply (eat_bind _ _ [] w (eq None)).
      { apply eat_opt_none; [|reflexivity]. apply miss_char. destruct w as [|c w]; [reflexivity|]. apply Gap_head in Hw. cbn [app ends].
        destruct Hw as [Hw|[-> | ->]]; [|reflexivity|reflexivity]. destruct (N.eqb_spec 44 c) as [<-|]; [discriminate Hw|reflexivity]. }
      intros c <-. apply (eat_bind' _ _ w w [] (fun x => raw_despan inp x = raw_of_str w)); [now rewrite app_nil_r|apply eat_raw_gap; [exact Hw|split; reflexivity|auto]|]. intros r Hr. apply eat_ret. now apply HQ.
  - intros x Hx. apply (eat_bind' _ _ _ [93] [] T); [reflexivity|apply eat_cut; now apply eat_char|]. intros _ _. now apply eat_ret.
Qed.
Lemma back_array nl w t w' (Q : xexpr -> Prop) t2 l (co : bool) tr (Q' : xexpr -> Prop) rest : Gap true w -> Gap true w' -> opens t -> stable Q -> Gap true tr -> (co = false -> tr = []) ->
  EXPR true t Q (w' ++ t2 ++ comma co ++ tr ++ [93] ++ rest) -> MORE (comma co ++ tr ++ [93] ++ rest) t2 l -> ends (is_id_continue u) (w' ++ t2 ++ comma co ++ tr ++ [93] ++ rest) ->
  (forall m xs x, alls (slot w w' Q :: l) xs -> raw_despan inp x = raw_of_str tr -> Q' (XArr m xs co x)) -> START nl ([91] ++ ((w ++ t ++ w') ++ t2) ++ (comma co ++ tr) ++ [93]) true Q' rest.
Proof.
  intros H1 H2 Ho HS Htr Hco H HM He HQ n Hn. rewrite !app_length in Hn. cbn [length] in Hn. apply dispatch_array. unfold array. apply (eat_bind _ _ [91] _ T); [now apply eat_char|]. intros _ _.
  rewrite app_assoc. apply (eat_bind _ _ _ [93] Q').
  - apply eat_items; [repeat rewrite <- app_assoc; now apply back_miss_for|]. unfold array_items. apply (eat_bind _ _ ((w ++ t ++ w') ++ t2) (comma co ++ tr) (alls (slot w w' Q :: l))).
    + unfold separated0. apply eat_pmap. apply eat_opt. cbv beta iota. rewrite <- (app_assoc (comma co)).
      apply back_separated; auto; [intros; now apply (pnot_guard u HU)| |lia|lia]. destruct co; cbn [comma].
      * apply shut_comma; [exact Htr|split; reflexivity|apply array_guard_close].
      * rewrite Hco by reflexivity. apply shut_not; [split; reflexivity|reflexivity].
    + intros xs Hxs. apply (eat_bind _ _ (comma co) tr (eq (if co then Some 44 else None))).
      { destruct co; cbn [comma]; [apply eat_opt; now apply eat_char|]. rewrite Hco by reflexivity. apply eat_opt_none; [now apply miss_char|reflexivity]. }
      intros c Ec. apply (eat_bind' _ _ tr tr [] (fun x => raw_despan inp x = raw_of_str tr)); [now rewrite app_nil_r|apply eat_raw_gap; [exact Htr|split; reflexivity|auto]|].
      intros r Hr. apply eat_ret. subst c. destruct co; now apply HQ.
  - intros x Hx. apply (eat_bind' _ _ _ [93] [] T); [reflexivity|apply eat_cut; now apply eat_char|]. intros _ _. now apply eat_ret.
Qed.

(** ** Function calls *)
Definition mark (ex co : bool) : str := if ex then lit "..." else if co then [44] else [].
Inductive ARGS (rest : str) : str -> list (xexpr -> Prop) -> bool -> bool -> str -> Prop :=
| ARGS_nil tr : Gap true tr -> ARGS rest tr [] false false tr
| ARGS_cons w t w' (Q : xexpr -> Prop) t2 l (ex co : bool) tr : Gap true w -> Gap true w' -> opens t -> stable Q -> Gap true tr -> (ex = true -> co = false) -> (mark ex co = [] -> tr = []) ->
    EXPR true t Q (w' ++ t2 ++ mark ex co ++ tr ++ [41] ++ rest) -> MORE (mark ex co ++ tr ++ [41] ++ rest) t2 l ->
    ARGS rest (((w ++ t ++ w') ++ t2) ++ mark ex co ++ tr) (slot w w' Q :: l) ex co tr.
Notation arg_guardp := (peek (one_of (fun c => negb ((c =? 44) || (c =? 46) || (c =? 41))))).
Lemma arg_guard_close r : miss inp arg_guardp (41 :: r).
Proof. apply miss_peek, miss_one_of. reflexivity. Qed.
Definition back_args_fit (l : list (xexpr -> Prop)) (ex co : bool) (tr : str) (a : list xexpr * bool * bool * raw) : Prop :=
  let '(xs, e, c, t) := a in alls l xs /\ e = ex /\ c = co /\ raw_despan inp t = raw_of_str tr.
Lemma back_func_args n t l ex co tr rest : ARGS rest t l ex co tr -> (length t < n)%nat -> eat inp (func_args (Rn n)) ([40] ++ t ++ [41]) (back_args_fit l ex co tr) rest.
Proof.
  intros HA Hn. unfold func_args. apply (eat_bind _ _ [40] _ T); [apply eat_cut; now apply eat_char|]. intros _ _. destruct HA as [tr Htr|w t w' Q t2 l ex co tr H1 H2 Ho HS Htr Hex Hno H HM].
  - apply (eat_bind _ _ [] (tr ++ [41]) (eq None)).
    + apply eat_opt_none; [|reflexivity]. apply miss_bind1. unfold separated1. apply miss_bind1. rewrite <- app_assoc. apply back_miss_item; [exact Htr|split; reflexivity|apply arg_guard_close].
    + intros o <-. apply (eat_bind _ _ tr [41] (fun x => raw_despan inp x = raw_of_str tr)); [apply eat_raw_gap; [exact Htr|split; reflexivity|auto]|]. intros r Hr.
      apply (eat_bind' _ _ _ [41] [] T); [reflexivity|apply eat_cut; now apply eat_char|]. intros _ _. apply eat_ret. repeat split; [constructor|exact Hr].
  - rewrite !app_length in Hn. set (e := mark ex co) in *.
    replace ((((w ++ t ++ w') ++ t2) ++ e ++ tr) ++ [41]) with ((((w ++ t ++ w') ++ t2) ++ e) ++ tr ++ [41]) by now rewrite <- !app_assoc.
    set (tl := if ex then Some true else if co then Some false else None).
    apply (eat_bind _ _ _ (tr ++ [41]) (fun o => exists xs, o = Some (xs, tl) /\ alls (slot w w' Q :: l) xs)).
    + apply eat_opt. apply (eat_bind _ _ _ e (alls (slot w w' Q :: l))).
      * rewrite <- (app_assoc tr). apply back_separated; auto; [intros; now apply (arg_guard u HU)| |lia|lia]. unfold e in *. destruct ex; cbn [mark] in *.
        -- apply shut_not; [split; reflexivity|reflexivity].
        -- destruct co; [apply shut_comma; [exact Htr|split; reflexivity|apply arg_guard_close]|]. rewrite Hno by reflexivity. apply shut_not; [split; reflexivity|reflexivity].
      * intros xs Hxs. apply (eat_bind' _ _ _ e [] (eq tl)); [now rewrite app_nil_r| |intros o <-; apply eat_ret; exists xs; auto].
        unfold e, tl in *. destruct ex; cbn [mark] in *.
        -- apply eat_opt. unfold trailer. change (lit "...") with ([46] ++ lit ".."). apply (eat_bind _ _ [46] _ (eq 46)); [now apply eat_any|]. intros c <-. cbn [N.eqb Pos.eqb].
           apply (eat_bind' _ _ _ (lit "..") [] T); [reflexivity|apply eat_cut; now apply eat_tag|]. intros _ _. now apply eat_ret.
        -- destruct co.
           ++ apply eat_opt. unfold trailer. apply (eat_bind' _ _ [44] [44] [] (eq 44)); [reflexivity|now apply eat_any|]. intros c <-. cbn [N.eqb Pos.eqb]. now apply eat_ret.
           ++ apply eat_opt_none; [|reflexivity]. rewrite Hno by reflexivity. unfold trailer. apply (miss_bind2 any _ [41] (eq 41) rest); [now apply eat_any|]. intros c <-. cbn [N.eqb Pos.eqb]. apply miss_fail.
    + intros o (xs & -> & Hxs). apply (eat_bind _ _ tr [41] (fun x => raw_despan inp x = raw_of_str tr)); [apply eat_raw_gap; [exact Htr|split; reflexivity|auto]|]. intros r Hr.
      apply (eat_bind' _ _ _ [41] [] T); [reflexivity|apply eat_cut; now apply eat_char|]. intros _ _. apply eat_ret. unfold tl. destruct ex; [rewrite (Hex eq_refl); repeat split; auto|]. destruct co; repeat split; auto.
Qed.
(** A call: identifiers separated by "::", the last one is the name of the function. *)
Definition gid : Type := str * str * str.
Definition gid_text (x : gid) : str := fst (fst x) ++ snd (fst x) ++ snd x.
Definition gid_fits (x : gid) (i : did) : Prop := i_name i = snd (fst x) /\ wears (Some (fst (fst x))) (Some (snd x)) (i_meta i).
Definition gid_ok (nl : bool) (x : gid) : Prop := Gap nl (fst (fst x)) /\ is_ident u (snd (fst x)) = true /\ Gap nl (snd x).
Definition back_comps (xs : list gid) : str := flat_map (fun x => lit "::" ++ gid_text x) xs.
Lemma gap_ends_id nl w r : Gap nl w -> ends (is_id_continue u) r \/ w <> [] -> ends (is_id_continue u) (w ++ r).
Proof.
  intros Hw H. destruct w as [|c w]; [destruct H; [exact H|congruence]|]. apply Gap_head in Hw. cbn [app ends].
  destruct (is_id_continue u c) eqn:E; [|reflexivity]. exfalso. destruct Hw as [Hw | [-> | ->]].
  - unfold blank, is_multispace, is_space in Hw. assert (D : c = 32 \/ c = 9 \/ c = 10 \/ c = 13) by (destruct nl; rewrite !orb_true_iff, !N.eqb_eq in Hw; tauto).
    unfold is_id_continue in E. destruct (HU c) as [_ Ec]; [lia|]. rewrite Ec in E. destruct D as [-> | [-> | [-> | ->]]]; discriminate.
  - unfold is_id_continue in E. destruct (HU 35) as [_ Ec]; [lia|]. rewrite Ec in E. discriminate.
  - unfold is_id_continue in E. destruct (HU 47) as [_ Ec]; [lia|]. rewrite Ec in E. discriminate.
Qed.
Lemma back_did nl nl' w x w' (Q : did -> Prop) rest : Gap nl w -> is_ident u x = true -> Gap nl' w' -> ends (is_id_continue u) (w' ++ rest) ->
  clear nl' rest -> (forall m, wears (Some w) (Some w') m -> Q (Did m x)) -> eat inp (decorated did_upd (ws_or_sp nl) (cut (ident u)) (ws_or_sp nl')) (w ++ x ++ w') Q rest.
Proof.
  intros H1 Hx H2 He H3 HQ. apply (worn_decorated did_upd i_meta nl nl' _ w x w' (fun i => i_name i = x) Q); auto.
  - now apply (clear_id u HU).
  - apply eat_cut. unfold ident. apply eat_pmap. now apply eat_str_ident.
  - intros f g [m y] <- Hw. now apply HQ.
Qed.
Lemma back_comps_ends xs r : ends (is_id_continue u) r -> ends (is_id_continue u) (back_comps xs ++ r).
Proof. destruct xs; [auto|]. intros _. unfold back_comps. cbn [flat_map ends app]. lits. cbn [app ends]. unfold is_id_continue. destruct (HU 58) as [_ ->]; [lia|reflexivity]. Qed.
Lemma back_comps_clear nl xs r : clear true r -> clear nl (back_comps xs ++ r).
Proof. intros H. apply clear_down. destruct xs; [exact H|]. split; reflexivity. Qed.
Lemma eat_gid nl x xs rest : gid_ok nl x -> eat inp (decorated did_upd (ws_or_sp nl) (cut (ident u)) (ws_or_sp nl)) (gid_text x) (gid_fits x) (back_comps xs ++ [40] ++ rest).
Proof.
  intros (H1 & H2 & H3). unfold gid_text. apply (back_did nl nl); auto.
  - apply (gap_ends_id nl); [exact H3|]. left. apply back_comps_ends, paren_ends, HU.
  - apply back_comps_clear. split; reflexivity.
  - intros m Hm. now split.
Qed.
Lemma back_eat_comps nl xs rest : Forall (gid_ok nl) xs ->
  eat_loop inp (tag (lit "::") ;; decorated did_upd (ws_or_sp nl) (cut (ident u)) (ws_or_sp nl)) (back_comps xs) (Forall2 gid_fits xs) ([40] ++ rest).
Proof.
  induction 1 as [|x xs Hx H IH].
  - apply eat_loop_nil; [|constructor]. apply miss_bind1, miss_tag. reflexivity.
  - change (back_comps (x :: xs)) with ((lit "::" ++ gid_text x) ++ back_comps xs).
    apply (eat_loop_cons _ _ _ (gid_fits x)); [discriminate| |].
    + apply (eat_bind _ _ (lit "::") _ T); [now apply eat_tag|]. intros _ _. now apply eat_gid.
    + intros i Hi. eapply eat_loop_imp; [exact IH|]. intros l Hl. now constructor.
Qed.
Definition call_fits (x g : str) (xs : list gid) (l : list did) : Prop := exists i k, l = i :: k /\ i_name i = x /\ wears None (Some g) (i_meta i) /\ Forall2 gid_fits xs k.
Lemma back_call nl x g xs t l ex co tr (Q : xexpr -> Prop) rest : is_ident u x = true -> Gap nl g -> Forall (gid_ok nl) xs -> ARGS rest t l ex co tr ->
  (forall m ns name m' ys z, call_fits x g xs (ns ++ [name]) -> wears None None m' -> alls l ys -> raw_despan inp z = raw_of_str tr -> Q (XCall m ns name m' ys ex co z)) ->
  START nl (x ++ g ++ back_comps xs ++ [40] ++ t ++ [41]) true Q rest.
Proof.
  intros Hx Hg Hxs HA HQ n Hn. rewrite !app_length in Hn. cbn [length] in Hn. set (r := back_comps xs ++ [40] ++ t ++ [41]) in *.
  assert (D : exists c x', x = c :: x' /\ is_id_start u c = true). { destruct x as [|c x']; [discriminate|]. cbn in Hx. apply andb_true_iff in Hx. exists c, x'. tauto. }
  destruct D as (c & x' & Ex & Hc). unfold term_start. rewrite Ex. cbn [app]. apply eat_dispatch.
  rewrite (id_start_not u HU c 34), (id_start_not u HU c 91), (id_start_not u HU c 123), (id_start_digit u HU c), (id_start_not u HU c 60), (id_start_not u HU c 45), (id_start_not u HU c 33), (id_start_not u HU c 40), Hc by (auto; lia).
  change (c :: x' ++ g ++ r) with ((c :: x') ++ g ++ r). rewrite <- Ex. clear c x' Ex Hc.
  assert (Cr : clear nl (r ++ rest)). { unfold r. rewrite <- app_assoc. apply back_comps_clear. split; reflexivity. }
  unfold identlike. apply (eat_bind _ _ x (g ++ r) (fun p => fst p = x)).
  { apply eat_with_span. apply eat_str_ident; auto. rewrite <- app_assoc. apply (gap_ends_id nl); [exact Hg|]. left. unfold r. rewrite <- !app_assoc. apply back_comps_ends, paren_ends, HU. }
  intros [y xs0] Hy. cbn [fst] in Hy. subst y.
  assert (EE : eat inp (suffix <- pspan (ws_or_sp nl) ;; b0 <- look2 ;;
       if opt_seqb b0 (lit "::") || head_is (N.eqb 40) b0 then
         let i := Did (set_span xs0 (set_suffix (raw_of_span suffix) no_meta)) x in
         '(ns, name) <- (if opt_seqb b0 (lit "::") then l <- func_namespace_components u nl ;; lift (match rev l with n :: r => Done (i :: rev r, n) | [] => Panic end) else ret ([], i)) ;;
         '(l, ex, co, tr) <- func_args (Rn n) ;;
         ret (XCall no_meta ns name no_meta l ex co tr, true)
       else fail) (g ++ r) (fun p => Q (fst p) /\ snd p = true) rest).
  2: { intros o Ho. destruct (EE o Ho) as (y & Ey & Hy). exists y. split; [|exact Hy]. clear EE.
       revert Ey. unfold bind. destruct (pspan (ws_or_sp nl) (mk o ((g ++ r) ++ rest))) as [sp0 s1| | |]; try discriminate. unfold look2. cbv zeta beta iota.
       match goal with |- (if ?cnd then _ else _) _ = _ -> _ => destruct cnd; [auto|discriminate] end. }
  apply (eat_bind _ _ g r (fun sp => from g (raw_of_span sp))).
  { apply (eat_span_from inp); [|auto]. now apply eat_gap. }
  intros suf Hsuf. apply (eat_bind _ _ [] r (eq (l2 (r ++ rest)))); [now apply eat_look2|]. intros b0 <-.
  change (lit "::") with [58; 58]. rewrite l2_two.
  assert (Hcall : starts_with [58; 58] (r ++ rest) || head_is (N.eqb 40) (l2 (r ++ rest)) = true /\ (xs = [] -> starts_with [58; 58] (r ++ rest) = false) /\ (xs <> [] -> starts_with [58; 58] (r ++ rest) = true)).
  { unfold r. destruct xs as [|z xs]; cbn [back_comps flat_map app].
    - repeat split; [|now intros]. rewrite orb_true_iff. right. unfold l2. destruct (t ++ [41]) as [|c q] eqn:E; [now destruct t|]. reflexivity.
    - repeat split. intros H; discriminate. }
  destruct Hcall as (-> & Hc1 & Hc2). cbv zeta.
  apply (eat_bind _ _ (back_comps xs) ([40] ++ t ++ [41]) (fun p => call_fits x g xs (fst p ++ [snd p]))).
  - destruct xs as [|z xs].
    + rewrite Hc1 by reflexivity. apply eat_ret. cbn [fst snd app]. eexists _, []. split; [reflexivity|]. split; [reflexivity|]. split; [split; [exact I|exact Hsuf]|constructor].
    + rewrite Hc2 by discriminate. unfold func_namespace_components.
      apply (eat_bind' _ _ _ (back_comps (z :: xs)) [] (Forall2 gid_fits (z :: xs))); [now rewrite app_nil_r| |].
      * rewrite <- app_assoc. change (back_comps (z :: xs)) with ((lit "::" ++ gid_text z) ++ back_comps xs). inversion Hxs as [|? ? Hz Hxs']; subst.
        apply (eat_many1 _ _ _ (gid_fits z)).
        -- apply (eat_bind _ _ (lit "::") _ T); [now apply eat_tag|]. intros _ _. now apply eat_gid.
        -- intros i Hi. eapply eat_loop_imp; [now apply back_eat_comps|]. intros k Hk. now constructor.
      * intros k Hk. destruct (rev k) as [|i k'] eqn:E.
        { apply (f_equal (@rev did)) in E. rewrite rev_involutive in E. subst k. inversion Hk. }
        apply (eat_lift _ (Did (set_span xs0 (set_suffix (raw_of_span suf) no_meta)) x :: rev k', i)); [reflexivity|]. cbn [fst snd app].
        eexists _, _. split; [reflexivity|]. split; [reflexivity|]. split; [split; [exact I|exact Hsuf]|]. replace (rev k' ++ [i]) with k; [exact Hk|]. rewrite <- (rev_involutive k), E. reflexivity.
  - intros [ns name] Hp. cbn [fst snd] in Hp. apply (eat_bind' _ _ _ ([40] ++ t ++ [41]) [] (back_args_fit l ex co tr)); [now rewrite app_nil_r|apply back_func_args; [exact HA|lia]|].
    intros [[[ys e] c] z] (H1 & -> & -> & H4). apply eat_ret. cbn [fst snd]. split; [|reflexivity]. apply HQ; auto. split; exact I.
Qed.

(** ** Objects *)
Definition key_meta (k : xkey) : meta := match k with XKId i => i_meta i | XKExpr e => x_meta e end.
Lemma key_meta_upd f k : key_meta (key_upd f k) = f (key_meta k).
Proof. destruct k; [reflexivity|apply x_meta_upd]. Qed.
Definition kslot (w w' : str) (K : xkey -> Prop) (k : xkey) : Prop := K k /\ wears (Some w) (Some w') (key_meta k).
Definition assign_str (a : assign) : str := match a with AColon => [58] | AEquals => [61] end.
Record oitem := OItem { oi_key : xkey -> Prop; oi_assign : assign; oi_val : xexpr -> Prop; oi_end : oterm }.
Definition back_fits (p : oitem) (i : xitem) : Prop := match i with XItem k a v t => oi_key p k /\ a = oi_assign p /\ oi_val p v /\ t = oi_end p end.
Definition back_apart (p p' : oitem) : Prop := forall k k', oi_key p k -> oi_key p' k' -> key_eqb k k' = false.
(** What ends an item which is not the last one: a comma; or a comment and a line break. *)
Definition item_stop (t : oterm) (z : str) (te : str) : Prop :=
  match t with TComma => z = [] /\ te = [44] | TNewline => Open z /\ te = z ++ [10] | TNone => False end.
Inductive OBJ (rest : str) : str -> list oitem -> str -> Prop :=
| OBJ_end w : Gap true w -> OBJ rest w [] w
| OBJ_last w tk g1 a g2 tv g3 (K : xkey -> Prop) (Q : xexpr -> Prop) : Gap true w -> Gap false g1 -> Gap false g2 -> Gap false g3 -> opens tk -> key_stable K ->
    @KEY inp u b pf tk K (g1 ++ assign_str a ++ g2 ++ tv ++ g3 ++ [125] ++ rest) ->
    opens tv -> stable Q -> EXPR false tv Q (g3 ++ [125] ++ rest) -> OBJ rest (w ++ tk ++ g1 ++ assign_str a ++ g2 ++ tv ++ g3) [OItem (kslot w g1 K) a (slot g2 g3 Q) TNone] []
| OBJ_more w tk g1 a g2 tv g3 z te t (K : xkey -> Prop) (Q : xexpr -> Prop) t2 l tr : Gap true w -> Gap false g1 -> Gap false g2 -> Gap false g3 -> item_stop t z te -> opens tk -> key_stable K ->
    @KEY inp u b pf tk K (g1 ++ assign_str a ++ g2 ++ tv ++ g3 ++ te ++ t2 ++ [125] ++ rest) ->
    opens tv -> stable Q -> EXPR false tv Q (g3 ++ te ++ t2 ++ [125] ++ rest) -> OBJ rest t2 l tr ->
    OBJ rest ((w ++ tk ++ g1 ++ assign_str a ++ g2 ++ tv ++ g3 ++ te) ++ t2) (OItem (kslot w g1 K) a (slot g2 (g3 ++ z) Q) t :: l) tr.
Lemma back_insert i acc (p : oitem) l : Forall2 back_fits l acc -> back_fits p i -> Forall (fun q => back_apart q p) l -> items_insert i acc = acc ++ [i].
Proof.
  intros H Hi. induction H as [|q j l acc Hj H IH]; intros Ha; [reflexivity|]. inversion Ha as [|? ? Hq Ha']; subst. cbn [items_insert app].
  destruct i as [k a v t], j as [k' a' v' t']. destruct Hi as (Hi1 & _), Hj as (Hj1 & _). cbn [item_key]. rewrite (Hq k' k) by auto. now rewrite IH.
Qed.
(** A value whose suffix is the text [g3] before [rest]. *)
Definition ends_in (g2 g3 rest : str) (Q : xexpr -> Prop) (v : xexpr) : Prop :=
  Q v /\ put inp (Some g2) (d_prefix (m_decor (x_meta v))) /\ exists o, tail_at inp o (g3 ++ rest) /\ d_suffix (m_decor (x_meta v)) = Some (rw o g3).
Lemma ends_in_slot g2 g3 rest Q v : ends_in g2 g3 rest Q v -> slot g2 g3 Q v.
Proof.
  intros (H1 & H2 & o & Ho & E). split; [exact H1|]. split; [exact H2|]. rewrite E. apply from_at. eapply tail_at_, Ho.
Qed.
Lemma back_value n g2 tv g3 (Q : xexpr -> Prop) rest : (length tv < n)%nat -> Gap false g2 -> Gap false g3 -> opens tv -> stable Q -> EXPR false tv Q (g3 ++ rest) -> clear false rest ->
  eat inp (decorated x_upd sp (r_expr (Rn n) false) sp) (g2 ++ tv ++ g3) (ends_in g2 g3 rest Q) rest.
Proof.
  intros Hn G2 G3 Ho HS H Hc. unfold decorated.
  apply (eat_bind _ _ g2 (tv ++ g3) (fun sp => from g2 (raw_of_span sp))).
  { apply (eat_span_from inp); [|auto]. apply (eat_gap false); auto. rewrite <- app_assoc. now apply (opens_clear u HU). }
  intros a Ha. apply (eat_bind _ _ tv g3 Q).
  { unfold spanned. apply (eat_bind' _ _ tv tv [] (fun p => Q (fst p))); [now rewrite app_nil_r| |intros [x s] Hx; apply eat_ret; now apply HS].
    apply eat_with_span. eapply eat_imp; [apply EXPR_rec; [exact H|exact Hn]|]. auto. }
  intros x Hx. apply (eat_bind' _ _ g3 g3 [] (fun sp => exists o, tail_at inp o (g3 ++ rest) /\ sp = (o, o + blen g3))); [now rewrite app_nil_r| |].
  { apply eat_pspan_at; [now apply (eat_gap false)|]. eauto. }
  intros s (o & Ho' & ->). apply eat_ret. split; [now apply HS|]. rewrite x_meta_upd. split; [exact Ha|]. exists o. split; [exact Ho'|reflexivity].
Qed.
Lemma tail_same o o' (s : str) : tail_at inp o s -> tail_at inp o' s -> o = o'.
Proof. intros (p & E & <-) (p' & E' & <-). f_equal. rewrite E in E'. now apply app_inv_tail in E'. Qed.
Lemma back_object_item n w tr tk g1 a g2 tv g3 (K : xkey -> Prop) (Q : xexpr -> Prop) te t g4 (Qe : bool) rest : (length tk + length tv < n)%nat -> opens tk -> key_stable K ->
  Gap false g1 -> Gap false g2 -> Gap false g3 ->
  @KEY inp u b pf tk K (g1 ++ assign_str a ++ g2 ++ tv ++ g3 ++ te ++ rest) -> opens tv -> stable Q -> EXPR false tv Q (g3 ++ te ++ rest) -> clear false (te ++ rest) -> from w tr ->
  (forall v, ends_in g2 g3 (te ++ rest) Q v -> eat inp (item_end v) te (fun p => slot g2 g4 Q (fst (fst p)) /\ snd (fst p) = t /\ snd p = Qe) rest) ->
  eat inp (object_item (Rn n) tr) (tk ++ g1 ++ assign_str a ++ g2 ++ tv ++ g3 ++ te) (fun p => back_fits (OItem (kslot w g1 K) a (slot g2 g4 Q) t) (fst p) /\ snd p = Qe) rest.
Proof.
  intros Hn Ho KS G1 G2 G3 (P & HP & HK) Hov HS HV He Htr HE. unfold object_item.
  replace (tk ++ g1 ++ assign_str a ++ g2 ++ tv ++ g3 ++ te) with ((tk ++ g1) ++ assign_str a ++ (g2 ++ tv ++ g3) ++ te) by now rewrite <- !app_assoc.
  apply (eat_bind _ _ _ _ (fun k => K k /\ wears None (Some g1) (key_meta k))).
  { unfold object_key. apply (worn_suffix key_upd key_meta false _ tk g1 (fun k => K k /\ d_prefix (m_decor (key_meta k)) = None)); auto using key_meta_upd; [destruct a; split; reflexivity| |].
    - apply eat_pmap. apply (eat_imp _ _ (fun x => P x /\ bald x)).
      + apply EXPR_rec; [|lia]. apply EXPR_bald. repeat rewrite <- app_assoc in *. exact HP.
      + intros x [Hx [Hb _]]. split; [now apply HK|]. destruct x; try exact Hb. reflexivity.
    - intros f g x [Hx Hp] Hw. split; [now apply KS, KS|auto]. }
  intros k [Hk [_ Hks]]. apply (eat_bind _ _ (assign_str a) _ (eq a)).
  { unfold object_value_assignment. destruct a; cbn [assign_str].
    - apply (eat_bind' _ _ _ [58] [] (eq 58)); [reflexivity|now apply eat_any|]. intros c <-. cbn [N.eqb Pos.eqb]. now apply eat_ret.
    - apply (eat_bind' _ _ _ [61] [] (eq 61)); [reflexivity|now apply eat_any|]. intros c <-. cbn [N.eqb Pos.eqb]. now apply eat_ret. }
  intros a' <-. apply (eat_bind _ _ _ te (ends_in g2 g3 (te ++ rest) Q)).
  { apply back_value; auto. lia. }
  intros v Hv. apply (eat_bind' _ _ _ te [] (fun p => slot g2 g4 Q (fst (fst p)) /\ snd (fst p) = t /\ snd p = Qe)); [now rewrite app_nil_r|now apply HE|].
  intros [[v' t'] e] (H1 & H2 & H3). cbn [fst snd] in *. subst. apply eat_ret. cbn [fst snd back_fits oi_key oi_assign oi_val oi_end]. split; [|reflexivity]. split; [|split; [reflexivity|split; [exact H1|reflexivity]]].
  split; [now apply KS|]. rewrite key_meta_upd. split; [exact Htr|exact Hks].
Qed.
Lemma back_apart_done done p (l : list oitem) : ForallOrdPairs back_apart (done ++ p :: l) -> Forall (fun q => back_apart q p) done.
Proof. induction done as [|q d IHd]; intros Ha; [constructor|]. inversion Ha; subst. constructor; [|now apply IHd]. now apply Forall_app in H1 as [_ H1]; inversion H1. Qed.
Lemma stop_clear t z te r : item_stop t z te -> clear false (te ++ r).
Proof.
  destruct t; cbn [item_stop]; [contradiction|intros (Hz & ->)|intros (_ & ->); split; reflexivity].
  destruct Hz as [-> | (h & x & [-> | ->] & _ & ->)]; split; reflexivity.
Qed.
Lemma back_item_end v t z te g2 g3 (Q : xexpr -> Prop) r : item_stop t z te -> stable Q -> ends_in g2 g3 (te ++ r) Q v -> eat inp (item_end v) te (fun p => slot g2 (g3 ++ z) Q (fst (fst p)) /\ snd (fst p) = t /\ snd p = false) r.
Proof.
  intros Hs HS Hv. unfold item_end. destruct t; cbn [item_stop] in Hs; [contradiction| |]; destruct Hs as (Hz & ->).
  2: { apply (eat_bind _ _ [] [44] (eq 44)); [apply (eat_peek any [44]); now apply eat_any|]. intros c0 <-. cbn [N.eqb Pos.eqb].
    apply (eat_bind' _ _ [44] [44] [] T); [reflexivity|now apply eat_any|]; intros a _; apply eat_ret. cbn [fst snd]. subst z. rewrite app_nil_r. apply ends_in_slot in Hv. auto. }
  - destruct Hz as [-> | (h & x & Hh & Hx & ->)].
    + cbn [app]. apply (eat_bind _ _ [] [10] (eq 10)); [apply (eat_peek any [10]); now apply eat_any|]. intros c0 <-. cbn [N.eqb Pos.eqb].
      apply (eat_bind' _ _ [10] [10] [] T); [reflexivity|now apply eat_char|]; intros _ _; apply eat_ret. cbn [fst snd]. rewrite app_nil_r. apply ends_in_slot in Hv. auto.
    + assert (EL : eat inp line_comment (h ++ x) T ([10] ++ r)) by (apply eat_line; auto; [right; exists [10], r; auto|exact I]).
      assert (E : exists c q, h ++ x = c :: q /\ (c = 35 \/ c = 47)) by (destruct Hh as [-> | ->]; cbn [app]; eauto). destruct E as (c & q & E & Hc).
      apply (eat_bind _ _ [] ((h ++ x) ++ [10]) (eq c)); [rewrite E; apply (eat_peek any [c]); now apply eat_any|]. intros c0 <-.
      replace (c =? 125) with false by (destruct Hc as [-> | ->]; reflexivity). replace (c =? 13) with false by (destruct Hc as [-> | ->]; reflexivity).
      replace (c =? 10) with false by (destruct Hc as [-> | ->]; reflexivity). replace (c =? 44) with false by (destruct Hc as [-> | ->]; reflexivity).
      replace ((c =? 35) || (c =? 47)) with true by (destruct Hc as [-> | ->]; reflexivity).
      apply (eat_bind _ _ (h ++ x) [10] (fun s => exists o, tail_at inp o ((h ++ x) ++ [10] ++ r) /\ s = (o, o + blen (h ++ x)))); [apply eat_pspan_at; [exact EL|eauto]|].
      intros s (o2 & Ho2 & ->). destruct Hv as (Hv & Hp & o1 & Ho1 & Es).
      apply (eat_bind' _ _ [10] [10] [] T); [reflexivity| |].
      2: { intros a _. apply eat_ret. cbn [fst snd]. split; [|auto]. unfold extend_suffix. split; [now apply HS|]. rewrite x_meta_upd. split; [exact Hp|]. rewrite Es.
           rewrite <- !app_assoc in Ho1, Ho2. rewrite app_assoc in Ho1. pose proof (tail_at_ _ _ _ Ho1) as A1.
           assert (Eo : o2 = o1 + blen g3) by (eapply tail_same; [exact Ho2|]; rewrite <- !app_assoc in Ho1; exact (tail_app _ _ _ _ Ho1)).
           cbn [d_suffix m_decor set_suffix put]. destruct g3 as [|c3 g3].
           - rewrite rw_nil. cbn [blen] in Eo. rewrite N.add_0_r in Eo. subst o2. exact (from_at inp o1 (h ++ x) A1).
           - rewrite rw_ne by discriminate. replace (raw_of_span (o1, snd (o2, o2 + blen (h ++ x)))) with (rw o1 ((c3 :: g3) ++ h ++ x)); [exact (from_at inp o1 _ A1)|].
             unfold rw, sp_of. rewrite (blen_app (c3 :: g3)). cbn [snd]. f_equal. f_equal. lia. }
      unfold line_ending. apply eat_taken; [|exact I]. apply eat_alt1. now apply eat_tag.
Qed.
Lemma back_object_loop n rest t l tr : OBJ rest t l tr -> (length t < n)%nat -> forall k done acc (Q : xexpr -> Prop), (length t < k)%nat -> Forall2 back_fits done acc -> ForallOrdPairs back_apart (done ++ l) ->
  (forall m is x, Forall2 back_fits (done ++ l) is -> raw_despan inp x = raw_of_str tr -> Q (XObj m is x)) -> eat inp (object_loop items_insert (Rn n) k acc) t Q ([125] ++ rest).
Proof.
  intros H Hn. induction H as [w Hw|w tk g1 a g2 tv g3 K Q0 Hw G1 G2 G3 Ho KS HK Hov HS HV|w tk g1 a g2 tv g3 z te t K Q0 t2 l tr Hw G1 G2 G3 Hst Ho KS HK Hov HS HV H IH];
    intros k done acc Q Hk Hd Ha HQ; (destruct k as [|k]; [lia|]); cbn [object_loop].
  - apply (eat_bind' _ _ _ w [] (fun x => raw_despan inp x = raw_of_str w)); [now rewrite app_nil_r|apply eat_raw_gap; [exact Hw|split; reflexivity|auto]|]. intros x Hx.
    apply (eat_bind _ _ [] [] (eq 125)); [apply (eat_peek any [125]); now apply eat_any|]. intros c <-. cbn [N.eqb Pos.eqb]. apply eat_ret. apply HQ; [now rewrite app_nil_r|exact Hx].
  - rewrite !app_length in Hn. destruct Ho as (c & tk' & Etk & Hc & Hid). assert (Ho : opens tk) by (exists c, tk'; auto).
    apply (eat_bind _ _ w _ (from w)).
    { rewrite <- app_assoc. apply eat_raw_from; [exact Hw|now apply (opens_clear u HU)|auto]. }
    intros tr Htr. apply (eat_bind _ _ [] _ (eq c)).
    { rewrite Etk. apply (eat_peek any [c]). now apply eat_any. }
    intros c0 <-. rewrite (first_char_not u HU c 125) by (auto; lia).
    apply (eat_bind' _ _ _ (tk ++ g1 ++ assign_str a ++ g2 ++ tv ++ g3 ++ []) [] (fun p => back_fits (OItem (kslot w g1 K) a (slot g2 g3 Q0) TNone) (fst p) /\ snd p = true)); [now rewrite !app_nil_r| |].
    + apply back_object_item; auto; [lia|split; reflexivity|]. intros v Hv. unfold item_end. apply (eat_bind _ _ [] [] (eq 125)); [apply (eat_peek any [125]); now apply eat_any|].
      intros c0 <-. cbn [N.eqb Pos.eqb]. apply eat_ret. cbn [fst snd]. apply ends_in_slot in Hv. auto.
    + intros [i e] [Hi He]. cbn [fst snd] in *. subst e. apply eat_ret.
      rewrite (back_insert i acc _ done Hd Hi (back_apart_done _ _ _ Ha)). apply HQ; [apply Forall2_app; auto|reflexivity].
  - rewrite !app_length in Hn, Hk. destruct Ho as (c & tk' & Etk & Hc & Hid). assert (Ho : opens tk) by (exists c, tk'; auto).
    assert (Lk : (1 <= length tk)%nat) by (rewrite Etk; cbn; lia).
    replace ((w ++ tk ++ g1 ++ assign_str a ++ g2 ++ tv ++ g3 ++ te) ++ t2) with (w ++ (tk ++ g1 ++ assign_str a ++ g2 ++ tv ++ g3 ++ te) ++ t2) by now rewrite <- !app_assoc.
    apply (eat_bind _ _ w _ (from w)).
    { rewrite <- !app_assoc. apply eat_raw_from; [exact Hw|now apply (opens_clear u HU)|auto]. }
    intros tr0 Htr. apply (eat_bind _ _ [] _ (eq c)).
    { rewrite Etk. apply (eat_peek any [c]). now apply eat_any. }
    intros c0 <-. rewrite (first_char_not u HU c 125) by (auto; lia).
    apply (eat_bind _ _ _ t2 (fun p => back_fits (OItem (kslot w g1 K) a (slot g2 (g3 ++ z) Q0) t) (fst p) /\ snd p = false)).
    + apply back_object_item; auto; [lia|now apply (stop_clear t z)|]. intros v Hv. now apply (back_item_end v t z).
    + intros [i e] [Hi He]. cbn [fst snd] in *. subst e.
      rewrite (back_insert i acc _ done Hd Hi (back_apart_done _ _ _ Ha)). apply (IH ltac:(lia) k (done ++ [OItem (kslot w g1 K) a (slot g2 (g3 ++ z) Q0) t])); [lia|apply Forall2_app; auto| |].
      * now rewrite <- app_assoc.
      * intros m is x. rewrite <- app_assoc. apply HQ.
Qed.
Lemma back_object nl t l tr (Q : xexpr -> Prop) rest : OBJ rest t l tr -> miss inp for_ahead (t ++ [125] ++ rest) -> ForallOrdPairs back_apart l ->
  (forall m is x, Forall2 back_fits l is -> raw_despan inp x = raw_of_str tr -> Q (XObj m is x)) ->
  START nl ([123] ++ t ++ [125]) nl Q rest.
Proof.
  intros H HM Ha HQ n Hn. rewrite !app_length in Hn. cbn [length] in Hn. unfold term_start. cbn [app]. apply eat_dispatch. cbn [N.eqb Pos.eqb]. unfold object.
  change (123 :: t ++ [125]) with ([123] ++ t ++ [125]). apply (eat_bind _ _ [123] _ T); [now apply eat_char|]. intros _ _.
  apply (eat_bind _ _ t [125] (fun p => Q (fst p) /\ snd p = nl)).
  - apply eat_items; [exact HM|]. apply eat_pmap. cbn [fst snd]. apply (eat_imp _ _ Q); [|auto].
    intros o Ho. unfold object_items. cbn [snd]. eapply (back_object_loop n rest t l tr H ltac:(lia) _ [] []); [rewrite app_length; lia|constructor|exact Ha|exact HQ|exact Ho].
  - intros x Hx. apply (eat_bind' _ _ _ [125] [] T); [reflexivity|apply eat_cut; now apply eat_char|]. intros _ _. now apply eat_ret.
Qed.

(** ** For expressions *)
Definition opt_gid (k : option gid) : str := match k with Some k => gid_text k ++ [44] | None => [] end.
Definition opt_gid_ok (k : option gid) : Prop := match k with Some k => gid_ok true k | None => True end.
Definition for_char (c : N) : bool := (c =? 32) || (c =? 9) || (c =? 35) || (c =? 47) || (c =? 10).
Definition for_next (s : str) : Prop := exists c r, s = c :: r /\ for_char c = true.
(** Loop variables and collection. *)
Definition loop_text (k : option gid) (v : gid) (tc : str) : str := opt_gid k ++ gid_text v ++ lit "in" ++ tc.
Definition loop_fits (k : option gid) (v : gid) (kv : option did) (vv : did) : Prop := match k, kv with Some k, Some i => gid_fits k i | None, None => True | _, _ => False end /\ gid_fits v vv.
Definition back_intro (g : str) (k : option gid) (v : gid) (P : xexpr -> Prop) (i : intro_t) : Prop := let '(m, (kv, vv, c)) := i in wears (Some g) None m /\ loop_fits k v kv vv /\ P c.
Lemma for_head g t r : Gap true g -> for_next t -> eat inp (peek for_ahead) [] T (g ++ lit "for" ++ t ++ r).
Proof.
  intros Hg (c & t' & -> & Hc). replace (g ++ lit "for" ++ (c :: t') ++ r) with ((g ++ lit "for" ++ [c]) ++ t' ++ r) by now rewrite <- !app_assoc.
  apply eat_peek. apply (eat_bind _ _ g _ T); [apply (eat_gap true); [exact Hg|split; reflexivity]|]. intros _ _.
  apply (eat_bind _ _ (lit "for") [c] T); [now apply eat_tag|]. intros _ _. now apply eat_one_of.
Qed.
Lemma back_for {A} (f i : parser A) g t (Q : A -> Prop) rest : Gap true g -> for_next t -> eat inp f (g ++ lit "for" ++ t) Q rest -> eat inp (for_expr_or_items f i) (g ++ lit "for" ++ t) Q rest.
Proof.
  intros Hg Hf H o Ht. pose proof (for_head g t rest Hg Hf) as E.
  destruct (E o) as (a & Ea & _); [repeat rewrite <- app_assoc in Ht; exact Ht|]. unfold for_expr_or_items. unfold peek in Ea.
  repeat rewrite <- app_assoc. repeat rewrite <- app_assoc in Ht.
  match type of Ea with match ?x with _ => _ end = _ => destruct x eqn:Ex; try discriminate end.
  cbn [app] in Ex |- *. rewrite Ex. specialize (H o). repeat rewrite <- app_assoc in H. cbn [app] in H. now apply H.
Qed.
(** The loop variables, up to the word [in]; used by expressions and directives. *)
Lemma back_loop_vars {A} k v (K : option did -> did -> parser A) t (Q : A -> Prop) rest : opt_gid_ok k -> gid_ok true v -> snd v <> [] ->
  (forall x (y : option did), loop_fits k v (match y with Some _ => Some x | None => None end) (match y with Some y => y | None => x end) -> eat inp (cut (tag (lit "in")) ;; K y x) (lit "in" ++ t) Q rest) ->
  eat inp (x <- decorated_ident u ;; y <- opt (char 44 ;; decorated_ident u) ;; cut (tag (lit "in")) ;; K y x) (opt_gid k ++ gid_text v ++ lit "in" ++ t) Q rest.
Proof.
  intros Hk (V1 & V2 & V3) Hv HK. unfold decorated_ident.
  assert (EV : forall r, eat inp (decorated did_upd ws (cut (ident u)) ws) (gid_text v) (gid_fits v) ((lit "in" ++ t) ++ r)).
  { intros r. apply (back_did true true); auto; [apply (gap_ends_id true); [exact V3|now right]|split; reflexivity|now split]. }
  destruct k as [k|]; cbn [opt_gid].
  - destruct Hk as (K1 & K2 & K3). replace ((gid_text k ++ [44]) ++ gid_text v ++ lit "in" ++ t) with (gid_text k ++ ([44] ++ gid_text v) ++ lit "in" ++ t) by now rewrite <- !app_assoc.
    apply (eat_bind _ _ _ _ (gid_fits k)).
    { apply (back_did true true); auto; [apply (gap_ends_id true); [exact K3|left; apply (not_cont u HU); [lia|reflexivity]]|split; reflexivity|now split]. }
    intros x Hx. apply (eat_bind _ _ _ _ (fun o => exists y, o = Some y /\ gid_fits v y)).
    { apply eat_opt. apply (eat_bind _ _ [44] _ T); [now apply eat_char|]. intros _ _. eapply eat_imp; [apply EV|]. cbv beta. eauto. }
    intros o (y & -> & Hy). apply HK. split; [exact Hx|exact Hy].
  - cbn [app]. apply (eat_bind _ _ _ _ (gid_fits v)); [apply EV|].
    intros x Hx. apply (eat_bind _ _ [] _ (eq None)).
    { apply eat_opt_none; [apply miss_bind1, miss_char; reflexivity|reflexivity]. }
    intros o <-. apply HK. now split.
Qed.
Lemma back_for_intro n g k v gc tc gc' (P : xexpr -> Prop) rest : Gap true g -> (length tc < n)%nat -> opt_gid_ok k -> gid_ok true v -> snd v <> [] -> Gap true gc -> Gap true gc' ->
  opens tc -> stable P -> EXPR false tc P (gc' ++ [58] ++ rest) ->
  eat inp (for_intro u (Rn n)) (g ++ lit "for" ++ loop_text k v (gc ++ tc ++ gc') ++ [58]) (back_intro g k v (slot gc gc' P)) rest.
Proof.
  intros Hg Hn Hk Hv Hv' G1 G2 Ho HS HP. unfold for_intro.
  apply (worn_prefix intro_upd fst true _ g (lit "for" ++ loop_text k v (gc ++ tc ++ gc') ++ [58]) (fun i => fst i = no_meta /\ let '(_, (kv, vv, c)) := i in loop_fits k v kv vv /\ slot gc gc' P c) _ rest); [reflexivity|exact Hg|split; reflexivity| |].
  2: { intros f h [m [[kv vv] c]] [-> Hx] Hw. split; [exact (Hw eq_refl)|exact Hx]. }
  unfold loop_text. apply (eat_bind _ _ (lit "for") _ T); [now apply eat_tag|]. intros _ _.
  replace ((opt_gid k ++ gid_text v ++ lit "in" ++ gc ++ tc ++ gc') ++ [58]) with (opt_gid k ++ gid_text v ++ lit "in" ++ (gc ++ tc ++ gc') ++ [58]) by now rewrite <- !app_assoc.
  apply back_loop_vars; auto. intros x y Hxy.
  apply (eat_bind _ _ (lit "in") _ T); [apply eat_cut; now apply eat_tag|]. intros _ _.
  apply (eat_bind _ _ _ [58] (slot gc gc' P)); [apply (worn_dexpr u b pf HU _ _ _ _ _ P); auto; [split; reflexivity|now split]|]. intros c Hc.
  apply (eat_bind' _ _ _ [58] [] T); [reflexivity|apply eat_cut; now apply eat_char|]. intros _ _. apply eat_ret. split; [reflexivity|].
  destruct y; split; auto.
Qed.
Definition cond_meta (c : xcond) : meta := match c with XForCond m _ => m end.
(** The condition: the gap before it belongs to what precedes. *)
Definition gcond : Type := str * str * str.
Definition back_cond_text (tc : option gcond) : str := match tc with Some (g1, t, g2) => lit "if" ++ g1 ++ t ++ g2 | None => [] end.
Definition BCOND (tc : option gcond) (P : xexpr -> Prop) (rest : str) : Prop :=
  match tc with Some (g1, t, g2) => Gap true g1 /\ Gap true g2 /\ opens t /\ stable P /\ EXPR true t P (g2 ++ rest) | None => True end.
Definition back_cond_fits (h : str) (tc : option gcond) (P : xexpr -> Prop) (c : option xcond) : Prop :=
  match tc, c with Some (g1, _, g2), Some (XForCond m e) => wears (Some h) None m /\ slot g1 g2 P e | None, None => True | _, _ => False end.
Lemma back_for_cond n tc (P : xexpr -> Prop) c rest : c = 93 \/ c = 125 -> (length (back_cond_text tc) < n)%nat -> BCOND tc P ([c] ++ rest) -> eat inp (opt (for_cond (Rn n) true)) (back_cond_text tc) (back_cond_fits [] tc P) ([c] ++ rest).
Proof.
  intros Hc Hn HC. assert (Cc : clear true ([c] ++ rest)) by (destruct Hc as [-> | ->]; split; reflexivity). destruct tc as [[[g1 t] g2]|]; cbn [back_cond_text BCOND back_cond_fits] in *.
  - destruct HC as (G1 & G2 & Ho & HS & H). rewrite !app_length in Hn. apply eat_opt. unfold for_cond.
    apply (worn_prefix cond_upd cond_meta true _ [] (lit "if" ++ g1 ++ t ++ g2) (fun c => match c with XForCond m e => m = no_meta /\ slot g1 g2 P e end)); [now intros f []|constructor|split; reflexivity| |intros f h [m e] [-> Hx] Hw; split; [exact (Hw eq_refl)|exact Hx]].
    apply (eat_bind _ _ (lit "if") _ T); [now apply eat_tag|]. intros _ _. apply eat_pmap.
    apply (worn_dexpr u b pf HU _ _ _ _ _ P); auto; [lia|now split].
  - apply eat_opt_none; [|exact I]. unfold for_cond, prefix_decorated. apply (miss_bind2 (pspan ws) _ [] T ([c] ++ rest)).
    + apply eat_pspan; [|intros; exact I]. now apply (eat_gap true [] _ (Gap_nil true)).
    + intros sp0 _. apply miss_bind1. unfold spanned. apply miss_bind1, miss_with_span, miss_bind1, miss_tag. destruct Hc as [-> | ->]; reflexivity.
Qed.
Lemma bcond_clear tc c r : c = 93 \/ c = 125 -> clear true (back_cond_text tc ++ [c] ++ r).
Proof. intros Hc. destruct tc as [[[g1 t] g2]|]; [split; reflexivity|]. destruct Hc as [-> | ->]; split; reflexivity. Qed.
Lemma back_for_list nl g k v gc tc gc' (Pc : xexpr -> Prop) g1 tv g2 (Pv : xexpr -> Prop) tf (Pf : xexpr -> Prop) (Q : xexpr -> Prop) rest :
  Gap true g -> opt_gid_ok k -> gid_ok true v -> snd v <> [] -> Gap true gc -> Gap true gc' -> Gap true g1 -> Gap true g2 ->
  for_next (loop_text k v (gc ++ tc ++ gc')) ->
  opens tc -> stable Pc -> EXPR false tc Pc (gc' ++ [58] ++ (g1 ++ tv ++ g2) ++ back_cond_text tf ++ [93] ++ rest) ->
  opens tv -> stable Pv -> EXPR true tv Pv (g2 ++ back_cond_text tf ++ [93] ++ rest) -> BCOND tf Pf ([93] ++ rest) ->
  (forall m im kv vv c e f, wears (Some g) None im -> loop_fits k v kv vv -> slot gc gc' Pc c -> slot g1 g2 Pv e -> back_cond_fits [] tf Pf f -> Q (XFor m im kv vv c None e false f)) ->
  START nl ([91] ++ (g ++ lit "for" ++ (loop_text k v (gc ++ tc ++ gc') ++ [58]) ++ (g1 ++ tv ++ g2) ++ back_cond_text tf) ++ [93]) true Q rest.
Proof.
  intros Hg Hk Hv Hv' G1 G2 G3 G4 Hnx Hoc Sc Hc Hov Sv HV HF HQ n Hn. apply dispatch_array. unfold array. apply (eat_bind _ _ [91] _ T); [now apply eat_char|]. intros _ _.
  repeat rewrite app_length in Hn. cbn [length] in Hn.
  assert (Ltc : (length tc <= length (loop_text k v (gc ++ tc ++ gc')))%nat) by (unfold loop_text; repeat rewrite app_length; lia).
  apply (eat_bind _ _ _ [93] Q).
  2: { intros x Hx. apply (eat_bind' _ _ _ [93] [] T); [reflexivity|apply eat_cut; now apply eat_char|]. intros _ _. now apply eat_ret. }
  apply back_for; [exact Hg| |].
  { destruct Hnx as (c & r & -> & Hnx). cbn [app]. eexists _, _. split; [reflexivity|exact Hnx]. }
  unfold for_list_expr. replace (g ++ lit "for" ++ (loop_text k v (gc ++ tc ++ gc') ++ [58]) ++ (g1 ++ tv ++ g2) ++ back_cond_text tf)
    with ((g ++ lit "for" ++ loop_text k v (gc ++ tc ++ gc') ++ [58]) ++ (g1 ++ tv ++ g2) ++ back_cond_text tf) by now rewrite <- !app_assoc.
  apply (eat_bind _ _ _ _ (back_intro g k v (slot gc gc' Pc))); [apply back_for_intro; auto; [lia|repeat rewrite <- app_assoc in *; exact Hc]|].
  intros [im [[kv vv] c]] (H0 & H1 & H3). apply (eat_bind _ _ _ _ (slot g1 g2 Pv)).
  { apply (worn_dexpr u b pf HU _ _ _ _ _ Pv); auto; [lia|apply bcond_clear; now left|now split]. }
  intros e He. apply (eat_bind' _ _ _ (back_cond_text tf) [] (back_cond_fits [] tf Pf)); [now rewrite app_nil_r|apply back_for_cond; auto; lia|]. intros f Hf. apply eat_ret. now apply HQ.
Qed.
(** Before the condition of an object: a gap, or "..." and a gap. *)
Lemma back_for_object nl g k v gc tc gc' (Pc : xexpr -> Prop) g1 tk g2 (Pk : xexpr -> Prop) g3 tv g4 (Pv : xexpr -> Prop) (gr : bool) g5 tf (Pf : xexpr -> Prop) (Q : xexpr -> Prop) rest :
  Gap true g -> opt_gid_ok k -> gid_ok true v -> snd v <> [] -> Gap true gc -> Gap true gc' -> Gap true g1 -> Gap true g2 -> Gap true g3 -> Gap true g4 -> Gap true g5 -> (gr = false -> g5 = []) ->
  for_next (loop_text k v (gc ++ tc ++ gc')) ->
  let r3 := back_cond_text tf ++ [125] ++ rest in let r2 := group_text gr ++ g5 ++ r3 in let r1 := lit "=>" ++ (g3 ++ tv ++ g4) ++ r2 in
  opens tc -> stable Pc -> EXPR false tc Pc (gc' ++ [58] ++ (g1 ++ tk ++ g2) ++ r1) ->
  opens tk -> stable Pk -> EXPR false tk Pk (g2 ++ r1) ->
  opens tv -> stable Pv -> EXPR false tv Pv (g4 ++ r2) -> BCOND tf Pf ([125] ++ rest) ->
  (forall m im kv vv c x e f, wears (Some g) None im -> loop_fits k v kv vv -> slot gc gc' Pc c -> slot g1 g2 Pk x -> slot g3 g4 Pv e -> back_cond_fits g5 tf Pf f -> Q (XFor m im kv vv c (Some x) e gr f)) ->
  START nl ([123] ++ (g ++ lit "for" ++ (loop_text k v (gc ++ tc ++ gc') ++ [58]) ++ (g1 ++ tk ++ g2) ++ lit "=>" ++ (g3 ++ tv ++ g4) ++ (group_text gr ++ g5) ++ back_cond_text tf) ++ [125]) true Q rest.
Proof.
  intros Hg Hk Hv Hv' G1 G2 G3 G4 G5 G6 G7 Hgr Hnx r3 r2 r1 Hoc Sc Hc Hok Sk HK Hov Sv HV HF HQ n Hn. unfold term_start.
  set (body := g ++ lit "for" ++ (loop_text k v (gc ++ tc ++ gc') ++ [58]) ++ (g1 ++ tk ++ g2) ++ lit "=>" ++ (g3 ++ tv ++ g4) ++ (group_text gr ++ g5) ++ back_cond_text tf) in *.
  cbn [app]. apply eat_dispatch. cbn [N.eqb Pos.eqb]. unfold object.
  assert (Ltc : (length tc <= length (loop_text k v (gc ++ tc ++ gc')))%nat) by (unfold loop_text; repeat rewrite app_length; lia).
  rewrite !app_length in Hn. unfold body in Hn. repeat (rewrite app_length in Hn; cbn [length] in Hn).
  change (123 :: body ++ [125]) with ([123] ++ body ++ [125]). apply (eat_bind _ _ [123] _ T); [now apply eat_char|]. intros _ _.
  apply (eat_bind _ _ body [125] (fun p => Q (fst p) /\ snd p = true)).
  2: { intros x Hx. apply (eat_bind' _ _ _ [125] [] T); [reflexivity|apply eat_cut; now apply eat_char|]. intros _ _. now apply eat_ret. }
  unfold body. apply back_for; [exact Hg| |].
  { destruct Hnx as (c & r & -> & Hnx). cbn [app]. eexists _, _. split; [reflexivity|exact Hnx]. }
  unfold for_object_expr.
  match goal with |- eat _ _ (g ++ lit "for" ++ (loop_text ?a ?b0 ?c ++ [58]) ++ ?q) _ _ =>
    replace (g ++ lit "for" ++ (loop_text a b0 c ++ [58]) ++ q) with ((g ++ lit "for" ++ loop_text a b0 c ++ [58]) ++ q) by now rewrite <- !app_assoc end.
  apply (eat_bind _ _ _ _ (back_intro g k v (slot gc gc' Pc))).
  { apply back_for_intro; auto; [lia|]. unfold r1, r2, r3 in Hc. repeat rewrite <- app_assoc in *. exact Hc. }
  intros [im [[kv vv] c]] (H0 & H1 & H3).
  apply (eat_bind _ _ _ _ (slot g1 g2 Pk)).
  { apply (worn_dexpr u b pf HU _ _ _ _ _ Pk); auto; [|lia|split; reflexivity|now split]. unfold r1, r2, r3 in HK. repeat rewrite <- app_assoc in *. exact HK. }
  intros x Hx. apply (eat_bind _ _ (lit "=>") _ T); [apply eat_cut; now apply eat_tag|]. intros _ _.
  assert (Cc : clear true (r2)). { unfold r2, r3. destruct gr; [split; reflexivity|]. rewrite Hgr by reflexivity. apply bcond_clear. now right. }
  apply (eat_bind _ _ _ _ (slot g3 g4 Pv)).
  { replace (((group_text gr ++ g5) ++ back_cond_text tf) ++ [125] ++ rest) with r2 by (unfold r2, r3; now rewrite <- !app_assoc). apply (worn_dexpr u b pf HU _ _ _ _ _ Pv); auto; [lia|now split]. }
  intros e He. apply (eat_bind _ _ _ _ (fun o : option raw => (if o then true else false) = gr /\ match o with Some r => from g5 r | None => True end)).
  { destruct gr; cbn [group_text].
    - apply eat_opt. apply (eat_bind _ _ (lit "...") _ T); [now apply eat_tag|]. intros _ _. apply eat_raw_from; [exact G7|apply bcond_clear; now right|auto].
    - rewrite Hgr by reflexivity. cbn [app]. apply eat_opt_none; [|auto]. apply miss_bind1, miss_tag. destruct tf as [[[q1 t] q2]|]; reflexivity. }
  intros gt [Hgt Hfrom]. apply (eat_bind' _ _ _ (back_cond_text tf) [] (back_cond_fits [] tf Pf)); [now rewrite app_nil_r|apply back_for_cond; auto; lia|]. intros f Hf. apply eat_ret.
  destruct gt as [gt|]; cbn in Hgt; subst gr; [destruct f as [[mc fe]|]|]; cbn [fst snd]; split; try reflexivity; apply HQ; auto.
  - cbn [cond_upd]. destruct tf as [[[q1 t] q2]|]; [|exact Hf]. destruct Hf as [[_ F1] F2]. split; [|exact F2]. split; [exact Hfrom|exact F1].
  - rewrite Hgr by reflexivity. exact Hf.
Qed.
End Coll.

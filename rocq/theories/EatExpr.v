(** * Parsing succeeds: terms, operators and conditionals *)
From Coq Require Import NArith ZArith Arith Bool String List Lia.
From Verif Require Import Res Str Dec NumberModel PrimModel PrimProofs EAst ParseBase ParseModel ParseLemmas PrattSpec PrattProofs Grammar Eat StrSpec StrProofs EatLeaf.
Import ListNotations.
Open Scope N_scope.

Ltac lits := repeat match goal with |- context [lit ?s] => let l := eval vm_compute in (lit s) in change (lit s) with l end.
Ltac lits_in H := repeat match type of H with context [lit ?s] => let l := eval vm_compute in (lit s) in change (lit s) with l in H end.
(** Nothing goes on here: no traversal, no operator, no comment. *)
Definition stop (r : str) : bool :=
  match r with
  | [] => true
  | c :: r' =>
      if c =? 61 then negb (starts_with [61] r')
      else if c =? 46 then starts_with [46] r'
      else negb (existsb (N.eqb c) (lit "#/!<>+-*%&|?["))
  end.
Definition halt (nl : bool) (rest : str) : Prop := stop (skip nl rest) = true.
(** No traversal goes on here. *)
Definition flat (r : str) : bool :=
  nocomment r && match r with [] => true | c :: r' => if c =? 46 then starts_with [46] r' else negb (c =? 91) end.
Definition level (nl : bool) (rest : str) : Prop := flat (skip nl rest) = true.

Lemma stop_char c r k : stop (c :: r) = true -> existsb (N.eqb k) (lit "#/!<>+-*%&|?[") = true -> (c =? k) = false.
Proof.
  intros H Hk. destruct (N.eqb_spec c k) as [->|]; [|reflexivity]. cbn [stop] in H. destruct (N.eqb_spec k 61) as [E|_]; [rewrite E in Hk; discriminate Hk|].
  destruct (N.eqb_spec k 46) as [E|_]; [rewrite E in Hk; discriminate Hk|]. rewrite Hk in H. discriminate.
Qed.
Lemma stop_nocomment r : stop r = true -> nocomment r = true.
Proof.
  intros H. unfold nocomment. destruct r as [|c r]; [reflexivity|]. change (lit "//") with [47; 47]. change (lit "/*") with [47; 42]. cbn [starts_with].
  rewrite (N.eqb_sym 35 c), (N.eqb_sym 47 c). rewrite !(stop_char c r _ H) by reflexivity. reflexivity.
Qed.
Lemma stop_flat r : stop r = true -> flat r = true.
Proof.
  intros H. unfold flat. rewrite stop_nocomment by exact H. destruct r as [|c r]; [reflexivity|]. cbn [andb].
  rewrite (stop_char c r 91 H) by reflexivity. cbn [stop] in H. destruct (N.eqb_spec c 46) as [->|]; [exact H|reflexivity].
Qed.
Lemma halt_level nl rest : halt nl rest -> level nl rest.
Proof. apply stop_flat. Qed.
Lemma l2_head r f : (forall c r', r = c :: r' -> f c = false) -> head_is f (l2 r) = false.
Proof. intros H. unfold l2. destruct r as [|c [|d r]]; [reflexivity|reflexivity|]. cbn. now apply (H c (d :: r)). Qed.
Lemma l2_two r a b : opt_seqb (l2 r) [a; b] = starts_with [a; b] r.
Proof.
  unfold l2. destruct r as [|c [|d r]]; [reflexivity| |].
  - cbn. now rewrite andb_false_r.
  - cbn [length Nat.leb firstn opt_seqb seqb starts_with]. rewrite andb_true_r, (N.eqb_sym c a), (N.eqb_sym d b). now rewrite andb_true_r.
Qed.
Lemma starts2 a b r : starts_with [a; b] (a :: r) = starts_with [b] r.
Proof. destruct r; cbn [starts_with]; rewrite N.eqb_refl; reflexivity. Qed.
Lemma flat_trav r : flat r = true -> trav2 (l2 r) = false.
Proof.
  intros H. unfold trav2. change (lit "..") with [46; 46]. rewrite l2_two. unfold flat in H. apply andb_true_iff in H. destruct H as [_ H].
  destruct r as [|c r]; [reflexivity|]. destruct (N.eqb_spec c 46) as [->|Hc].
  - rewrite starts2, H. reflexivity.
  - rewrite andb_false_iff. right. apply l2_head. intros c' r' [= <- <-]. apply N.eqb_neq in Hc. rewrite Hc. now apply negb_true_iff in H.
Qed.
Lemma stop_op r : stop r = true -> op2 (l2 r) = false.
Proof.
  intros H. unfold op2, binop_ahead. change (lit "//") with [47; 47]. change (lit "/*") with [47; 42]. change (lit "==") with [61; 61]. rewrite !l2_two.
  destruct r as [|c r]; [reflexivity|].
  assert (E61 : starts_with [61; 61] (c :: r) = false).
  { cbn [stop] in H. destruct (N.eqb_spec c 61) as [->|Hc].
    - apply negb_true_iff in H. now rewrite starts2.
    - cbn [starts_with]. rewrite N.eqb_sym. apply N.eqb_neq in Hc. now rewrite Hc. }
  rewrite E61. cbn [orb]. rewrite orb_false_iff, andb_false_iff. split; [|right]; apply l2_head; intros c' r' [= <- <-].
  - rewrite N.eqb_sym. now apply (stop_char c r).
  - rewrite !(stop_char c r _ H) by reflexivity. reflexivity.
Qed.

Lemma eat_loop_imp inp {A} (p : parser A) t (Q Q' : list A -> Prop) r : eat_loop inp p t Q r -> (forall l, Q l -> Q' l) -> eat_loop inp p t Q' r.
Proof. intros H HI n o Ht Hn. destruct (H n o Ht Hn) as (l & E & HQ). eauto. Qed.

(** No binary operator here. *)
Definition nobin (r : str) : bool :=
  nocomment r && match r with
                 | [] => true
                 | c :: r' => if c =? 61 then negb (starts_with [61] r') else negb (existsb (N.eqb c) (lit "/!<>+-*%&|"))
                 end.
Lemma stop_nobin r : stop r = true -> nobin r = true.
Proof.
  intros H. unfold nobin. rewrite stop_nocomment by exact H. destruct r as [|c r]; [reflexivity|]. cbn [andb].
  destruct (N.eqb_spec c 61) as [->|].
  - exact H.
  - lits. cbn [existsb]. rewrite !(stop_char c r _ H) by reflexivity. reflexivity.
Qed.

Section Expr.
Context {inp : str} (u : unicode) (b : build) (pf : str -> f64).
Context (HU : ascii_exact u).
Notation Rn n := (recs_at u b pf pratt_group items_insert n).
Notation startp n nl := (term_start u b pf items_insert (Rn n) nl).
Notation termp n nl := (expr_term u b pf items_insert (Rn n) nl).
Notation exprp n nl := (pexpr u b pf pratt_group items_insert (Rn n) nl).

(** The first character of an expression. *)
Definition first_char (c : N) : bool :=
  existsb (N.eqb c) (lit """[{<-!(") || is_digit c || is_id_start u c.
(** The text of an expression that does not start with the word [for]. *)
Definition opens (t : str) : Prop := exists c t', t = c :: t' /\ first_char c = true /\
  (is_id_start u c = true -> exists x r, t = x ++ r /\ is_ident u x = true /\ ends (is_id_continue u) r /\ x <> lit "for").
Lemma opens_id x r : is_ident u x = true -> ends (is_id_continue u) r -> x <> lit "for" -> opens (x ++ r).
Proof.
  intros H1 H2 H3. destruct x as [|c x]; [discriminate|]. exists c, (x ++ r). split; [reflexivity|]. split; [|intros _; exists (c :: x), r; auto].
  unfold first_char. cbn [is_ident] in H1. apply andb_true_iff in H1. destruct H1 as [-> _]. now rewrite !orb_true_r.
Qed.
Lemma opens_other c t : existsb (N.eqb c) (lit """[{<-!(") || is_digit c = true -> opens (c :: t).
Proof.
  intros H. exists c, t. split; [reflexivity|]. split; [unfold first_char; now rewrite H|]. intros Hs. exfalso.
  rewrite (id_start_digit u HU c Hs), orb_false_r in H. apply existsb_exists in H. destruct H as (k & Hk & E). apply N.eqb_eq in E. subst k.
  assert (F := id_start_not u HU c c Hs). rewrite N.eqb_refl in F.
  cbn in Hk. destruct Hk as [<-|[<-|[<-|[<-|[<-|[<-|[<-|[]]]]]]]]; discriminate F; (lia || reflexivity).
Qed.
Lemma opens_app t r : opens t -> ends (is_id_continue u) r -> opens (t ++ r).
Proof.
  intros (c & t' & -> & H1 & H2) Hr. exists c, (t' ++ r). split; [reflexivity|]. split; [exact H1|]. intros Hs.
  destruct (H2 Hs) as (x & r' & E & Hx & He & Hf). exists x, (r' ++ r). rewrite app_assoc, <- E. repeat split; auto. destruct r'; auto.
Qed.
(** No blank, no comment at the start of an expression. *)
Lemma first_char_not c k : first_char c = true -> k < 128 -> is_ascii_letter k || (k =? 95) || is_digit k || existsb (N.eqb k) (lit """[{<-!(") = false -> (c =? k) = false.
Proof.
  intros H Hk Hn. destruct (N.eqb_spec c k) as [->|]; [|reflexivity]. exfalso. rewrite !orb_false_iff in Hn. destruct Hn as [[[H1 H2] H3] H4].
  unfold first_char in H. rewrite H4, H3 in H. cbn [orb] in H. pose proof (id_start_not u HU k k H Hk) as F. rewrite H1, H2, N.eqb_refl in F. now specialize (F eq_refl).
Qed.
Lemma opens_ends nl t r : opens t -> ends (blank nl) (t ++ r).
Proof.
  intros (c & t' & -> & H & _). cbn [app ends]. unfold blank, is_multispace, is_space. destruct nl; rewrite !(first_char_not c) by (try exact H; try lia; reflexivity); reflexivity.
Qed.
Lemma opens_nocomment t r : opens t -> nocomment (t ++ r) = true.
Proof.
  intros (c & t' & -> & H & _). unfold nocomment. change (lit "//") with [47; 47]. change (lit "/*") with [47; 42]. cbn [app starts_with].
  rewrite (N.eqb_sym 35 c), (N.eqb_sym 47 c). rewrite !(first_char_not c) by (try exact H; try lia; reflexivity). reflexivity.
Qed.
Lemma eat_pre nl w t r : forallb (blank nl) w = true -> opens t -> eat inp (ws_or_sp nl) w T (t ++ r).
Proof. intros H1 H2. apply eat_blank; [exact H1|now apply opens_ends|now apply opens_nocomment]. Qed.

(** ** The three levels of expressions *)
Definition START (nl : bool) (t : str) (fl : bool) (Q : xexpr -> Prop) (rest : str) : Prop :=
  forall n, (length t <= n)%nat -> eat inp (startp n nl) t (fun p => Q (fst p) /\ snd p = fl) rest.
Definition TERM (nl : bool) (t : str) (fl : bool) (Q : xexpr -> Prop) (rest : str) : Prop :=
  forall n, (length t <= n)%nat -> eat inp (termp n nl) t (fun p => Q (fst p) /\ snd p = fl) rest.
Definition EXPR (nl : bool) (t : str) (Q : xexpr -> Prop) (rest : str) : Prop :=
  forall n, (length t <= n)%nat -> eat inp (exprp n nl) t Q rest.
Definition stable (Q : xexpr -> Prop) : Prop := forall f x, Q x -> Q (x_upd f x).

Lemma EXPR_rec nl t Q rest n : EXPR nl t Q rest -> (length t < n)%nat -> eat inp (r_expr (Rn n) nl) t Q rest.
Proof. intros H Hn. destruct n as [|n]; [lia|]. apply H. lia. Qed.
Lemma TERM_rec nl t fl (Q : xexpr -> Prop) rest n : TERM nl t fl Q rest -> (length t < n)%nat -> eat inp (r_term (Rn n) nl) t Q rest.
Proof. intros H Hn. destruct n as [|n]; [lia|]. apply eat_pmap. eapply eat_imp; [apply H; lia|]. intros a [Ha _]. exact Ha. Qed.
Lemma EXPR_imp nl t (Q Q' : xexpr -> Prop) rest : EXPR nl t Q rest -> (forall x, Q x -> Q' x) -> EXPR nl t Q' rest.
Proof. intros H HI n Hn. eapply eat_imp; [now apply H|exact HI]. Qed.

(** A term without traversals. *)
Lemma term_plain nl t fl (Q : xexpr -> Prop) rest : START nl t fl Q rest -> stable Q -> level fl rest -> TERM nl t fl Q rest.
Proof.
  intros H HS Hr n Hn. unfold expr_term. apply (eat_bind _ _ [] t T); [now apply eat_pos|]. intros o _.
  apply (eat_bind' _ _ t t [] (fun p => Q (fst (fst p)) /\ snd (fst p) = fl)); [now rewrite app_nil_r| |].
  { apply eat_with_span. eapply eat_imp; [now apply H|]. cbn [fst snd]. auto. }
  intros [[e nl'] s] [HQ E]. cbn [fst snd] in *. subst nl'. intros o' Ht. cbn [app] in *. eexists (_, fl). split; [|split; [apply HS, HQ|reflexivity]].
  unfold level in Hr. pose proof Hr as Hf. unfold flat in Hf. apply andb_true_iff in Hf. destruct Hf as [Hc _].
  destruct (look fl rest Hc o' Ht) as (sp & o'' & ->). apply flat_trav in Hr. unfold trav2 in Hr. rewrite Hr. cbn [blen]. now rewrite N.add_0_r.
Qed.

(** A term with traversals. *)
Definition OP (t : str) (Q : xop -> Prop) (rest : str) : Prop :=
  forall n, (length t <= n)%nat -> eat inp (traversal_operator u (Rn n)) t Q rest.
Definition op_stable (Q : xop -> Prop) : Prop := forall f x, Q x -> Q (op_upd f x).
Definition op_head (t : str) : Prop := exists c t', t = c :: t' /\ t' <> [] /\ ((c = 46 /\ starts_with [46] t' = false) \/ c = 91).
Inductive TRAV (fl : bool) (rest : str) : str -> (list xtrop -> Prop) -> Prop :=
| TRAV_nil (Q : list xtrop -> Prop) : Q [] -> level fl rest -> TRAV fl rest [] Q
| TRAV_cons t1 t2 (P : xop -> Prop) (Q Q' : list xtrop -> Prop) : op_head t1 -> OP t1 P (t2 ++ rest) -> TRAV fl rest t2 Q ->
    (forall m o l, P o -> Q l -> Q' (XTrop m o :: l)) -> TRAV fl rest (t1 ++ t2) Q'.
Notation trav_item n fl := (prefix_decorated trop_upd (ws_or_sp fl) (pnot (tag (lit "..")) ;; pmap (XTrop no_meta) (traversal_operator u (Rn n)))).
Lemma op_head_clear t r : op_head t -> forall fl, ends (blank fl) (t ++ r) /\ nocomment (t ++ r) = true /\ starts_with [46; 46] (t ++ r) = false /\ trav2 (l2 (t ++ r)) = true.
Proof.
  intros (c & t' & -> & Hn & [(-> & H) | ->]) fl; (destruct t' as [|d t']; [congruence|]).
  - assert (S : starts_with [46; 46] ((46 :: d :: t') ++ r) = false) by (cbn [app starts_with] in *; rewrite andb_true_r in *; exact H).
    split; [destruct fl; reflexivity|]. split; [reflexivity|]. split; [exact S|]. unfold trav2. change (lit "..") with [46; 46]. rewrite l2_two, S. reflexivity.
  - split; [destruct fl; reflexivity|]. split; [reflexivity|]. split; [reflexivity|]. unfold trav2. change (lit "..") with [46; 46]. rewrite l2_two. reflexivity.
Qed.
Lemma eat_trav_item fl t P rest n : op_head t -> OP t P rest -> (length t <= n)%nat ->
  eat inp (trav_item n fl) t (fun x => exists m o, x = XTrop m o /\ P o) rest.
Proof.
  intros Hh HO Hn. destruct (op_head_clear t rest Hh fl) as (H1 & H2 & H3 & _). unfold prefix_decorated.
  apply (eat_bind _ _ [] t T); [apply eat_pspan; [now apply eat_blank|]; intros; exact I|]. intros sp1 _.
  apply (eat_bind' _ _ t t [] (fun x => exists m o, x = XTrop m o /\ P o)); [now rewrite app_nil_r| |].
  - unfold spanned. apply (eat_bind' _ _ t t [] (fun p => exists m o, fst p = XTrop m o /\ P o)); [now rewrite app_nil_r| |].
    + apply eat_with_span. apply (eat_bind _ _ [] t T); [apply eat_pnot; [|exact I]; apply miss_tag, H3|]. intros _ _.
      apply eat_pmap. eapply eat_imp; [now apply HO|]. intros o Ho sp2. exists no_meta, o. auto.
    + intros [x sp2] (m & o & E & Ho). cbn [fst] in E. subst x. apply eat_ret. cbn. eauto.
  - intros x (m & o & -> & Ho). apply eat_ret. cbn. eauto.
Qed.
Lemma miss_trav_item fl rest n : level fl rest -> miss inp (trav_item n fl) rest.
Proof.
  intros H. unfold level in H. pose proof H as Hf. unfold flat in Hf. apply andb_true_iff in Hf. destruct Hf as [Hc Hf].
  destruct (@skip_split inp fl rest Hc) as (w & E & Hw). rewrite E. unfold prefix_decorated.
  apply (miss_bind2 _ _ w T); [apply eat_pspan; [exact Hw|]; intros; exact I|]. intros sp0 _. apply miss_bind1. unfold spanned. apply miss_bind1, miss_with_span.
  destruct (starts_with [46; 46] (skip fl rest)) eqn:E2.
  - apply miss_bind1. apply starts_with_spec in E2. destruct E2 as (r & ->). change (lit "..") with [46; 46]. apply (miss_pnot _ [46; 46] T). now apply eat_tag.
  - apply (miss_bind2 (pnot _) _ [] T (skip fl rest)); [apply eat_pnot; [now apply miss_tag|exact I]|]. intros _ _. apply miss_pmap. unfold traversal_operator.
    destruct (skip fl rest) as [|c r]; [apply miss_bind1, miss_any|]. apply (miss_bind2 any _ [c] (eq c)); [now apply eat_any|]. intros a <-.
    destruct (N.eqb_spec c 46) as [->|].
    + rewrite starts2 in E2. congruence.
    + apply negb_true_iff in Hf. rewrite Hf. apply miss_fail.
Qed.
Lemma TRAV_loop fl rest t Q : TRAV fl rest t Q -> forall n, (length t <= n)%nat -> eat_loop inp (trav_item n fl) t Q rest.
Proof.
  induction 1 as [Q HQ Hl|t1 t2 P Q Q' Hh HO HT IH HQ]; intros n Hn.
  - apply eat_loop_nil; [now apply miss_trav_item|exact HQ].
  - rewrite app_length in Hn. apply (eat_loop_cons _ t1 t2 (fun x => exists m o, x = XTrop m o /\ P o)).
    + destruct Hh as (c & t' & -> & _). discriminate.
    + apply eat_trav_item; auto. lia.
    + intros x (m & o & -> & Ho). eapply eat_loop_imp; [apply IH; lia|]. cbv beta. auto.
Qed.
Lemma eat_look {A} fl w t (Q : A -> Prop) rest (K : st -> bspan -> option str -> parser A) :
  forallb (blank fl) w = true -> ends (blank fl) (t ++ rest) -> nocomment (t ++ rest) = true ->
  (forall s0 sp, eat inp (K s0 sp (l2 (t ++ rest))) t Q rest) ->
  eat inp (fun s0 => (suffix <- pspan (ws_or_sp fl) ;; b <- look2 ;; K s0 suffix b) s0) (w ++ t) Q rest.
Proof.
  intros H1 H2 H3 H o Ht. assert (E : eat inp (suffix <- pspan (ws_or_sp fl) ;; b <- look2 ;; K (mk o ((w ++ t) ++ rest)) suffix b) (w ++ t) Q rest).
  { apply (eat_bind _ _ w t T); [apply eat_pspan; [now apply eat_blank|]; intros; exact I|]. intros sp _.
    apply (eat_bind _ _ [] t (eq (l2 (t ++ rest)))); [now apply eat_look2|]. intros a <-. apply H. }
  exact (E o Ht).
Qed.
Lemma eat_look_reset {A} fl w t (Q : A -> Prop) rest (K : st -> bspan -> option str -> parser A) (P : parser A) :
  forallb (blank fl) w = true -> ends (blank fl) (t ++ rest) -> nocomment (t ++ rest) = true ->
  (forall s0 sp s, K s0 sp (l2 (t ++ rest)) s = P s0) -> eat inp P (w ++ t) Q rest ->
  eat inp (fun s0 => (suffix <- pspan (ws_or_sp fl) ;; b <- look2 ;; K s0 suffix b) s0) (w ++ t) Q rest.
Proof.
  intros H1 H2 H3 HK H o Ht. destruct (H o Ht) as (a & E & HQ). exists a. split; [|exact HQ].
  rewrite <- app_assoc in Ht. destruct (@eat_blank inp fl w (t ++ rest) H1 H2 H3 o Ht) as (x & Ex & _).
  unfold bind at 1, pspan, pmap, bind, with_span, ret. rewrite <- app_assoc. rewrite Ex. cbn [snd]. unfold look2. cbn [snd]. 
  change (if Nat.leb 2 (length (t ++ rest)) then Some (firstn 2 (t ++ rest)) else None) with (l2 (t ++ rest)). rewrite HK, app_assoc. exact E.
Qed.
Lemma term_trav nl t fl (Q : xexpr -> Prop) t1 t2 P (Qs : list xtrop -> Prop) (Q' : xexpr -> Prop) rest :
  START nl t fl Q (t1 ++ t2 ++ rest) -> stable Q -> op_head t1 -> OP t1 P (t2 ++ rest) -> TRAV fl rest t2 Qs ->
  (forall m x m' o l, Q x -> P o -> Qs l -> Q' (XTrav m x (XTrop m' o :: l))) -> TERM nl (t ++ t1 ++ t2) fl Q' rest.
Proof.
  intros H HS Hh HO HT HQ n Hn. rewrite !app_length in Hn. unfold expr_term. apply (eat_bind _ _ [] _ T); [now apply eat_pos|]. intros o _.
  apply (eat_bind _ _ t (t1 ++ t2) (fun p => Q (fst (fst p)) /\ snd (fst p) = fl)).
  { apply eat_with_span. rewrite <- app_assoc. eapply eat_imp; [apply H; lia|]. cbn [fst snd]. auto. }
  intros [[e nl'] s] [He E]. cbn [fst snd] in *. subst nl'. 
  destruct (op_head_clear t1 (t2 ++ rest) Hh fl) as (H1 & H2 & H3 & H4).
  apply (eat_look fl [] (t1 ++ t2)); [reflexivity|now rewrite <- app_assoc|now rewrite <- app_assoc|]. intros s0 sp. rewrite <- app_assoc.
  unfold trav2 in H4. rewrite H4. apply (eat_bind' _ _ _ (t1 ++ t2) [] (fun p => exists m o l, fst p = XTrop m o :: l /\ P o /\ Qs l)); [now rewrite app_nil_r| |].
  - apply eat_with_span. unfold traversal. apply (eat_many1 _ t1 t2 (fun x => exists m o, x = XTrop m o /\ P o)).
    + apply eat_trav_item; auto. lia.
    + intros x (m & op & -> & Ho). eapply eat_loop_imp; [eapply TRAV_loop; [exact HT|lia]|]. intros l Hl sp'. cbn [fst]. eauto 6.
  - intros [ops s'] (m & op & l & E & Ho & Hl). cbn [fst snd] in *. subst ops. apply eat_ret. cbn [fst snd]. split; [|reflexivity]. cbn [x_upd]. auto.
Qed.

(** ** Traversal operators *)
Lemma eat_prefix {A} (upd : (meta -> meta) -> A -> A) nl (p : parser A) w t (Q Q' : A -> Prop) rest :
  forallb (blank nl) w = true -> ends (blank nl) (t ++ rest) -> nocomment (t ++ rest) = true ->
  eat inp p t Q rest -> (forall f g x, Q x -> Q' (upd f (upd g x))) -> eat inp (prefix_decorated upd (ws_or_sp nl) p) (w ++ t) Q' rest.
Proof.
  intros H1 H2 H3 H HQ. unfold prefix_decorated. apply (eat_bind _ _ w t T); [apply eat_pspan; [now apply eat_blank|]; intros; exact I|]. intros a _.
  unfold spanned. apply (eat_bind' _ _ t t [] (fun x => forall f, Q' (upd f x))); [now rewrite app_nil_r| |intros x Hx; now apply eat_ret].
  apply (eat_bind' _ _ t t [] (fun p => Q (fst p))); [now rewrite app_nil_r| |intros [x s] Hx; apply eat_ret; intros f; now apply HQ].
  apply eat_with_span. eapply eat_imp; [exact H|]. auto.
Qed.
Lemma eat_suffix {A} (upd : (meta -> meta) -> A -> A) nl (p : parser A) t w (Q Q' : A -> Prop) rest :
  forallb (blank nl) w = true -> ends (blank nl) rest -> nocomment rest = true ->
  eat inp p t Q (w ++ rest) -> (forall f g x, Q x -> Q' (upd f (upd g x))) -> eat inp (suffix_decorated upd p (ws_or_sp nl)) (t ++ w) Q' rest.
Proof.
  intros H1 H2 H3 H HQ. unfold suffix_decorated, spanned. apply (eat_bind _ _ t w (fun x => forall f, Q' (upd f x))).
  - apply (eat_bind' _ _ t t [] (fun p => Q (fst p))); [now rewrite app_nil_r| |intros [x s] Hx; apply eat_ret; intros f; now apply HQ].
    apply eat_with_span. eapply eat_imp; [exact H|]. auto.
  - intros x Hx. apply (eat_bind' _ _ w w [] T); [now rewrite app_nil_r| |intros; now apply eat_ret]. apply eat_pspan; [now apply eat_blank|]. intros; exact I.
Qed.
Lemma eat_decorated {A} (upd : (meta -> meta) -> A -> A) nl (p : parser A) w t w' (Q Q' : A -> Prop) rest :
  forallb (blank nl) w = true -> ends (blank nl) (t ++ w' ++ rest) -> nocomment (t ++ w' ++ rest) = true ->
  forallb (blank nl) w' = true -> ends (blank nl) rest -> nocomment rest = true ->
  eat inp p t Q (w' ++ rest) -> (forall f g x, Q x -> Q' (upd f (upd g x))) ->
  eat inp (decorated upd (ws_or_sp nl) p (ws_or_sp nl)) (w ++ t ++ w') Q' rest.
Proof.
  intros H1 H2 H3 H4 H5 H6 H HQ. unfold decorated. apply (eat_bind _ _ w (t ++ w') T); [apply eat_pspan; [apply eat_blank; auto; now rewrite <- app_assoc|]; intros; exact I|]. intros a _.
  unfold spanned. apply (eat_bind _ _ t w' (fun x => forall f, Q' (upd f x))).
  - apply (eat_bind' _ _ t t [] (fun p => Q (fst p))); [now rewrite app_nil_r| |intros [x s] Hx; apply eat_ret; intros f; now apply HQ].
    apply eat_with_span. eapply eat_imp; [exact H|]. auto.
  - intros x Hx. apply (eat_bind' _ _ w' w' [] T); [now rewrite app_nil_r| |intros; now apply eat_ret]. apply eat_pspan; [now apply eat_blank|]. intros; exact I.
Qed.
(** Expressions between blanks. *)
Lemma eat_dexpr n nl w t w' (Q : xexpr -> Prop) rest : stable Q -> opens t -> EXPR nl t Q (w' ++ rest) -> (length t < n)%nat ->
  forallb is_multispace w = true -> forallb is_multispace w' = true -> ends is_multispace rest -> nocomment rest = true ->
  eat inp (decorated_expr (r_expr (Rn n) nl)) (w ++ t ++ w') Q rest.
Proof.
  intros HS Ho H Hn H1 H2 H3 H4. unfold decorated_expr. apply (eat_decorated x_upd true _ w t w' Q Q rest); auto.
  - apply (opens_ends true), Ho.
  - now apply opens_nocomment.
  - now apply EXPR_rec.
Qed.
Lemma op_attr x (Q : xop -> Prop) rest : is_ident u x = true -> ends (is_id_continue u) rest -> (forall m, Q (XGetAttr (Did m x))) -> OP ([46] ++ x) Q rest.
Proof.
  intros Hx He HQ n _. unfold traversal_operator. apply (eat_bind _ _ [46] x (eq 46)); [now apply eat_any|]. intros c <-. cbn [N.eqb Pos.eqb].
  destruct x as [|c x]; [discriminate|]. pose proof Hx as Hs. cbn [is_ident] in Hs. apply andb_true_iff in Hs. destruct Hs as [Hs _].
  apply (eat_prefix op_upd true _ [] (c :: x) (fun o => exists m, o = XGetAttr (Did m (c :: x)))); [reflexivity| | | |].
  - cbn [app ends]. unfold blank, is_multispace. rewrite !(id_start_not u HU c) by (try exact Hs; try lia; reflexivity). reflexivity.
  - unfold nocomment. change (lit "//") with [47; 47]. change (lit "/*") with [47; 42]. cbn [app starts_with]. rewrite (N.eqb_sym 35 c), (N.eqb_sym 47 c).
    rewrite !(id_start_not u HU c) by (try exact Hs; try lia; reflexivity). reflexivity.
  - apply eat_dispatch. rewrite !(id_start_not u HU c) by (try exact Hs; try lia; reflexivity). rewrite (id_start_digit u HU c Hs), Hs. apply eat_pmap. unfold ident. apply eat_pmap.
    apply eat_str_ident; auto. eauto.
  - intros f g o (m & ->). apply HQ.
Qed.
Lemma op_splat (Q : xop -> Prop) rest : (forall m, Q (XAttrSplat m)) -> OP [46; 42] Q rest.
Proof.
  intros HQ n _. unfold traversal_operator. apply (eat_bind _ _ [46] [42] (eq 46)); [now apply eat_any|]. intros c <-. cbn [N.eqb Pos.eqb].
  apply (eat_prefix op_upd true _ [] [42] (fun o => exists m, o = XAttrSplat m)); [reflexivity|reflexivity|reflexivity| |intros f g o (m & ->); cbn; auto].
  apply eat_dispatch. cbn [N.eqb Pos.eqb]. apply (eat_bind _ _ [42] [] T); [now apply eat_char|]. intros _ _. apply eat_ret. eauto.
Qed.
Lemma op_full (Q : xop -> Prop) rest : (forall m, Q (XFullSplat m)) -> OP [91; 42; 93] Q rest.
Proof.
  intros HQ n _. unfold traversal_operator. apply (eat_bind _ _ [91] [42; 93] (eq 91)); [now apply eat_any|]. intros c <-. cbn [N.eqb Pos.eqb].
  apply (eat_bind _ _ [42] [93] (fun o => exists m, o = XFullSplat m)).
  - apply (eat_decorated op_upd true _ [] [42] [] (fun o => exists m, o = XFullSplat m)); [reflexivity|reflexivity|reflexivity|reflexivity|reflexivity|reflexivity| |intros f g o (m & ->); cbn; eauto].
    apply eat_dispatch. cbn [N.eqb Pos.eqb]. apply (eat_bind _ _ [42] [] T); [now apply eat_char|]. intros _ _. apply eat_ret. eauto.
  - intros o (m & ->). apply (eat_bind _ _ [93] [] T); [apply eat_cut; now apply eat_char|]. intros _ _. now apply eat_ret.
Qed.
Lemma op_index t (P : xexpr -> Prop) (Q : xop -> Prop) rest : opens t -> stable P -> EXPR true t P ([93] ++ rest) -> (forall x, P x -> Q (XIndex x)) -> OP ([91] ++ t ++ [93]) Q rest.
Proof.
  intros Ho HP H HQ n Hn. rewrite !app_length in Hn. cbn [length] in Hn. unfold traversal_operator. apply (eat_bind _ _ [91] _ (eq 91)); [now apply eat_any|]. intros c <-. cbn [N.eqb Pos.eqb].
  apply (eat_bind _ _ t [93] (fun o => exists x, o = XIndex x /\ P x)).
  - rewrite <- (app_nil_r t) at 1. apply (eat_decorated op_upd true _ [] t [] (fun o => exists x, o = XIndex x /\ P x));
      [reflexivity|now apply (opens_ends true)|now apply opens_nocomment|reflexivity|reflexivity|reflexivity| |].
    + destruct Ho as (c & t' & E & Hc & _). rewrite E. apply eat_dispatch. rewrite (first_char_not c 42) by (try exact Hc; try lia; reflexivity).
      rewrite <- E. apply eat_pmap. eapply eat_imp; [apply EXPR_rec; [exact H|lia]|]. eauto.
    + intros f g o (x & -> & Hx). cbn. eauto.
  - intros o (x & -> & Hx). apply (eat_bind _ _ [93] [] T); [apply eat_cut; now apply eat_char|]. intros _ _. now apply eat_ret; auto.
Qed.
Lemma op_legacy k (Q : xop -> Prop) rest : (Z.of_N k <= u64_max)%Z -> ends is_digit rest -> (forall m, Q (XLegacy m k)) -> OP ([46] ++ show_N k) Q rest.
Proof.
  intros Hk He HQ n _. unfold traversal_operator. apply (eat_bind _ _ [46] _ (eq 46)); [now apply eat_any|]. intros c <-. cbn [N.eqb Pos.eqb].
  destruct (show_N_head k) as (c & r & E & Hc & Hd). pose proof (show_N_digits k) as Hds. rewrite E in Hds. cbn [forallb] in Hds. apply andb_true_iff in Hds. destruct Hds as [_ Hr].
  assert (L : forall q, is_digit q = false -> (c =? q) = false) by (intros q Hq; destruct (N.eqb_spec c q); [congruence|reflexivity]).
  apply (eat_prefix op_upd true _ [] (show_N k) (fun o => exists m, o = XLegacy m k)); [reflexivity| | | |].
  - rewrite E. cbn [app ends]. unfold blank, is_multispace. now rewrite !L by reflexivity.
  - rewrite E. unfold nocomment. change (lit "//") with [47; 47]. change (lit "/*") with [47; 42]. cbn [app starts_with]. rewrite (N.eqb_sym 35 c), (N.eqb_sym 47 c). now rewrite !L by reflexivity.
  - rewrite E. apply eat_dispatch. rewrite L by reflexivity. rewrite Hd. apply eat_pmap. unfold dec_uint. apply eat_verify_map, eat_taken.
    + destruct (N.eqb_spec 48 c) as [<-|Hn].
      * apply eat_alt2; [apply miss_bind1, miss_one_of; reflexivity|]. destruct Hc as [Hc | ->]; [congruence|].
        apply (eat_bind _ _ [48] [] T); [now apply eat_char|]. intros _ _. now apply eat_ret.
      * apply eat_alt1. apply (eat_bind _ _ [c] r T).
        { apply eat_one_of; [|exact I]. unfold is_digit in Hd. rewrite andb_true_iff, !N.leb_le in *. lia. }
        intros _ _. apply (eat_bind' _ _ r r [] T); [now rewrite app_nil_r|now apply eat_take_while0|]. intros _ _. now apply eat_ret.
    + cbv beta zeta. rewrite <- E, digits_show. apply Z.leb_le in Hk. rewrite Hk. eauto.
  - intros f g o (m & ->). cbn. auto.
Qed.

(** ** Operators and conditionals *)
Notation loopp n := (expr_loop pratt_group (Rn n)).
Definition OPN (nl : bool) (t : str) (fl : bool) (Q : xexpr -> Prop) (rest : str) : Prop :=
  forall n, (length t <= n)%nat -> forall o, tail_at inp o (t ++ rest) -> exists x k, (length rest < k)%nat /\ Q x /\
    exprp n nl (mk o (t ++ rest)) = loopp n k fl o x (mk (o + blen t) rest).
Lemma opn_imp nl t fl (Q Q' : xexpr -> Prop) rest : OPN nl t fl Q rest -> (forall x, Q x -> Q' x) -> OPN nl t fl Q' rest.
Proof. intros H HI n Hn o Ht. destruct (H n Hn o Ht) as (x & k & Hk & HQ & E). eauto 6. Qed.
Lemma opn_term nl t fl (Q : xexpr -> Prop) rest : TERM nl t fl Q rest -> OPN nl t fl Q rest.
Proof.
  intros H n Hn o Ht. destruct (H n Hn o Ht) as ([x fl'] & E & HQ & Ef). cbn [fst snd] in *. subst fl'. exists x, (S (length rest)). split; [lia|]. split; [exact HQ|].
  unfold pexpr, bind at 1, pos. cbn [fst]. unfold bind. rewrite E. reflexivity.
Qed.
Lemma expr_opn nl t fl (Q : xexpr -> Prop) rest : OPN nl t fl Q rest -> halt fl rest -> EXPR nl t Q rest.
Proof.
  intros H Hr n Hn o Ht. destruct (H n Hn o Ht) as (x & k & Hk & HQ & E). exists x. split; [|exact HQ]. rewrite E. destruct k as [|k]; [lia|]. cbn [expr_loop].
  unfold halt in Hr. destruct (look fl rest (stop_nocomment _ Hr) (o + blen t) (tail_app _ _ _ _ Ht)) as (sp & o' & ->). apply stop_op in Hr. unfold op2 in Hr.
  apply orb_false_iff in Hr. destruct Hr as [-> ->]. reflexivity.
Qed.
Lemma expr_cond nl t fl (Qc : xexpr -> Prop) ta (Qa : xexpr -> Prop) tb (Qb : xexpr -> Prop) (Q : xexpr -> Prop) rest :
  OPN nl t fl Qc (lit " ? " ++ ta ++ lit " : " ++ tb ++ rest) -> EXPR fl ta Qa (lit " : " ++ tb ++ rest) -> EXPR fl tb Qb rest ->
  opens t -> opens ta -> opens tb -> stable Qc -> stable Qa -> stable Qb ->
  (forall m c x y, Qc c -> Qa x -> Qb y -> Q (XCond m c x y)) ->
  EXPR nl (t ++ lit " ? " ++ ta ++ lit " : " ++ tb) Q rest.
Proof.
  intros H Ha Hb Ho Hoa Hob Sc Sa Sb HQ n Hn o Ht. rewrite !app_length in Hn.
  assert (Hl : (1 <= length t)%nat) by (destruct Ho as (c & t' & -> & _); cbn; lia).
  repeat rewrite <- app_assoc in Ht. destruct (H n ltac:(lia) o Ht) as (x & k & Hk & HQc & E). destruct k as [|k]; [lia|].
  repeat rewrite <- app_assoc. 
  assert (EE : eat inp (loopp n (S k) fl o x) (lit " ? " ++ ta ++ lit " : " ++ tb) Q rest).
  2: { destruct (EE (o + blen t)) as (y & Ey & HQy); [repeat rewrite <- app_assoc; apply tail_app, Ht|]. exists y. split; [|exact HQy].
       rewrite E. repeat rewrite <- app_assoc in Ey. refine (eq_trans Ey _). rewrite (blen_app t). now rewrite N.add_assoc. }
  cbn [expr_loop].
  apply (eat_look fl [32] (lit "? " ++ ta ++ lit " : " ++ tb)); [destruct fl; reflexivity|destruct fl; reflexivity|reflexivity|].
  intros s0 sp1.
  replace (head_is (N.eqb 63) (l2 ((lit "? " ++ ta ++ lit " : " ++ tb) ++ rest))) with true by reflexivity.
  apply (eat_bind' _ _ _ (lit "? " ++ ta ++ lit " : " ++ tb) [] (fun p => Qa (fst (fst p)) /\ Qb (snd (fst p)))); [now rewrite app_nil_r| |].
  2: { intros [[y z] s] [H1 H2]. cbn [fst snd] in *. apply eat_ret. cbn [x_upd]. apply HQ; auto. }
  apply eat_with_span. unfold conditional. change (lit "? ") with ([63] ++ [32]). rewrite <- app_assoc.
  apply (eat_bind _ _ [63] _ T); [now apply eat_char|]. intros _ _.
  replace ([32] ++ ta ++ lit " : " ++ tb) with (([32] ++ ta ++ [32]) ++ (lit ": " ++ tb)) by now rewrite <- !app_assoc.
  apply (eat_bind _ _ _ _ Qa).
  { apply (eat_decorated x_upd fl _ [32] ta [32] Qa Qa); auto; try (destruct fl; reflexivity); [now apply opens_ends|now apply opens_nocomment|].
    apply EXPR_rec; [|lia]. repeat rewrite <- app_assoc. exact Ha. }
  intros y Hy. change (lit ": ") with ([58] ++ [32]). rewrite <- app_assoc. apply (eat_bind _ _ [58] _ T); [apply eat_cut; now apply eat_char|]. intros _ _.
  apply (eat_bind' _ _ _ ([32] ++ tb) [] Qb); [now rewrite app_nil_r| |].
  - apply (eat_prefix x_upd fl _ [32] tb Qb Qb); auto; [destruct fl; reflexivity|now apply opens_ends|now apply opens_nocomment|].
    apply EXPR_rec; [exact Hb|lia].
  - intros z Hz. apply eat_ret. cbn [fst snd]. auto.
Qed.

(** Chains of operators. *)
Inductive OPS (fl : bool) (rest : str) : str -> list (binop * (xexpr -> Prop)) -> Prop :=
| OPS_nil : nobin (skip fl rest) = true -> OPS fl rest [] []
| OPS_cons o t fl' (Q : xexpr -> Prop) t2 l : TERM fl t fl' Q (t2 ++ rest) -> opens t -> OPS fl rest t2 l ->
    OPS fl rest ((lit " " ++ binop_str o ++ lit " " ++ t) ++ t2) ((o, Q) :: l).
Notation op_item n fl := (o <- decorated oper_upd (ws_or_sp fl) (pmap (pair no_meta) binary_operator) (ws_or_sp fl) ;; e <- r_term (Rn n) fl ;; ret (o, e)).
Definition op_fits (a : binop * (xexpr -> Prop)) (p : oper * xexpr) : Prop := snd (fst p) = fst a /\ snd a (snd p).
Lemma eat_binop o rest : eat inp binary_operator (binop_str o) (eq o) ([32] ++ rest).
Proof.
  unfold binary_operator. destruct o; cbn [binop_str]; lits;
  match goal with |- eat _ _ [?c] _ _ => apply (eat_bind' _ _ [c] [c] [] (eq c)); [reflexivity|now apply eat_any|]
                | |- eat _ _ [?c; ?d] _ _ => apply (eat_bind' _ _ [c; d] [c] [d] (eq c)); [reflexivity|now apply eat_any|] end;
  intros c <-; cbn [N.eqb Pos.eqb]; try now apply eat_ret.
  all: try apply eat_alt1; match goal with |- eat _ _ [?c] _ _ => apply (eat_bind' _ _ [c] [c] [] T); [reflexivity|now apply eat_char|intros _ _; now apply eat_ret] end.
Qed.
Lemma binop_clear o r nl : ends (blank nl) (binop_str o ++ [32] ++ r) /\ nocomment (binop_str o ++ [32] ++ r) = true.
Proof. destruct nl, o; split; reflexivity. Qed.
Lemma eat_op_item n fl o t fl' (Q : xexpr -> Prop) rest : TERM fl t fl' Q rest -> opens t -> (length t < n)%nat ->
  eat inp (op_item n fl) (lit " " ++ binop_str o ++ lit " " ++ t) (op_fits (o, Q)) rest.
Proof.
  intros H Ho Hn. replace (lit " " ++ binop_str o ++ lit " " ++ t) with (([32] ++ binop_str o ++ [32]) ++ t) by now rewrite <- !app_assoc.
  destruct (binop_clear o (t ++ rest) fl) as [B1 B2].
  apply (eat_bind _ _ _ t (fun p => snd p = o)).
  - apply (eat_decorated oper_upd fl _ [32] (binop_str o) [32] (fun p => snd p = o)); auto; try (destruct fl; reflexivity); [now apply opens_ends|now apply opens_nocomment|].
    apply eat_pmap. eapply eat_imp; [apply eat_binop|]. intros a <-. reflexivity.
  - intros [m o'] E. cbn [snd] in E. subst o'. apply (eat_bind' _ _ t t [] Q); [now rewrite app_nil_r|eapply TERM_rec; [exact H|exact Hn]|].
    intros x Hx. apply eat_ret. split; [reflexivity|exact Hx].
Qed.
Lemma miss_op_item n fl rest : nobin (skip fl rest) = true -> miss inp (op_item n fl) rest.
Proof.
  intros H. pose proof H as Hb. unfold nobin in Hb. apply andb_true_iff in Hb. destruct Hb as [Hc Hb].
  destruct (@skip_split inp fl rest Hc) as (w & E & Hw). rewrite E. unfold decorated. apply miss_bind1.
  apply (miss_bind2 _ _ w T); [apply eat_pspan; [exact Hw|]; intros; exact I|]. intros sp0 _. apply miss_bind1. unfold spanned. apply miss_bind1, miss_with_span, miss_pmap.
  unfold binary_operator. destruct (skip fl rest) as [|c r]; [apply miss_bind1, miss_any|]. apply (miss_bind2 any _ [c] (eq c)); [now apply eat_any|]. intros a <-.
  destruct (N.eqb_spec c 61) as [->|].
  - apply miss_bind1, miss_char. apply negb_true_iff in Hb. destruct r as [|d r]; [exact I|]. cbn [starts_with] in Hb. rewrite andb_true_r in Hb. exact Hb.
  - lits_in Hb. cbn [existsb] in Hb. rewrite negb_true_iff, !orb_false_iff in Hb. destruct Hb as (E1 & E2 & E3 & E4 & E5 & E6 & E7 & E8 & E9 & E10 & _).
    rewrite E1, E2, E3, E4, E5, E6, E7, E8, E9, E10. apply miss_fail.
Qed.
Lemma OPS_loop fl rest t l : OPS fl rest t l -> forall n, (length t < n)%nat -> eat_loop inp (op_item n fl) t (Forall2 op_fits l) rest.
Proof.
  induction 1 as [Hr|o t fl' Q t2 l HT Ho HO IH]; intros n Hn.
  - apply eat_loop_nil; [now apply miss_op_item|constructor].
  - rewrite !app_length in Hn. apply (eat_loop_cons _ _ t2 (op_fits (o, Q))); [discriminate|eapply eat_op_item; eauto; lia|].
    intros x Hx. eapply eat_loop_imp; [apply IH; lia|]. intros k Hk. now constructor.
Qed.
(** The tree of a chain. *)
Notation stree := (optree (xexpr -> Prop) binop).
Fixpoint fits (s : stree) (x : xexpr) : Prop :=
  match s with
  | Leaf Q => Q x
  | Node l o r => exists m xl m' xr, x = XBinary m xl m' o xr /\ fits l xl /\ fits r xr
  end.
Fixpoint same (s : stree) (t : tree) : Prop :=
  match s, t with
  | Leaf Q, Leaf x => Q x
  | Node l o r, Node l' o' r' => o = snd o' /\ same l l' /\ same r r'
  | _, _ => False
  end.
Lemma same_fits (s : stree) : forall t, same s t -> fits s (tree_expr t).
Proof.
  induction s as [Q|l IHl o r IHr]; intros [x|l' o' r']; cbn [same fits tree_expr]; try contradiction; auto. intros (E & H1 & H2).
  unfold infix_expr. rewrite <- E. eauto 10.
Qed.
Lemma same_build (s : stree) : forall e ops, head s e -> Forall2 op_fits (tail s) ops -> exists t : tree, same s t /\ head t = e /\ tail t = ops.
Proof.
  induction s as [Q|l IHl o r IHr]; intros e ops He Hops; cbn [head tail] in *.
  - inversion Hops; subst. now exists (Leaf e).
  - apply Forall2_app_inv_l in Hops. destruct Hops as (o1 & o2 & H1 & H2 & ->). inversion H2 as [|a p ? ? [E Hp] H3]; subst. destruct p as [o' x]. cbn [fst snd] in *.
    destruct (IHl e o1 He H1) as (tl & S1 & <- & <-). destruct (IHr x l' Hp H3) as (tr & S2 & <- & <-). exists (Node tl o' tr). cbn. auto.
Qed.
Lemma same_root (s : stree) t : same s t -> forall n, root_ge (fun o => o) n s -> root_ge bin n t.
Proof. destruct s, t; cbn; try contradiction; auto. intros (-> & _) n H. exact H. Qed.
Lemma same_grouped (s : stree) : forall t, same s t -> grouped (fun o => o) s -> grouped bin t.
Proof.
  induction s as [Q|l IHl o r IHr]; intros [x|l' o' r']; cbn [same grouped]; try contradiction; auto. intros (-> & S1 & S2) (G1 & G2 & G3 & G4).
  repeat split; eauto using same_root.
Qed.
Lemma fits_ops l ops : Forall2 op_fits l ops -> opsof ops = map fst l.
Proof. induction 1 as [|a p l ops [E _] _ IH]; [reflexivity|]. cbn [opsof map]. f_equal; [exact E|exact IH]. Qed.
Definition tree_stable (s : stree) : Prop := forall f x, fits s x -> fits s (x_upd f x).
Lemma opn_binary nl t fl (s : stree) o t1 fl1 (Q1 : xexpr -> Prop) t2 l rest :
  TERM nl t fl (head s) ((lit " " ++ binop_str o ++ lit " " ++ t1) ++ t2 ++ rest) ->
  TERM fl t1 fl1 Q1 (t2 ++ rest) -> opens t1 -> OPS fl rest t2 l -> tail s = (o, Q1) :: l ->
  grouped (fun o => o) s -> ~ chained (map fst (tail s)) -> opens t ->
  OPN nl (t ++ (lit " " ++ binop_str o ++ lit " " ++ t1) ++ t2) fl (fits s) rest.
Proof.
  intros H H1 Ho1 HO Etl HG HC Ho n Hn p Ht. assert (Hl : (1 <= length t)%nat) by (destruct Ho as (c & t' & -> & _); cbn; lia).
  remember (lit " " ++ binop_str o ++ lit " " ++ t1) as ti eqn:Eti.
  rewrite <- !app_assoc in Ht |- *. rewrite !app_length in Hn. destruct (opn_term _ _ _ _ _ H n ltac:(lia) p Ht) as (x & k & Hk & HQ & E). rewrite E.
  destruct k as [|k]; [lia|]. cbn [expr_loop]. destruct (binop_clear o (t1 ++ t2 ++ rest) fl) as [B1 B2].
  assert (Esk : skip fl (ti ++ t2 ++ rest) = binop_str o ++ [32] ++ t1 ++ t2 ++ rest).
  { rewrite Eti. repeat rewrite <- app_assoc. change (lit " ") with [32]. rewrite skip_app by (destruct fl; reflexivity). now apply skip_ends. }
  pose proof (tail_app _ _ _ _ Ht) as Ht1.
  assert (NC : nocomment (skip fl (ti ++ t2 ++ rest)) = true) by now rewrite Esk.
  destruct (look fl (ti ++ t2 ++ rest) NC (p + blen t) Ht1) as (sp & o' & EL). rewrite Esk in EL.
  assert (EB : head_is (N.eqb 63) (l2 (binop_str o ++ [32] ++ t1 ++ t2 ++ rest)) = false /\ binop_ahead (l2 (binop_str o ++ [32] ++ t1 ++ t2 ++ rest)) = true)
    by (destruct o; split; reflexivity). destruct EB as [EB1 EB2].
  assert (EO : eat inp (binary_ops (Rn n) fl) (ti ++ t2) (Forall2 op_fits (tail s)) rest).
  { rewrite Etl. unfold binary_ops. apply (eat_many1 _ ti t2 (op_fits (o, Q1))).
    - rewrite Eti. eapply eat_op_item; eauto. rewrite Eti, !app_length in Hn. lia.
    - intros y Hy. eapply eat_loop_imp; [eapply OPS_loop; [exact HO|lia]|]. intros q Hq. now constructor. }
  destruct (EO (p + blen t)) as (ops & Eops & Hops); [now rewrite <- app_assoc|]. rewrite <- app_assoc in Eops.
  destruct (pratt_group_spec x ops) as (tr & rem & Eg & Hg & Hh & Htl & Hrem).
  assert (rem = []) as -> by (apply Hrem; now rewrite (fits_ops _ _ Hops)). rewrite app_nil_r in Htl.
  destruct (same_build s x ops HQ Hops) as (tr' & Hs & Hh' & Ht').
  assert (tr = tr') as -> by (apply (grouped_unique bin); [exact Hg|eapply same_grouped; eauto|exact (eq_trans Hh (eq_sym Hh'))|exact (eq_trans (eq_sym Htl) (eq_sym Ht'))]).
  pose proof (same_fits _ _ Hs) as Hfit.
  eexists (x_upd _ (tree_expr tr')), k. split; [|split].
  - rewrite !app_length in Hk. assert (1 <= length ti)%nat by (rewrite Eti; cbn; lia). lia.
  - destruct s as [Qs|sl so sr]; [discriminate Etl|]. cbn [fits] in *. destruct Hfit as (m & xl & m' & xr & -> & F1 & F2). cbn [x_upd]. eauto 8.
  - rewrite EL, EB1, EB2. unfold bind at 1, with_span. rewrite Eops. rewrite Eg. rewrite (blen_app t), N.add_assoc. reflexivity.
Qed.

(** ** Prefix operators and parentheses *)
Lemma start_paren nl t (P Q : xexpr -> Prop) rest : opens t -> stable P -> EXPR true t P ([41] ++ rest) -> (forall m x, P x -> Q (XParen m x)) ->
  START nl ([40] ++ t ++ [41]) nl Q rest.
Proof.
  intros Ho HP H HQ n Hn. rewrite !app_length in Hn. cbn [length] in Hn. unfold term_start. cbn [app]. apply eat_dispatch. cbn [N.eqb Pos.eqb].
  change (is_digit 40) with false. cbn iota. apply eat_pmap. cbn [fst snd]. unfold parenthesis.
  apply (eat_bind _ _ [40] (t ++ [41]) T); [apply eat_cut; now apply eat_char|]. intros _ _. apply (eat_bind _ _ t [41] P).
  - rewrite <- (app_nil_r t). change (t ++ []) with ([] ++ t ++ []). apply eat_dexpr; auto; try reflexivity. lia.
  - intros x Hx. apply (eat_bind _ _ [41] [] T); [apply eat_cut; now apply eat_char|]. intros _ _. apply eat_ret. auto.
Qed.
Lemma eat_unop o rest : eat inp unary_operator (unop_str o) (eq o) rest.
Proof.
  unfold unary_operator. destruct o; cbn [unop_str]; lits; match goal with |- eat _ _ [?c] _ _ => apply (eat_bind' _ _ [c] [c] [] (eq c)); [reflexivity|now apply eat_any|] end;
  intros c <-; cbn [N.eqb Pos.eqb]; now apply eat_ret.
Qed.
Lemma eat_unary n nl o t fl (P Q : xexpr -> Prop) rest : opens t -> stable P -> TERM nl t fl P rest -> (length t < n)%nat -> (forall m s x, P x -> Q (XUnary m s o x)) ->
  eat inp (unary_op (Rn n) nl) (unop_str o ++ t) Q rest.
Proof.
  intros Ho HP H Hn HQ. unfold unary_op. apply (eat_bind _ _ _ t (fun p => fst p = o)); [apply eat_with_span; eapply eat_imp; [apply eat_unop|]; intros a <- sp1; reflexivity|].
  intros [o' s] E. cbn [fst] in E. subst o'. apply (eat_bind' _ _ t t [] P); [now rewrite app_nil_r| |intros x Hx; apply eat_ret; auto].
  apply (eat_prefix x_upd false _ [] t P P); auto; [now apply opens_ends|now apply opens_nocomment|]. eapply TERM_rec; eauto.
Qed.
Lemma miss_number t : ends is_digit t -> miss inp (number b pf) t.
Proof.
  intros H. assert (D : miss inp digit1 t) by now apply miss_take_while1. unfold number. apply miss_alt.
  - intros o Ht. assert (F : miss inp (float pf) t) by (unfold float; apply miss_pmap, miss_taken, miss_bind1, D). destruct (F o Ht) as (s' & ->). eauto.
  - apply miss_pmap. unfold integer. apply miss_verify_map1, D.
Qed.
Lemma start_unary nl o t fl (P Q : xexpr -> Prop) rest : opens t -> stable P -> TERM nl t fl P rest -> (o = Neg -> ends is_digit t) -> (forall m s x, P x -> Q (XUnary m s o x)) ->
  START nl (unop_str o ++ t) nl Q rest.
Proof.
  intros Ho HP H Hd HQ n Hn. rewrite app_length in Hn. unfold term_start.
  assert (L : length (unop_str o) = 1%nat) by (destruct o; reflexivity).
  assert (EU : eat inp (unary_op (Rn n) nl) (unop_str o ++ t) Q rest) by (eapply eat_unary; eauto; lia).
  destruct o; change (unop_str Neg) with [45] in *; change (unop_str Not) with [33] in *; cbn [app] in *; apply eat_dispatch; cbn [N.eqb Pos.eqb].
  - change (is_digit 45) with false. cbn iota. apply eat_pmap. cbn [fst snd]. apply eat_alt2; [|eapply eat_imp; [exact EU|auto]].
    unfold neg_number. apply miss_bind1, miss_with_taken. apply (miss_bind2 (char 45) _ [45] T (t ++ rest)); [now apply eat_char|]. intros _ _.
    apply (miss_bind2 sp _ [] T (t ++ rest)); [apply (eat_blank false []); [reflexivity|now apply (opens_ends false)|now apply opens_nocomment]|]. intros _ _. apply miss_number.
    destruct Ho as (c & t' & -> & _). apply (Hd eq_refl).
  - change (is_digit 33) with false. cbn iota. apply eat_pmap. cbn [fst snd]. eapply eat_imp; [exact EU|auto].
Qed.
End Expr.

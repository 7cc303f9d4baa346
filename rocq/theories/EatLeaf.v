(** * Parsing succeeds: whitespace and terms without subexpressions *)
From Coq Require Import NArith ZArith Arith Bool String List Lia.
From Verif Require Import Res Str Dec NumberModel PrimModel PrimProofs EAst ParseBase ParseModel ParseLemmas Grammar Eat StrSpec StrProofs.
Import ListNotations.
Open Scope N_scope.

(** The Unicode tables are right on ASCII. *)
Definition ascii_exact (u : unicode) : Prop := forall c, c < 128 ->
  xid_start u c = is_ascii_letter c /\ xid_continue u c = is_ascii_letter c || is_digit c || (c =? 95).
Lemma ascii_unicode_exact : ascii_exact ascii_unicode.
Proof. intros c _. split; reflexivity. Qed.

(** No comment starts here. *)
Definition nocomment (r : str) : bool := negb (starts_with [35] r || starts_with (lit "//") r || starts_with (lit "/*") r).
Definition blank (nl : bool) (c : N) : bool := if nl then is_multispace c else is_space c.
Definition T {A} (_ : A) : Prop := True.

Section Trivia.
Context {inp : str}.
Lemma miss_comment r : nocomment r = true -> miss inp comment r.
Proof.
  unfold nocomment. rewrite negb_true_iff, !orb_false_iff. intros [[H1 H2] H3]. unfold comment.
  destruct r as [|c r]; [apply miss_bind1, miss_peek, miss_any|].
  apply (miss_bind2 (peek any) _ [] (eq c) (c :: r)); [apply (eat_peek any [c]); now apply eat_any|]. intros a <-.
  cbn [starts_with] in H1. rewrite andb_true_r in H1. rewrite N.eqb_sym in H1. rewrite H1.
  destruct (N.eqb_spec c 47) as [->|]; [|apply miss_fail].
  apply miss_alt; apply miss_bind1, miss_tag; assumption.
Qed.
Lemma miss_inline r : nocomment r = true -> miss inp inline_comment r.
Proof. unfold nocomment. rewrite negb_true_iff, !orb_false_iff. intros [_ H3]. apply miss_bind1, miss_tag, H3. Qed.
Lemma eat_blank nl w r : forallb (blank nl) w = true -> ends (blank nl) r -> nocomment r = true -> eat inp (ws_or_sp nl) w T r.
Proof.
  intros Hw He Hc. unfold ws_or_sp. destruct nl.
  - unfold ws. apply (eat_bind' _ _ w w [] T); [now rewrite app_nil_r|now apply eat_take_while0|]. intros _ _.
    apply (eat_bind _ _ [] [] T); [|intros; now apply eat_ret]. apply eat_many0_nil; [|exact I]. now apply miss_bind1, miss_comment.
  - unfold sp. apply (eat_bind' _ _ w w [] T); [now rewrite app_nil_r|now apply eat_take_while0|]. intros _ _.
    apply (eat_bind _ _ [] [] T); [|intros; now apply eat_ret]. apply eat_many0_nil; [|exact I]. now apply miss_bind1, miss_inline.
Qed.

(** What remains after blanks. *)
Definition skip (nl : bool) (s : str) : str := snd (span (blank nl) s).
Lemma span_spec f s : s = fst (span f s) ++ snd (span f s) /\ forallb f (fst (span f s)) = true /\ ends f (snd (span f s)).
Proof.
  induction s as [|c s (IH1 & IH2 & IH3)]; [cbn; auto|]. cbn [span]. destruct (f c) eqn:E.
  - destruct (span f s) as [a b]. cbn [fst snd] in *. cbn [app forallb]. rewrite E, IH2. split; [now f_equal|auto].
  - cbn. auto.
Qed.
Lemma skip_split nl s : nocomment (skip nl s) = true ->
  exists w, s = w ++ skip nl s /\ eat inp (ws_or_sp nl) w T (skip nl s).
Proof.
  intros H. destruct (span_spec (blank nl) s) as (H1 & H2 & H3). exists (fst (span (blank nl) s)). split; [exact H1|]. now apply eat_blank.
Qed.
Lemma skip_app nl w s : forallb (blank nl) w = true -> skip nl (w ++ s) = skip nl s.
Proof.
  intros H. unfold skip. induction w as [|c w IH]; [reflexivity|]. cbn [forallb] in H. apply andb_true_iff in H. destruct H as [Hc Hw].
  cbn [app span]. rewrite Hc. specialize (IH Hw). destruct (span (blank nl) (w ++ s)), (span (blank nl) s). exact IH.
Qed.
Lemma skip_ends nl s : ends (blank nl) s -> skip nl s = s.
Proof. intros H. unfold skip. destruct s as [|c s]; [reflexivity|]. cbn in H. cbn [span]. now rewrite H. Qed.

(** The next two characters. *)
Definition l2 (r : str) : option str := if Nat.leb 2 (List.length r) then Some (firstn 2 r) else None.
Lemma eat_look2 (Q : option str -> Prop) r : Q (l2 r) -> eat inp look2 [] Q r.
Proof. intros H o _. exists (l2 r). split; [|exact H]. unfold look2. cbn [app blen snd fst]. rewrite N.add_0_r. reflexivity. Qed.

(** After blanks, what follows is not one of the texts selected by [f]. *)
Definition after (f : option str -> bool) (nl : bool) (rest : str) : Prop :=
  nocomment (skip nl rest) = true /\ f (l2 (skip nl rest)) = false.
Lemma after_imp (f g : option str -> bool) nl rest : (forall b, f b = false -> g b = false) -> after f nl rest -> after g nl rest.
Proof. intros H [H1 H2]. split; auto. Qed.
(** Looking ahead. *)
Lemma look nl rest : nocomment (skip nl rest) = true -> forall o, tail_at inp o rest -> exists sp o', forall A (K : bspan -> option str -> parser A),
  (suffix <- pspan (ws_or_sp nl) ;; b <- look2 ;; K suffix b) (mk o rest) = K sp (l2 (skip nl rest)) (mk o' (skip nl rest)).
Proof.
  intros Hc o Ht. destruct (skip_split nl rest Hc) as (w & E & Hw).
  rewrite E in Ht. destruct (Hw o Ht) as (a & Ea & _). exists (o, o + blen w), (o + blen w). intros A K.
  unfold bind at 1, pspan, pmap, bind, with_span, ret. rewrite E at 1. rewrite Ea. reflexivity.
Qed.
End Trivia.

(** ** Terms without subexpressions *)
Definition call2 (b : option str) : bool := opt_seqb b (lit "::") || head_is (N.eqb 40) b.
Definition trav2 (b : option str) : bool := negb (opt_seqb b (lit "..")) && head_is (fun c => (c =? 46) || (c =? 91)) b.
Definition op2 (b : option str) : bool := head_is (N.eqb 63) b || binop_ahead b.
(** A number does not go on here. *)
Definition nofrac (r : str) : Prop := match r with 46 :: d :: _ => is_digit d = false | _ => True end.

Section Leaf.
Context {inp : str} (u : unicode) (b : build) (pf : str -> f64).
Context (HU : ascii_exact u).
Context (R : recs).

Lemma id_start_ascii c : is_id_start u c = true -> (128 <=? c) || is_ascii_letter c || (c =? 95) = true.
Proof.
  intros H. destruct (N.leb_spec 128 c) as [|L]; [reflexivity|]. cbn [orb]. unfold is_id_start in H. destruct (HU c L) as [E _]. now rewrite E in H.
Qed.
Lemma id_start_not c k : is_id_start u c = true -> k < 128 -> is_ascii_letter k || (k =? 95) = false -> (c =? k) = false.
Proof.
  intros H Hk Hn. destruct (N.eqb_spec c k) as [->|]; [|reflexivity]. apply id_start_ascii in H.
  destruct (N.leb_spec 128 k); [lia|]. cbn [orb] in H. congruence.
Qed.
Lemma id_start_digit c : is_id_start u c = true -> is_digit c = false.
Proof.
  intros H. apply id_start_ascii in H. destruct (is_digit c) eqn:E; [|reflexivity]. exfalso. unfold is_digit in E. apply andb_true_iff in E.
  rewrite !N.leb_le in E. unfold is_ascii_letter in H. rewrite !orb_true_iff, !andb_true_iff, !N.leb_le, N.eqb_eq in H. lia.
Qed.
Lemma eat_str_ident x (Q : str -> Prop) rest : is_ident u x = true -> ends (is_id_continue u) rest -> Q x -> eat inp (str_ident u) x Q rest.
Proof.
  intros Hx He HQ. destruct x as [|c x]; [discriminate|]. cbn [is_ident] in Hx. apply andb_true_iff in Hx. destruct Hx as [Hc Hx].
  unfold str_ident. apply eat_taken; [|exact HQ]. apply (eat_bind _ _ [c] x T); [now apply eat_one_of|]. intros _ _. now apply eat_take_while0.
Qed.
Lemma eat_identlike nl x (Q : xexpr -> Prop) rest : is_ident u x = true -> ends (is_id_continue u) rest -> after call2 nl rest ->
  Q (keyword x) -> eat inp (identlike u R nl) x (fun p => Q (fst p) /\ snd p = nl) rest.
Proof.
  intros Hx He Hc HQ. unfold identlike. apply (eat_bind' _ _ x x [] (fun p => fst p = x)); [now rewrite app_nil_r| |].
  { apply eat_with_span. eapply eat_imp; [apply (eat_str_ident x (eq x)); auto|]. intros a <- sp. reflexivity. }
  intros [y ys] E. cbn [fst] in E. subst y. intros o Ht. cbn [app] in *. exists (keyword x, nl). split; [|split; [exact HQ|reflexivity]].
  destruct Hc as [Hc E2]. destruct (look nl rest Hc o Ht) as (sp & o' & ->). unfold call2 in E2. rewrite E2. cbn [blen].
  now rewrite N.add_0_r.
Qed.
(** The first character decides which kind of term is parsed. *)
Lemma eat_dispatch {A} c t (f : N -> parser A) Q rest : eat inp (f c) (c :: t) Q rest -> eat inp (c0 <- peek any ;; f c0) (c :: t) Q rest.
Proof.
  intros H. apply (eat_bind (peek any) f [] (c :: t) (eq c)); [|intros a <-; exact H].
  change ((c :: t) ++ rest) with ([c] ++ (t ++ rest)). apply eat_peek. now apply eat_any.
Qed.
Notation start := (term_start u b pf items_insert R).
Lemma start_ident nl x (Q : xexpr -> Prop) rest : is_ident u x = true -> ends (is_id_continue u) rest -> after call2 nl rest ->
  Q (keyword x) -> eat inp (start nl) x (fun p => Q (fst p) /\ snd p = nl) rest.
Proof.
  intros Hx He Hc HQ. destruct x as [|c x]; [discriminate|]. apply eat_dispatch. pose proof Hx as Hs. cbn [is_ident] in Hs. apply andb_true_iff in Hs.
  destruct Hs as [Hs _].
  rewrite !(id_start_not c) by (try exact Hs; try lia; reflexivity). rewrite (id_start_digit c Hs), Hs. now apply eat_identlike.
Qed.
Lemma start_string nl s (Q : xexpr -> Prop) t rest : reads (34 :: rest) t s -> Q (XStr no_meta s) ->
  eat inp (start nl) ([34] ++ t ++ [34]) (fun p => Q (fst p) /\ snd p = nl) rest.
Proof.
  intros H HQ. cbn [app]. apply eat_dispatch. cbn [N.eqb Pos.eqb]. apply eat_pmap. cbn [fst snd]. eapply eat_imp; [|intros a Ha; split; [exact Ha|reflexivity]]. unfold stringlike. apply eat_alt1, eat_pmap.
  now apply (eat_pstring t s).
Qed.
(** Numbers: an integer literal. *)
Lemma ends_continue_digit rest : ends (is_id_continue u) rest -> ends is_digit rest.
Proof.
  destruct rest as [|c rest]; [auto|]. cbn. intros H. destruct (is_digit c) eqn:E; [|reflexivity]. exfalso.
  unfold is_id_continue in H. assert (L : c < 128) by (unfold is_digit in E; apply andb_true_iff in E; rewrite !N.leb_le in E; lia).
  destruct (HU c L) as [_ E2]. rewrite E2, E in H. rewrite orb_true_r in H. discriminate.
Qed.
Lemma not_exp rest : ends (is_id_continue u) rest -> ends (fun c => (c =? 101) || (c =? 69)) rest.
Proof.
  destruct rest as [|c rest]; [auto|]. cbn [ends]. intros He. unfold is_id_continue in He. apply orb_false_iff in He. destruct He as [He _].
  destruct (N.eqb_spec c 101) as [->|]; [destruct (HU 101) as [_ E]; [lia|]; rewrite E in He; discriminate|].
  destruct (N.eqb_spec c 69) as [->|]; [destruct (HU 69) as [_ E]; [lia|]; rewrite E in He; discriminate|]. reflexivity.
Qed.
(** The end of a number. *)
Definition numend (rest : str) : Prop := ends is_digit rest /\ ends (fun c => (c =? 101) || (c =? 69)) rest.
Lemma numend_idc rest : ends (is_id_continue u) rest -> numend rest.
Proof. intros H. split; [now apply ends_continue_digit|now apply not_exp]. Qed.
Lemma digits_ends_exp t rest : forallb is_digit t = true -> t <> [] -> numend rest -> nofrac rest ->
  miss inp (float pf) (t ++ rest).
Proof.
  intros Ht Hn [Hd He] Hf. unfold float. apply miss_pmap, miss_taken. apply (miss_bind2 _ _ t T rest); [now apply eat_take_while1|]. intros _ _.
  apply miss_alt.
  - destruct rest as [|c rest]; [apply miss_bind1, miss_char; exact I|]. destruct (N.eqb_spec 46 c) as [<-|Hc].
    + apply (miss_bind2 (char 46) _ [46] T rest); [now apply eat_char|]. intros _ _. apply miss_bind1, miss_take_while1.
      destruct rest as [|d rest]; [exact I|]. exact Hf.
    + apply miss_bind1, miss_char. cbn [ends]. now apply N.eqb_neq.
  - apply miss_bind1, miss_one_of. exact He.
Qed.
Lemma eat_number_int t (Q : num -> Prop) rest : forallb is_digit t = true -> t <> [] -> (Z.of_N (digits_val t) <= u64_max)%Z ->
  numend rest -> nofrac rest -> Q (PosInt (Z.of_N (digits_val t))) -> eat inp (number b pf) t Q rest.
Proof.
  intros Ht Hn Hv He Hf HQ. pose proof (proj1 He) as Hd. unfold number. apply eat_alt2.
  - intros o To. destruct (digits_ends_exp t rest Ht Hn He Hf o To) as (s' & ->). eauto.
  - apply eat_pmap. unfold integer. apply eat_verify_map. eapply eat_imp; [apply (eat_take_while1 is_digit t (eq t)); auto|].
    intros a <-. apply Z.leb_le in Hv. rewrite Hv. eauto.
Qed.
(** A number literal with a fraction or an exponent. *)
Definition float_text (t : str) : Prop := exists d r, t = d ++ r /\ forallb is_digit d = true /\ d <> [] /\
  (gexpo r \/ exists f x, forallb is_digit f = true /\ f <> [] /\ (x = [] \/ gexpo x) /\ r = [46] ++ f ++ x).
Lemma eat_exponent r rest : gexpo r -> numend rest -> eat inp exponent r T rest.
Proof.
  intros H He. destruct H as [c s d Hc Hs Hd Hn]. unfold exponent. apply (eat_bind _ _ [c] _ T); [apply eat_one_of; [destruct Hc as [-> | ->]; reflexivity|exact I]|].
  intros _ _. apply (eat_bind _ _ s d T).
  - destruct Hs as [->|Hs].
    + apply eat_opt_none; [|exact I]. apply miss_one_of. destruct d as [|x d]; [congruence|]. cbn [app ends forallb] in *. apply andb_true_iff in Hd.
      destruct Hd as [Hx _]. destruct (N.eqb_spec x 43) as [->|]; [discriminate|]. destruct (N.eqb_spec x 45) as [->|]; [discriminate|]. reflexivity.
    + apply eat_opt. destruct Hs as [-> | ->]; now apply eat_one_of.
  - intros _ _. apply (eat_bind' _ _ d d [] T); [now rewrite app_nil_r| |intros; now apply eat_ret].
    apply eat_cut, eat_take_while1; auto; [|exact I]. apply He.
Qed.
Lemma eat_float t (Q : f64 -> Prop) rest : float_text t -> numend rest -> Q (pf t) -> eat inp (float pf) t Q rest.
Proof.
  intros (d & r & -> & Hd & Hn & Hr) He HQ. unfold float. apply eat_pmap, eat_taken; [|exact HQ].
  assert (Er : ends is_digit (r ++ rest)).
  { destruct Hr as [Hr|(f & x & _ & _ & _ & ->)]; [|reflexivity]. destruct Hr as [c s d' Hc]. destruct Hc as [-> | ->]; reflexivity. }
  apply (eat_bind _ _ d r T); [now apply eat_take_while1|]. intros _ _. destruct Hr as [Hr|(f & x & Hf & Hfn & Hx & ->)].
  - apply eat_alt2; [|now apply eat_exponent]. apply miss_bind1, miss_char. destruct Hr as [c s d' Hc]. destruct Hc as [-> | ->]; reflexivity.
  - apply eat_alt1. apply (eat_bind _ _ [46] _ T); [now apply eat_char|]. intros _ _.
    apply (eat_bind _ _ f x T).
    + apply eat_take_while1; auto; [|exact I]. destruct Hx as [->|Hx]; [apply He|].
      destruct Hx as [c s d' Hc]. destruct Hc as [-> | ->]; reflexivity.
    + intros _ _. apply (eat_bind' _ _ x x [] T); [now rewrite app_nil_r| |intros; now apply eat_ret].
      destruct Hx as [->|Hx]; [|apply eat_opt; now apply eat_exponent]. apply eat_opt_none; [|exact I].
      apply miss_bind1, miss_one_of. apply He.
Qed.
(** The text of a number without sign: its value. *)
Definition number_text (t : str) (n : num) : Prop :=
  (forallb is_digit t = true /\ t <> [] /\ (Z.of_N (digits_val t) <= u64_max)%Z /\ n = PosInt (Z.of_N (digits_val t))) \/
  (float_text t /\ num_from_f64 b (pf t) = Done (Some n)).
Lemma eat_number t n (Q : num -> Prop) rest : number_text t n -> numend rest -> nofrac rest -> Q n -> eat inp (number b pf) t Q rest.
Proof.
  intros [(H1 & H2 & H3 & ->)|(H1 & H2)] He Hf HQ; [now apply eat_number_int|]. unfold number. apply eat_alt1.
  intros o To. destruct (eat_float t (eq (pf t)) rest H1 He eq_refl o To) as (a & -> & <-). rewrite H2. eauto.
Qed.
Lemma number_text_head t n : number_text t n -> exists c t', t = c :: t' /\ is_digit c = true.
Proof.
  intros [(H1 & H2 & _)|((d & r & -> & H1 & H2 & _) & _)]; [|destruct d as [|c d]; [congruence|]; cbn [app]; cbn [forallb] in H1;
    apply andb_true_iff in H1; destruct H1; eauto].
  destruct t as [|c t]; [congruence|]. cbn [forallb] in H1. apply andb_true_iff in H1. destruct H1; eauto.
Qed.
Lemma start_number nl t n (Q : xexpr -> Prop) rest : number_text t n ->
  numend rest -> nofrac rest ->
  Q (XNum no_meta n (Some (raw_of_str t))) -> eat inp (start nl) t (fun p => Q (fst p) /\ snd p = nl) rest.
Proof.
  intros Ht He Hf HQ. destruct (number_text_head t n Ht) as (c & t' & E & Hc). rewrite E. apply eat_dispatch. rewrite <- E.
  assert (L : forall k, is_digit k = false -> (c =? k) = false) by (intros k Hk; destruct (N.eqb_spec c k); [congruence|reflexivity]).
  rewrite !L by reflexivity. rewrite Hc. apply eat_pmap. cbn [fst snd]. eapply eat_imp; [|intros a Ha; split; [exact Ha|reflexivity]]. unfold number_expr.
  apply (eat_bind' _ _ _ t [] (fun p => p = (n, t))); [now rewrite app_nil_r| |].
  - apply eat_with_taken. eapply eat_number; eauto.
  - intros a ->. now apply eat_ret.
Qed.
(** With a minus sign. *)
Lemma start_negative nl w t n n' (Q : xexpr -> Prop) rest : number_text t n -> num_neg b n = Done n' -> forallb is_space w = true ->
  numend rest -> nofrac rest ->
  Q (XNum no_meta n' (Some (raw_of_str ([45] ++ w ++ t)))) -> eat inp (start nl) ([45] ++ w ++ t) (fun p => Q (fst p) /\ snd p = nl) rest.
Proof.
  intros Ht Hneg Hw He Hf HQ. cbn [app]. apply eat_dispatch. cbn [N.eqb Pos.eqb is_digit N.leb N.compare Pos.compare Pos.compare_cont andb].
  change (is_digit 45) with false. cbn iota. apply eat_pmap, eat_alt1. cbn [fst snd]. eapply eat_imp; [|intros a Ha; split; [exact Ha|reflexivity]]. unfold neg_number.
  apply (eat_bind' _ _ _ ([45] ++ w ++ t) [] (fun p => p = (n, [45] ++ w ++ t))); [now rewrite app_nil_r| |].
  - apply eat_with_taken. apply (eat_bind _ _ [45] _ T); [now apply eat_char|]. intros _ _. apply (eat_bind _ _ w t T).
    + destruct (number_text_head t n Ht) as (c & t' & -> & Hc). apply (eat_blank false); [exact Hw| |].
      * cbn. destruct (is_space c) eqn:E; [|reflexivity]. exfalso. unfold is_space in E. rewrite orb_true_iff, !N.eqb_eq in E. destruct E as [-> | ->]; discriminate Hc.
      * unfold nocomment. change (lit "//") with [47; 47]. change (lit "/*") with [47; 42]. cbn [app starts_with].
        destruct (N.eqb_spec 35 c) as [<-|]; [discriminate|]. destruct (N.eqb_spec 47 c) as [<-|]; [discriminate|]. reflexivity.
    + intros _ _. eapply eat_number; eauto.
  - intros a ->. apply (eat_bind _ _ [] [] (eq n')); [eapply eat_lift; eauto|]. intros a <-. now apply eat_ret.
Qed.
End Leaf.

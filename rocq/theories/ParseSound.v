(** * The parser is sound for the grammar

    Every successful run of the parser consumes a text that the declarative grammar relates to the
    returned tree; positions are byte offsets; no run is out of fuel; a panic needs the negation of a
    number literal that panics. *)
From Coq Require Import NArith ZArith Bool String List Lia.
From Verif Require Import Res Str Dec NumberModel PrimModel DedentModel EAst ParseBase ParseModel Grammar ParseLemmas.
Import ListNotations.
Open Scope N_scope.

Ltac nf := rewrite ?app_nil_r; repeat rewrite <- app_assoc; cbn [app]; rewrite ?app_nil_r; try reflexivity.
Ltac nf_in H := rewrite ?app_nil_r in H; repeat rewrite <- app_assoc in H; cbn [app] in H.

Lemma triv_app s t : triv s -> triv t -> triv (s ++ t).
Proof.
  induction 1; intros Ht; auto.
  - cbn. constructor; auto.
  - repeat rewrite <- app_assoc. apply triv_inline; auto.
  - repeat rewrite <- app_assoc. apply triv_hash; auto.
  - repeat rewrite <- app_assoc. apply triv_slash; auto.
Qed.
Lemma multispace_triv s : forallb is_multispace s = true -> triv s.
Proof.
  induction s as [|c s IH]; cbn; intros H; constructor; apply andb_true_iff in H; tauto.
Qed.
Lemma space_triv s : forallb is_space s = true -> triv s.
Proof.
  intros H. apply multispace_triv. rewrite forallb_forall in *. intros c Hc. specialize (H c Hc).
  unfold is_space, is_multispace in *. rewrite H. reflexivity.
Qed.
Lemma rep_triv o s (l : list unit) : rep (fun _ t _ => triv t /\ t <> []) o s l -> triv s.
Proof. induction 1; [constructor|]. apply triv_app; tauto. Qed.
Lemma rep_space o s (l : list str) : rep (fun _ t _ => triv t /\ t <> []) o s l -> triv s.
Proof. induction 1; [constructor|]. apply triv_app; tauto. Qed.
Lemma rep_imp {A} (P Q : N -> str -> A -> Prop) o t l :
  rep P o t l -> (forall o t a, P o t a -> Q o t a) -> rep Q o t l.
Proof. induction 1; intros; constructor; auto. Qed.

Lemma is_ident_cons u c t : is_id_start u c = true -> forallb (is_id_continue u) t = true -> is_ident u (c :: t) = true.
Proof. intros A B. cbn. rewrite A, B. reflexivity. Qed.

Section Leaves.
  Context (bad : str -> Prop).
  Context (bad_app : forall (t s : str), bad s -> bad (t ++ s)).
  Notation sat := (sat bad).
  Notation sat_bind := (sat_bind bad bad_app).

  Lemma inline_comment_ok n o : sat n o inline_comment (fun t _ => triv t /\ t <> []).
  Proof.
    unfold inline_comment. eapply sat_bind. { apply sat_tag with (P := fun t _ => t = lit "/*"). reflexivity. }
    intros t1 ? -> _. eapply sat_bind.
    { apply sat_take_until with (P := fun x _ => find_tag (lit "*/") (x ++ lit "*/") = Some x). auto. }
    intros t2 ? E _. apply sat_tag. split; [|discriminate].
    rewrite <- (app_nil_r (lit "*/")). apply triv_inline; [exact E|constructor].
  Qed.
  Lemma till_line_ending_ok n o : sat n o till_line_ending (fun t _ => forallb not_eol t = true).
  Proof.
    unfold till_line_ending. eapply sat_bind.
    { apply sat_take_while0 with (P := fun t _ => forallb not_eol t = true). auto. }
    intros t1 a E _ s Hs. cbn [snd]. 
    assert (H : exists t, s = t ++ snd (o + blen t1, s) /\ fst (o + blen t1, s) = o + blen t1 + blen t /\
              forallb not_eol (t1 ++ t) = true).
    { exists []. cbn. rewrite N.add_0_r, app_nil_r. auto. }
    assert (H' := here' (o + blen t1) s).
    destruct s as [|c s]; [exact H|].
    destruct (N.eqb_spec c 13) as [->|Hc].
    - destruct s as [|d s]; [exact H'|]. destruct (N.eqb_spec d 10) as [->|Hd]; [exact H|].
      destruct d as [|d]; [exact H'|].
      destruct d as [d|d|]; try exact H'. destruct d as [d|d|]; try exact H'.
      destruct d as [d|d|]; try exact H'. destruct d as [d|d|]; try exact H'. now destruct Hd.
    - destruct c as [|c]; [exact H|].
      destruct c as [c|c|]; try exact H. destruct c as [c|c|]; try exact H.
      destruct c as [c|c|]; try exact H. destruct c as [c|c|]; try exact H. now destruct Hc.
  Qed.
  Lemma hash_ok n o : sat n o hash_line_comment (fun t _ => triv t /\ t <> []).
  Proof.
    unfold hash_line_comment. eapply sat_bind. { apply sat_char with (P := fun t _ => t = [35]). reflexivity. }
    intros t1 ? -> _. eapply sat_bind; [apply till_line_ending_ok|]. intros t2 ? E _. apply sat_ret.
    rewrite app_nil_r. split; [|discriminate]. rewrite <- (app_nil_r t2). apply triv_hash; [exact E|constructor].
  Qed.
  Lemma slash_ok n o : sat n o double_slash_line_comment (fun t _ => triv t /\ t <> []).
  Proof.
    unfold double_slash_line_comment. eapply sat_bind. { apply sat_tag with (P := fun t _ => t = lit "//"). reflexivity. }
    intros t1 ? -> _. eapply sat_bind; [apply till_line_ending_ok|]. intros t2 ? E _. apply sat_ret.
    rewrite app_nil_r. split; [|discriminate]. rewrite <- (app_nil_r t2). apply triv_slash; [exact E|constructor].
  Qed.
  Lemma peek_any_ok n o : sat n o (peek any) (fun t _ => t = []).
  Proof. eapply sat_peek; [apply sat_any with (P := fun _ _ => True); auto|]. auto. Qed.
  Lemma comment_ok n o : sat n o comment (fun t _ => triv t /\ t <> []).
  Proof.
    unfold comment. eapply sat_bind; [apply peek_any_ok|]. intros t c -> _.
    cbn [app]. destruct (c =? 35); [apply hash_ok|]. destruct (c =? 47); [|apply sat_fail].
    apply sat_alt; [apply slash_ok|apply inline_comment_ok].
  Qed.
  Lemma line_comment_ok n o : sat n o line_comment (fun t _ => triv t /\ t <> []).
  Proof.
    unfold line_comment. eapply sat_bind; [apply peek_any_ok|]. intros t c -> _.
    cbn [app]. destruct (c =? 35); [apply hash_ok|]. destruct (c =? 47); [|apply sat_fail]. apply slash_ok.
  Qed.
  Lemma ws_ok n o : sat n o ws (fun t _ => triv t).
  Proof.
    unfold ws. eapply sat_bind. { apply sat_take_while0 with (P := fun t _ => triv t). apply multispace_triv. }
    intros t1 ? H1 _. eapply sat_bind.
    { apply (sat_many0 bad bad_app (fun _ t _ => triv t /\ t <> [])); [|tauto].
      intros m o' _. eapply sat_bind; [apply comment_ok|]. intros t [] [H2 H3] _.
      apply sat_take_while0. intros t' H'. split; [apply triv_app; auto using multispace_triv|].
      destruct t; [congruence|discriminate]. }
    intros t2 ? H2 _. apply sat_ret. rewrite app_nil_r. apply triv_app; [exact H1|eapply rep_space; exact H2].
  Qed.
  Lemma sp_ok n o : sat n o sp (fun t _ => triv t).
  Proof.
    unfold sp. eapply sat_bind. { apply sat_take_while0 with (P := fun t _ => triv t). apply space_triv. }
    intros t1 ? H1 _. eapply sat_bind.
    { apply (sat_many0 bad bad_app (fun _ t _ => triv t /\ t <> [])); [|tauto].
      intros m o' _. eapply sat_bind; [apply inline_comment_ok|]. intros t [] [H2 H3] _.
      apply sat_take_while0. intros t' H'. split; [apply triv_app; auto using space_triv|].
      destruct t; [congruence|discriminate]. }
    intros t2 ? H2 _. apply sat_ret. rewrite app_nil_r. apply triv_app; [exact H1|eapply rep_space; exact H2].
  Qed.
  Lemma ws_or_sp_ok nl n o : sat n o (ws_or_sp nl) (fun t _ => triv t).
  Proof. destruct nl; [apply ws_ok|apply sp_ok]. Qed.
  Lemma sp_comment_ok n o : sat n o sp_comment (fun t _ => triv t).
  Proof.
    unfold sp_comment. eapply sat_bind; [apply sp_ok|]. intros t1 ? H1 _.
    eapply sat_bind. { eapply sat_opt with (P := fun t _ => triv t); [|constructor]. eapply sat_conseq; [apply line_comment_ok|]. cbn. tauto. }
    intros t2 ? H2 _. apply sat_ret. rewrite app_nil_r. apply triv_app; assumption.
  Qed.
  Lemma raw_string_ok p n o (P : str -> Prop) :
    sat n o p (fun t _ => P t) -> sat n o (raw_string p) (fun t r => P t /\ r = rw o t).
  Proof. intros H. unfold raw_string. apply sat_pmap; try exact bad_app. apply sat_pspan; try exact bad_app. eapply sat_conseq; [exact H|]. cbn. auto. Qed.
  Lemma line_ending_ok n o : sat n o line_ending (fun t x => eol t /\ x = t).
  Proof.
    unfold line_ending. apply sat_taken; try exact bad_app.
    apply sat_alt; apply sat_tag; (split; [|reflexivity]); [left|right]; reflexivity.
  Qed.
  Lemma digit1_ok n o : sat n o digit1 (fun t x => forallb is_digit t = true /\ t <> [] /\ x = t).
  Proof. apply sat_take_while1. auto. Qed.

  Section Num.
    Context (b : build) (parse_f64 : str -> f64).
    Lemma exponent_ok n o : sat n o exponent (fun t _ => gexpo t).
    Proof.
      unfold exponent. eapply sat_bind.
      { apply sat_one_of with (P := fun t _ => t = [101] \/ t = [69]). intros c E.
        apply orb_true_iff in E. destruct E as [E|E]; apply N.eqb_eq in E; subst c; auto. }
      intros t1 ? H1 _. eapply sat_bind.
      { apply sat_opt with (P := fun t _ => t = [] \/ t = [43] \/ t = [45]); [|auto].
        apply sat_one_of. intros c E. apply orb_true_iff in E. destruct E as [E|E]; apply N.eqb_eq in E; subst c; auto. }
      intros t2 ? H2 _. eapply sat_bind; [apply sat_cut, digit1_ok|]. intros t3 x (H3 & H4 & _) _.
      apply sat_ret. rewrite app_nil_r. destruct H1 as [-> | ->]; constructor; auto.
    Qed.
    Lemma float_ok n o : sat n o (float parse_f64) (fun t f => f = parse_f64 t /\ exists d r,
      t = d ++ r /\ forallb is_digit d = true /\ d <> [] /\
      (gexpo r \/ exists f x, forallb is_digit f = true /\ f <> [] /\ (x = [] \/ gexpo x) /\ r = [46] ++ f ++ x)).
    Proof.
      unfold float. apply sat_pmap; try exact bad_app. apply sat_taken; try exact bad_app.
      eapply sat_bind; [apply digit1_ok|]. intros t1 x (H1 & H2 & _) _.
      assert (W : forall t2, gexpo t2 \/ (exists f x, forallb is_digit f = true /\ f <> [] /\ (x = [] \/ gexpo x) /\ t2 = [46] ++ f ++ x) ->
        parse_f64 (t1 ++ t2) = parse_f64 (t1 ++ t2) /\ exists d r,
        t1 ++ t2 = d ++ r /\ forallb is_digit d = true /\ d <> [] /\
        (gexpo r \/ exists f x, forallb is_digit f = true /\ f <> [] /\ (x = [] \/ gexpo x) /\ r = [46] ++ f ++ x)).
      { intros t2 H. split; [reflexivity|]. exists t1, t2. auto. }
      apply sat_alt; [|eapply sat_conseq; [apply exponent_ok|]; cbn; intros t2 ? H; apply W; auto].
      eapply sat_bind. { apply sat_char with (P := fun t _ => t = [46]). reflexivity. }
      intros t2 ? -> _. eapply sat_bind; [apply digit1_ok|]. intros t3 y (H3 & H4 & _) _.
      eapply sat_bind. { apply sat_opt with (P := fun t _ => t = [] \/ gexpo t); [|auto].
        eapply sat_conseq; [apply exponent_ok|]. auto. }
      intros t4 ? H5 _. apply sat_ret. rewrite app_nil_r. apply W. right. exists t3, t4. auto.
    Qed.
    Lemma from_f64_no_panic f : num_from_f64 b f <> Panic.
    Proof.
      unfold num_from_f64. destruct (f64_finite f) eqn:E; [|discriminate]. unfold from_finite_f64. rewrite E. destruct b; discriminate.
    Qed.
    Lemma number_ok n o : sat n o (number b parse_f64) (fun t x => gnum b parse_f64 t x).
    Proof.
      unfold number. apply sat_alt.
      - intros s Hs. pose proof (float_ok n o s Hs) as H. destruct (float parse_f64 (o, s)) as [f s'|c s'| |]; auto.
        destruct H as (t & E & F & -> & d & r & -> & G1 & G2 & G3).
        destruct (num_from_f64 b (parse_f64 (d ++ r))) as [[x|]|] eqn:Ef.
        + exists (d ++ r). split; [exact E|]. split; [exact F|]. constructor; auto.
        + apply here'.
        + now apply from_f64_no_panic in Ef.
      - apply sat_pmap; try exact bad_app. unfold integer. apply sat_verify_map; try exact bad_app.
        eapply sat_conseq; [apply digit1_ok|]. cbv beta. intros t x (H1 & H2 & ->) r.
        destruct (Z.of_N (digits_val t) <=? u64_max)%Z eqn:E; [|discriminate]. intros [= <-].
        apply GInt; auto. apply Z.leb_le, E.
    Qed.
    Lemma gnum_ne t x : gnum b parse_f64 t x -> t <> [].
    Proof. destruct 1; [assumption|]. destruct d; [congruence|discriminate]. Qed.
  End Num.

  (** Strings: fragments consume something. *)
  Definition some_text {A} (t : str) (_ : A) : Prop := t <> [].
  Lemma ne_app_l (s t : str) : s <> [] -> s ++ t <> [].
  Proof. destruct s; [congruence|discriminate]. Qed.
  Lemma escaped_marker_ok n o : sat n o escaped_marker some_text.
  Proof.
    unfold escaped_marker. eapply sat_bind. { apply sat_take_n with (P := fun t _ => t <> []). intros [|]; [discriminate|intros; discriminate]. }
    intros t x H _. destruct (seqb x (lit "$${")); [apply sat_ret; nf; exact H|].
    destruct (seqb x (lit "%%{")); [apply sat_ret; nf; exact H|apply sat_fail].
  Qed.
  Definition quiet (p : parser unit) : Prop := forall n o, sat n o p (fun _ _ => True).
  Lemma quiet_tag t : quiet (tag t).
  Proof. intros n o. now apply sat_tag. Qed.
  Lemma any_until_ok p n o : quiet p -> sat n o (any_until p) some_text.
  Proof.
    intros Hp. unfold any_until. apply sat_taken; try exact bad_app. eapply sat_conseq.
    { apply (sat_many1 bad bad_app (fun _ t _ => t <> [])); [|auto]. intros m o' _.
      eapply sat_bind.
      { eapply sat_not with (P := fun _ _ => True); try exact bad_app. apply sat_alt; [|apply Hp].
        apply sat_pmap; try exact bad_app. eapply sat_conseq; [apply escaped_marker_ok|]. auto. }
      intros t [] -> _. apply sat_any. discriminate. }
    cbn. intros t a (_ & _ & H). exact H.
  Qed.
  Lemma string_literal_ok n o : sat n o string_literal some_text.
  Proof.
    apply any_until_ok. intros m o'. unfold string_literal_end. eapply sat_bind; [apply sat_any with (P := fun _ _ => True); auto|].
    intros t c _ _. destruct (_ || _); [now apply sat_ret|]. destruct (_ || _); [|apply sat_fail].
    eapply sat_bind; [now apply sat_char with (P := fun _ _ => True)|]. intros. now apply sat_ret.
  Qed.
  Lemma hexescape_ok k n o : sat n o (hexescape k) (fun _ _ => True).
  Proof.
    unfold hexescape. apply sat_verify_map; try exact bad_app. intros s Hs. cbn [fst snd].
    destruct (Nat.eqb _ _) eqn:E; [|apply here'].
    exists (firstn k (fst (span is_hex s))). cbn [fst snd]. split; [|auto].
    apply Nat.eqb_eq in E.
    assert (Hl : (k <= List.length (fst (span is_hex s)))%nat). { rewrite firstn_length in E. lia. }
    rewrite <- (span_app is_hex s) at 1 3. rewrite skipn_app.
    replace (k - List.length (fst (span is_hex s)))%nat with 0%nat by lia. cbn [skipn]. rewrite app_assoc.
    now rewrite firstn_skipn.
  Qed.
  Lemma escaped_char_ok n o : sat n o escaped_char some_text.
  Proof.
    unfold escaped_char. eapply sat_bind. { apply sat_char with (P := fun t _ => t <> []). discriminate. }
    intros t1 ? H1 _. eapply sat_bind; [apply sat_any with (P := fun _ _ => True); auto|]. intros t2 c _ _.
    assert (R : forall x : N, sat (n - List.length t1 - List.length t2) (o + blen t1 + blen t2) (ret x)
              (fun t' r => some_text (t1 ++ t2 ++ t') r)).
    { intros x. apply sat_ret. unfold some_text. now apply ne_app_l. }
    repeat (destruct (_ =? _); [first [apply R | eapply sat_cut, sat_conseq; [apply hexescape_ok|]; intros; unfold some_text; now apply ne_app_l]|]).
    apply sat_cut, sat_fail.
  Qed.
  Definition frag_ok (p : parser str) : Prop := forall n o, sat n o p some_text.
  Lemma quoted_frag_ok : frag_ok quoted_string_fragment.
  Proof.
    intros n o. unfold quoted_string_fragment. apply sat_alt; [apply escaped_marker_ok|].
    apply sat_alt; [apply string_literal_ok|]. apply sat_pmap; try exact bad_app. apply escaped_char_ok.
  Qed.
  Lemma template_frag_ok p : quiet p -> frag_ok (template_string_fragment p).
  Proof. intros Hp n o. apply sat_alt; [apply escaped_marker_ok|apply any_until_ok, Hp]. Qed.
  Lemma build_loop_ok p : frag_ok p -> forall k n o, (n < k)%nat -> sat n o (build_loop k p) (fun _ _ => True).
  Proof.
    intros Hp. induction k as [|k IH]; intros n o Hk s Hs; [lia|]. cbn [build_loop].
    pose proof (Hp n o s Hs) as H. destruct (p (o, s)) as [a s'|c s'| |]; auto.
    - destruct H as (t & E & F & G). destruct s' as [o' s']. cbn [fst snd] in *. subst s o'.
      rewrite app_length in Hs. assert (L : (1 <= List.length t)%nat). { destruct t; [now destruct G|cbn; lia]. }
      assert (IHs := IH (n - List.length t)%nat (o + blen t) ltac:(lia) s' ltac:(lia)).
      destruct (build_loop k p (o + blen t, s')) as [r s2|c s2| |]; auto.
      + destruct IHs as (t' & -> & F & _). exists (t ++ t'). rewrite app_assoc, blen_app, F.
        split; [reflexivity|]. split; [lia|exact I].
      + destruct IHs as (t' & -> & F). exists (t ++ t'). rewrite app_assoc, blen_app, F. split; [reflexivity|lia].
    - destruct H as (t & E & F). eauto.
  Qed.
  Lemma build_string_ok p n o : frag_ok p -> sat n o (build_string p) some_text.
  Proof.
    intros Hp. unfold build_string. eapply sat_bind; [apply Hp|]. intros t x H _.
    eapply sat_bind.
    { intros s Hs. cbn [snd]. exact (build_loop_ok p Hp (S (List.length s)) (List.length s) _ ltac:(lia) s (le_n _)). }
    intros t2 y _ _. apply sat_ret. now apply ne_app_l.
  Qed.
  Lemma pstring_ok n o : sat n o pstring (fun t _ => gquoted t).
  Proof.
    unfold pstring. eapply sat_bind. { apply sat_char with (P := fun t _ => t = [34]). reflexivity. }
    intros t1 ? -> _. eapply sat_bind.
    { apply sat_opt with (P := fun _ _ => True); [|exact I]. eapply sat_conseq; [apply build_string_ok, quoted_frag_ok|]. auto. }
    intros t2 r _ _. eapply sat_bind. { apply sat_char with (P := fun t _ => t = [34]). reflexivity. }
    intros t3 ? -> _. apply sat_ret. exists t2. reflexivity.
  Qed.

  Section Ids.
    Context (u : unicode).
    Lemma str_ident_ok n o : sat n o (str_ident u) (fun t x => is_ident u t = true /\ x = t).
    Proof.
      unfold str_ident. apply sat_taken; try exact bad_app.
      eapply sat_bind. { apply sat_one_of with (P := fun t _ => exists c, t = [c] /\ is_id_start u c = true). eauto. }
      intros t1 ? (c & -> & H1) _. apply sat_take_while0. intros t2 H2. split; [|reflexivity].
      now apply is_ident_cons.
    Qed.
    Lemma ident_ok n o : sat n o (ident u) (fun t i => is_ident u t = true /\ i = Did no_meta t).
    Proof.
      unfold ident. apply sat_pmap; try exact bad_app. eapply sat_conseq; [apply str_ident_ok|]. cbn.
      intros t a [H ->]. auto.
    Qed.
    Lemma is_ident_ne t : is_ident u t = true -> t <> [].
    Proof. destruct t; discriminate. Qed.
  End Ids.

  (** Decoration. *)
  Section Deco.
    Context {A : Type} (upd : (meta -> meta) -> A -> A).
    Lemma spanned_ok p n o (P : str -> A -> Prop) :
      sat n o p (fun t a => P t (upd (set_span (sp_of o t)) a)) -> sat n o (spanned upd p) P.
    Proof.
      intros H. unfold spanned. eapply sat_bind; [apply sat_with_span with (P := fun t a => P t (upd (set_span (snd a)) (fst a))); first [exact bad_app|exact H]|].
      intros t [a s] Ha _. apply sat_ret. rewrite app_nil_r. exact Ha.
    Qed.
    Lemma decorated_ok n o pre inner suf (P : N -> str -> A -> Prop) :
      (forall n o, sat n o pre (fun t _ => triv t)) ->
      (forall n o, sat n o suf (fun t _ => triv t)) ->
      (forall m o, (m <= n)%nat -> sat m o inner (P o)) ->
      sat n o (decorated upd pre inner suf) (fun t r => exists a x z y, t = a ++ x ++ z /\ triv a /\ triv z /\
        P (o + blen a) x y /\
        r = upd (around o a (o + blen a + blen x) z) (upd (set_span (sp_of (o + blen a) x)) y)).
    Proof.
      intros Hp Hs Hi. unfold decorated.
      eapply sat_bind. { apply sat_pspan with (P := fun t s => triv t /\ s = sp_of o t); try exact bad_app. eapply sat_conseq; [apply Hp|]. auto. }
      intros a sa [Ha ->] Hla. eapply sat_bind.
      { apply spanned_ok with (P := fun x r => exists y, P (o + blen a) x y /\ r = upd (set_span (sp_of (o + blen a) x)) y).
        eapply sat_conseq; [apply Hi; lia|]. cbn. eauto. }
      intros x r (y & Hy & ->) _. eapply sat_bind.
      { apply sat_pspan with (P := fun t s => triv t /\ s = sp_of (o + blen a + blen x) t); try exact bad_app. eapply sat_conseq; [apply Hs|]. auto. }
      intros z sz [Hz ->] _. apply sat_ret. rewrite app_nil_r. exists a, x, z, y. auto.
    Qed.
    Lemma prefix_decorated_ok n o pre inner (P : N -> str -> A -> Prop) :
      (forall n o, sat n o pre (fun t _ => triv t)) ->
      (forall m o, (m <= n)%nat -> sat m o inner (P o)) ->
      sat n o (prefix_decorated upd pre inner) (fun t r => exists a x y, t = a ++ x /\ triv a /\
        P (o + blen a) x y /\ r = upd (set_prefix (rw o a)) (upd (set_span (sp_of (o + blen a) x)) y)).
    Proof.
      intros Hp Hi. unfold prefix_decorated.
      eapply sat_bind. { apply sat_pspan with (P := fun t s => triv t /\ s = sp_of o t); try exact bad_app. eapply sat_conseq; [apply Hp|]. auto. }
      intros a sa [Ha ->] Hla. eapply sat_bind.
      { apply spanned_ok with (P := fun x r => exists y, P (o + blen a) x y /\ r = upd (set_span (sp_of (o + blen a) x)) y).
        eapply sat_conseq; [apply Hi; lia|]. cbn. eauto. }
      intros x r (y & Hy & ->) _. apply sat_ret. rewrite app_nil_r. exists a, x, y. auto.
    Qed.
    Lemma suffix_decorated_ok n o inner suf (P : N -> str -> A -> Prop) :
      (forall n o, sat n o suf (fun t _ => triv t)) ->
      sat n o inner (P o) ->
      sat n o (suffix_decorated upd inner suf) (fun t r => exists x z y, t = x ++ z /\ triv z /\
        P o x y /\ r = upd (set_suffix (rw (o + blen x) z)) (upd (set_span (sp_of o x)) y)).
    Proof.
      intros Hs Hi. unfold suffix_decorated.
      eapply sat_bind.
      { apply spanned_ok with (P := fun x r => exists y, P o x y /\ r = upd (set_span (sp_of o x)) y).
        eapply sat_conseq; [apply Hi; lia|]. cbn. eauto. }
      intros x r (y & Hy & ->) _. eapply sat_bind.
      { apply sat_pspan with (P := fun t s => triv t /\ s = sp_of (o + blen x) t); try exact bad_app. eapply sat_conseq; [apply Hs|]. auto. }
      intros z sz [Hz ->] _. apply sat_ret. rewrite app_nil_r. exists x, z, y. auto.
    Qed.
  End Deco.
End Leaves.

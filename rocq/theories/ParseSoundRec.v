(** * The parser is sound for the grammar: expressions, templates and bodies *)
From Coq Require Import NArith ZArith Bool String List Lia.
From Verif Require Import Res Str Dec NumberModel PrimModel DedentModel EAst ParseBase ParseModel Grammar ParseLemmas ParseSound.
Import ListNotations.
Open Scope N_scope.

Lemma rep_app {A} (P : N -> str -> A -> Prop) o t l t' l' :
  rep P o t l -> rep P (o + blen t) t' l' -> rep P o (t ++ t') (l ++ l').
Proof.
  induction 1; cbn [app]; intros H'.
  - cbn in H'. rewrite N.add_0_r in H'. exact H'.
  - rewrite <- app_assoc. constructor; [assumption|]. apply IHrep. rewrite blen_app in H'.
    replace (o + blen t1 + blen t2) with (o + (blen t1 + blen t2)) by lia. exact H'.
Qed.
Lemma rep_snoc_inv {A} (P : N -> str -> A -> Prop) l a : forall o t,
  rep P o t (l ++ [a]) -> exists t1 t2, t = t1 ++ t2 /\ rep P o t1 l /\ P (o + blen t1) t2 a.
Proof.
  induction l as [|x l IH]; intros o t H.
  - inversion H as [|? t1 t2 ? ? H1 H2]; subst. inversion H2; subst. exists [], t1. cbn. rewrite N.add_0_r, app_nil_r.
    split; [reflexivity|]. split; [constructor|assumption].
  - cbn in H. inversion H as [|? t1 t2 ? ? H1 H2]; subst. apply IH in H2. destruct H2 as (t3 & t4 & -> & H3 & H4).
    exists (t1 ++ t3), t4. rewrite app_assoc, blen_app. split; [reflexivity|]. split; [now constructor|].
    replace (o + (blen t1 + blen t3)) with (o + blen t1 + blen t3) by lia. exact H4.
Qed.

Section Rec.
  Context (u : unicode) (b : build) (parse_f64 : str -> f64).
  Context (group : xexpr -> list (oper * xexpr) -> option xexpr).
  Context (obj_add : xitem -> list xitem -> list xitem).
  Context (group_total : forall e ops, group e ops <> None).
  Notation gexpr := (Grammar.gexpr u b parse_f64 group obj_add).
  Notation gdx := (Grammar.gdx u b parse_f64 group obj_add).
  Notation gpx := (Grammar.gpx u b parse_f64 group obj_add).
  Notation gargs := (Grammar.gargs u b parse_f64 group obj_add).
  Notation gmore := (Grammar.gmore u b parse_f64 group obj_add).
  Notation gitem := (Grammar.gitem u b parse_f64 group obj_add).
  Notation gitems := (Grammar.gitems u b parse_f64 group obj_add).
  Notation gtrops := (Grammar.gtrops u b parse_f64 group obj_add).
  Notation gop := (Grammar.gop u b parse_f64 group obj_add).
  Notation gops := (Grammar.gops u b parse_f64 group obj_add).
  Notation gintro := (Grammar.gintro u b parse_f64 group obj_add).
  Notation gcond := (Grammar.gcond u b parse_f64 group obj_add).
  Notation gelem := (Grammar.gelem u b parse_f64 group obj_add).
  Notation gelems := (Grammar.gelems u b parse_f64 group obj_add).
  Notation gelse := (Grammar.gelse u b parse_f64 group obj_add).
  Notation gbody := (Grammar.gbody u b parse_f64 group obj_add).
  Notation gstruct := (Grammar.gstruct u b parse_f64 group obj_add).
  Notation gstructs := (Grammar.gstructs u b parse_f64 group obj_add).
  Notation gblock := (Grammar.gblock u b parse_f64 group obj_add).

  (** The text contains a negated number literal whose negation panics. *)
  Definition bad (s : str) : Prop :=
    exists x z d y n, s = x ++ [45] ++ z ++ d ++ y /\ triv z /\ gnum b parse_f64 d n /\ num_neg b n = Panic.
  Lemma bad_app t s : bad s -> bad (t ++ s).
  Proof. intros (x & z & d & y & n & -> & H). exists (t ++ x), z, d, y, n. now rewrite <- app_assoc. Qed.
  Notation sat := (ParseLemmas.sat bad).
  Notation sat_bind := (ParseLemmas.sat_bind bad bad_app).
  Notation ws_ok := (ParseSound.ws_ok bad bad_app).
  Notation sp_ok := (ParseSound.sp_ok bad bad_app).
  Notation ws_or_sp_ok := (ParseSound.ws_or_sp_ok bad bad_app).

  Lemma gexpr_ne o t e : gexpr o t e -> t <> [].
  Proof.
    induction 1; subst; try discriminate.
    - eapply is_ident_ne; eassumption.
    - eapply gnum_ne; eassumption.
    - match goal with H : gquoted _ |- _ => destruct H as (q & ->) end. discriminate.
    - now apply ne_app_l.
    - match goal with H : gsid _ _ _ _ |- _ => destruct H as (x & z & -> & Hx & _) end.
      apply is_ident_ne in Hx. now apply ne_app_l, ne_app_l.
    - now apply ne_app_l.
    - destruct op; discriminate.
    - now apply ne_app_l.
  Qed.
  Lemma gelem_ne o t e : gelem o t e -> t <> [].
  Proof. destruct 1; subst; try discriminate. assumption. Qed.
  Lemma gelems_rep o t l : gelems o t l <-> rep gelem o t l.
  Proof.
    split.
    - revert o t. induction l as [|e l IH]; intros o t H; inversion H; subst; constructor; auto.
    - revert o t. induction l as [|e l IH]; intros o t H; inversion H; subst; constructor; auto.
  Qed.

  Context (R : recs).
  Definition RK (n : nat) : Prop :=
    (forall nl m o, (m <= n)%nat -> sat m o (r_expr R nl) (gexpr o)) /\
    (forall nl m o, (m <= n)%nat -> sat m o (r_term R nl) (gexpr o)) /\
    (forall m o, (m <= n)%nat -> sat m o (r_tpl R) (gelems o)) /\
    (forall m o, (m <= n)%nat -> sat m o (r_body R) (gbody o)).
  (** What may be assumed before a character is consumed. *)
  Definition RK' (n : nat) : Prop := forall m, (m < n)%nat -> RK m.
  Lemma RK_le n m : RK n -> (m <= n)%nat -> RK m.
  Proof.
    intros (A & B & C & D) H. repeat split; intros; [apply A|apply B|apply C|apply D]; lia.
  Qed.
  Lemma RK_RK' n : RK n -> RK' n.
  Proof. intros H m Hm. eapply RK_le; [exact H|lia]. Qed.
  Lemma RK'_le n m : RK' n -> (m <= n)%nat -> RK' m.
  Proof. intros H Hm k Hk. apply H. lia. Qed.
  Lemma RK'_S n (t : str) : RK' n -> (List.length t <= n)%nat -> t <> [] -> RK (n - List.length t).
  Proof. intros H Hl Ht. apply H. destruct t; [congruence|]. cbn in *. lia. Qed.
  Lemma RK_sub n k : RK n -> RK (n - k).
  Proof. intros H. eapply RK_le; [exact H|lia]. Qed.
  Lemma RK'_sub n k : RK' n -> RK' (n - k).
  Proof. intros H. eapply RK'_le; [exact H|lia]. Qed.

  Lemma dx_ok nl n o : RK n -> sat n o (decorated_expr (r_expr R nl)) (gdx o).
  Proof.
    intros H. unfold decorated_expr. eapply sat_conseq.
    { apply (decorated_ok bad bad_app x_upd n o ws (r_expr R nl) ws gexpr); auto using ws_ok.
      intros m o' Hm. now apply H. }
    cbn. intros t r (a & x & z & y & -> & Ha & Hz & Hy & ->). econstructor; eauto.
  Qed.
  Lemma dx_ok' pre suf inner n o :
    (forall n o, sat n o pre (fun t _ => triv t)) -> (forall n o, sat n o suf (fun t _ => triv t)) ->
    (forall m o, (m <= n)%nat -> sat m o inner (gexpr o)) ->
    sat n o (decorated x_upd pre inner suf) (gdx o).
  Proof.
    intros H1 H2 H. eapply sat_conseq.
    { apply (decorated_ok bad bad_app x_upd n o pre inner suf gexpr); auto. }
    cbn. intros t r (a & x & z & y & -> & Ha & Hz & Hy & ->). econstructor; eauto.
  Qed.
  Lemma px_ok pre inner n o :
    (forall n o, sat n o pre (fun t _ => triv t)) ->
    (forall m o, (m <= n)%nat -> sat m o inner (gexpr o)) ->
    sat n o (prefix_decorated x_upd pre inner) (gpx o).
  Proof.
    intros H1 H. eapply sat_conseq.
    { apply (prefix_decorated_ok bad bad_app x_upd n o pre inner gexpr); auto. }
    cbn. intros t r (a & x & y & -> & Ha & Hy & ->). econstructor; eauto.
  Qed.
  Lemma ident_did n o (p : parser did) : (p = ident u \/ p = cut (ident u)) ->
    sat n o p (fun t i => is_ident u t = true /\ i = Did no_meta t).
  Proof. intros [-> | ->]; [|apply sat_cut]; apply ident_ok, bad_app. Qed.
  Lemma did_ok n o pre suf :
    (forall n o, sat n o pre (fun t _ => triv t)) -> (forall n o, sat n o suf (fun t _ => triv t)) ->
    sat n o (decorated did_upd pre (cut (ident u)) suf) (gdid u o).
  Proof.
    intros H1 H2. eapply sat_conseq.
    { apply (decorated_ok bad bad_app did_upd n o pre (cut (ident u)) suf (fun _ t i => is_ident u t = true /\ i = Did no_meta t)); auto using ident_did. }
    cbn. intros t r (a & x & z & y & -> & Ha & Hz & [Hx ->] & ->). exists a, x, z. auto.
  Qed.
  Lemma decorated_ident_ok n o : sat n o (decorated_ident u) (gdid u o).
  Proof. apply did_ok; apply ws_ok. Qed.
  Lemma gdid_ne o t i : gdid u o t i -> t <> [].
  Proof. intros (a & x & z & -> & _ & Hx & _) E. apply app_eq_nil in E. destruct E as [_ E]. apply app_eq_nil in E. destruct E as [-> _]. discriminate. Qed.

  (** Template controls. *)
  Lemma opt_char_ok c n o : sat n o (opt (char c)) (fun t r => t = opt_char c (match r with Some _ => true | None => false end)).
  Proof. apply sat_opt; [|reflexivity]. now apply sat_char. Qed.
  Lemma strip_of_start a z : strip_start (strip_of (a, z)) = a.
  Proof. destruct a, z; reflexivity. Qed.
  Lemma strip_of_end a z : strip_end (strip_of (a, z)) = z.
  Proof. destruct a, z; reflexivity. Qed.
  Lemma control_ok {A} intro (inner : parser A) (P : N -> str -> A -> Prop) n o :
    intro <> [] -> (forall m o, (m < n)%nat -> sat m o inner (P o)) ->
    sat n o (control intro inner) (fun t r => exists ti, t = intro ++ tilde_l (snd r) ++ ti ++ tilde_r (snd r) ++ [125] /\
      P (o + blen intro + blen (tilde_l (snd r))) ti (fst r)).
  Proof.
    intros Hne Hi. unfold control. eapply sat_bind. { apply sat_tag with (P := fun t _ => t = intro). reflexivity. }
    intros t1 ? -> Hl1. eapply sat_bind; [apply opt_char_ok|]. intros t2 ra Ha _.
    eapply sat_bind. { apply (Hi _ (o + blen intro + blen t2)). destruct intro; [congruence|]. cbn in *. lia. }
    intros t3 x Hx _. eapply sat_bind; [apply opt_char_ok|]. intros t4 rz Hz _.
    eapply sat_bind. { apply sat_cut, sat_char with (P := fun t _ => t = [125]). reflexivity. }
    intros t5 ? -> _. apply sat_ret. cbn [fst snd]. unfold tilde_l, tilde_r. rewrite strip_of_start, strip_of_end, <- Ha, <- Hz.
    exists t3. split; [nf|exact Hx].
  Qed.
  Lemma spanned_tpl_ok n o : RK n ->
    sat n o (spanned_tpl R) (fun t r => exists es, r = XTempl es (Some (sp_of o t)) /\ gelems o t es).
  Proof.
    intros H. unfold spanned_tpl. eapply sat_bind.
    { apply sat_with_span with (P := fun t r => gelems o t (fst r) /\ snd r = sp_of o t); try exact bad_app.
      eapply sat_conseq; [apply H; lia|]. auto. }
    intros t [es s] [H1 H2] _. cbn [fst snd] in *. subst s. apply sat_ret. rewrite app_nil_r. eauto.
  Qed.
  Lemma end_control_ok kw p n o : (p = tag kw \/ p = cut (tag kw)) ->
    sat n o (end_control p) (fun t r => gend kw o t (fst (fst r)) (snd (fst r)) (snd r) /\ t <> []).
  Proof.
    intros Hp. unfold end_control. eapply sat_conseq.
    { apply (control_ok (lit "%{") _ (fun o t r => exists ta tz, t = ta ++ kw ++ tz /\ triv ta /\ triv tz /\
         fst r = rw o ta /\ snd r = rw (o + blen ta + blen kw) tz)); [discriminate|].
      intros m o' _. eapply sat_bind; [apply (raw_string_ok bad bad_app), ws_ok|]. intros t1 ra [H1 ->] _.
      eapply sat_bind.
      { assert (X : forall n o, sat n o (tag kw) (fun t _ => t = kw)) by (intros; now apply sat_tag).
        destruct Hp as [-> | ->]; [|apply sat_cut]; apply X. }
      intros t2 ? -> _. eapply sat_bind; [apply (raw_string_ok bad bad_app), ws_ok|]. intros t3 rz [H3 ->] _.
      apply sat_ret. exists t1, t3. cbn [fst snd]. rewrite app_nil_r. auto. }
    cbn. intros t [[a z] s] (ti & -> & ta & tz & -> & H1 & H2 & H3 & H4). cbn [fst snd] in *. split; [|discriminate].
    exists ta, tz. subst. repeat split; auto. now rewrite <- !app_assoc.
  Qed.

  Lemma interpolation_ok n o : RK' n ->
    sat n o (interpolation R) (fun t e => gelem o t (elem_set_span (sp_of o t) e)).
  Proof.
    intros H. unfold interpolation. eapply sat_bind.
    { apply (control_ok (lit "${") _ gdx); [discriminate|]. intros m o' Hm. apply dx_ok, H, Hm. }
    intros t [e s] (ti & -> & He) _. cbn [fst snd] in *. apply sat_ret. rewrite app_nil_r. cbn [elem_set_span].
    econstructor; [reflexivity|exact He].
  Qed.
  Lemma if_directive_ok n o : RK' n ->
    sat n o (if_directive R) (fun t e => gelem o t (elem_set_span (sp_of o t) e)).
  Proof.
    intros H. unfold if_directive. eapply sat_bind.
    { apply (control_ok (lit "%{") _ (fun o t r => exists p ti, t = p ++ lit "if" ++ ti /\ triv p /\ fst r = rw o p /\ gdx (o + blen p + 2) ti (snd r))); [discriminate|].
      intros m o' Hm. eapply sat_bind; [apply (raw_string_ok bad bad_app), ws_ok|]. intros t1 r1 [H1 ->] _.
      eapply sat_bind; [apply sat_tag with (P := fun t _ => t = lit "if"); reflexivity|]. intros t2 ? -> _.
      eapply sat_bind; [apply dx_ok, RK_sub, RK_sub, H, Hm|]. intros t3 c Hc _. apply sat_ret.
      exists t1, t3. rewrite app_nil_r. auto. }
    intros t [[pre c] s] (ti & -> & p & ti' & -> & Hp & Hr & Hc) Hl. cbn [fst snd] in *. subst pre.
    assert (RH := RK'_S _ _ H Hl ltac:(discriminate)).
    match goal with |- ParseLemmas.sat _ ?n _ _ _ => set (n1 := n) in * end.
    eapply sat_bind; [apply spanned_tpl_ok, RH|].
    intros tb tpl (es & -> & Hes) _. eapply sat_bind.
    { apply sat_opt with (P := fun t r => gelse (o + blen (lit "%{" ++ tilde_l s ++ (p ++ lit "if" ++ ti') ++ tilde_r s ++ [125]) + blen tb) t r).
      - eapply sat_bind; [apply (end_control_ok (lit "else")); auto|]. intros te [[a z] s'] [He Hne] _. cbn [fst snd] in *.
        eapply sat_bind; [apply spanned_tpl_ok; eauto using RK_sub|]. intros tb' tpl' (es' & -> & Hes') _.
        apply sat_ret. rewrite app_nil_r. econstructor; eauto.
      - constructor. }
    intros tl el Hel _. eapply sat_bind; [apply (end_control_ok (lit "endif")); auto|].
    intros te [[a z] s'] [He _] _. cbn [fst snd] in *. apply sat_ret. rewrite app_nil_r. cbn [elem_set_span].
    repeat rewrite blen_app in Hes, Hel, He.
    change (blen (lit "%{")) with 2 in *. change (blen (lit "if")) with 2 in *. change (blen [125]) with 1 in *.
    repeat rewrite blen_app. change (blen (lit "%{")) with 2. change (blen (lit "if")) with 2. change (blen [125]) with 1.
    set (ot := o + 2 + blen (tilde_l s) + blen p + 2 + blen ti' + blen (tilde_r s) + 1).
    replace (o + (2 + (blen (tilde_l s) + (blen p + (2 + blen ti') + (blen (tilde_r s) + 1))))) with ot in * by (unfold ot; lia).
    eapply GIf with (ot := ot); eauto; nf.
  Qed.
  Lemma vars_ok n o (P : str -> did * option did -> Prop) :
    (forall t k v, gvars u o t k v -> P t (match k with Some x => (x, Some v) | None => (v, None) end)) ->
    sat n o (x <- decorated_ident u ;; y <- opt (char 44 ;; decorated_ident u) ;; ret (x, y)) P.
  Proof.
    intros HP. eapply sat_bind; [apply decorated_ident_ok|]. intros t1 x Hx _.
    eapply sat_bind.
    { apply sat_opt with (P := fun t r => match r with Some y => exists t', t = [44] ++ t' /\ gdid u (o + blen t1 + 1) t' y | None => t = [] end); [|reflexivity].
      eapply sat_bind; [apply sat_char with (P := fun t _ => t = [44]); reflexivity|]. intros t2 ? -> _.
      eapply sat_conseq; [apply decorated_ident_ok|]. cbv beta. intros t y Hy. exists t. split; [reflexivity|exact Hy]. }
    intros t2 [y|] H2 _; apply sat_ret.
    - destruct H2 as (t' & -> & Hy). rewrite app_nil_r.
      apply (HP (t1 ++ [44] ++ t') (Some x) y). right. exists t1, t', x. auto.
    - subst t2. rewrite !app_nil_r. apply (HP t1 None x). left. auto.
  Qed.
  (** The same, with more to follow. *)
  Lemma vars_then {B} n o (f : did -> option did -> parser B) (Q : str -> B -> Prop) :
    (forall t k v, gvars u o t k v -> (List.length t <= n)%nat ->
       sat (n - List.length t) (o + blen t) (match k with Some x => f x (Some v) | None => f v None end)
         (fun t' r => Q (t ++ t') r)) ->
    sat n o (x <- decorated_ident u ;; y <- opt (char 44 ;; decorated_ident u) ;; f x y) Q.
  Proof.
    intros Hf s Hs.
    assert (E : (x <- decorated_ident u ;; y <- opt (char 44 ;; decorated_ident u) ;; f x y) (o, s) =
                ('(x, y) <- (x <- decorated_ident u ;; y <- opt (char 44 ;; decorated_ident u) ;; ret (x, y)) ;; f x y) (o, s)).
    { unfold bind, ret. destruct (decorated_ident u (o, s)); auto. destruct (opt _ _); auto. }
    rewrite E. revert s Hs E. 
    enough (X : sat n o ('(x, y) <- (x <- decorated_ident u ;; y <- opt (char 44 ;; decorated_ident u) ;; ret (x, y)) ;; f x y) Q)
      by (intros s Hs _; exact (X s Hs)).
    eapply sat_bind.
    { apply vars_ok with (P := fun t r => exists k v, gvars u o t k v /\ r = match k with Some x => (x, Some v) | None => (v, None) end). eauto. }
    intros t [x y] (k & v & Hv & E) Hl. specialize (Hf t k v Hv Hl). destruct k as [k|]; injection E as -> ->; exact Hf.
  Qed.

  Lemma for_directive_ok n o : RK' n ->
    sat n o (for_directive u R) (fun t e => gelem o t (elem_set_span (sp_of o t) e)).
  Proof.
    intros H. unfold for_directive. eapply sat_bind.
    { apply (control_ok (lit "%{") _ (fun o t r => exists p tv tc k v, t = p ++ lit "for" ++ tv ++ lit "in" ++ tc /\ triv p /\
         gvars u (o + blen p + 3) tv k v /\ gdx (o + blen p + 3 + blen tv + 2) tc (snd r) /\
         fst r = match k with Some x => (rw o p, x, Some v) | None => (rw o p, v, None) end)); [discriminate|].
      intros m o' Hm. eapply sat_bind; [apply (raw_string_ok bad bad_app), ws_ok|]. intros t1 r1 [H1 ->] _.
      eapply sat_bind; [apply sat_tag with (P := fun t _ => t = lit "for"); reflexivity|]. intros t2 ? -> _.
      apply vars_then. intros tv k v Hv _.
      assert (X : forall x y, fst (rw o' t1, x, y, tt) = match k with Some x => (rw o' t1, x, Some v) | None => (rw o' t1, v, None) end ->
        sat (m - Datatypes.length t1 - Datatypes.length (lit "for") - Datatypes.length tv) (o' + blen t1 + blen (lit "for") + blen tv)
         (cut (tag (lit "in")) ;; c <- decorated_expr (r_expr R false) ;; ret (rw o' t1, x, y, c))
         (fun t' r => exists p tv0 tc k0 v0, t1 ++ lit "for" ++ tv ++ t' = p ++ lit "for" ++ tv0 ++ lit "in" ++ tc /\ triv p /\
           gvars u (o' + blen p + 3) tv0 k0 v0 /\ gdx (o' + blen p + 3 + blen tv0 + 2) tc (snd r) /\
           fst r = match k0 with Some x => (rw o' p, x, Some v0) | None => (rw o' p, v0, None) end)).
      { intros x y Ek. eapply sat_bind; [apply sat_cut, sat_tag with (P := fun t _ => t = lit "in"); reflexivity|]. intros t3 ? -> _.
        eapply sat_bind; [apply dx_ok, RK_sub, RK_sub, RK_sub, RK_sub, H, Hm|]. intros t4 c Hc _. apply sat_ret.
        exists t1, tv, t4, k, v. rewrite app_nil_r. cbn [fst snd]. auto. }
      destruct k as [k|]; apply X; reflexivity. }
    intros t [[[[pre x] y] c] s] (ti & -> & p & tv & tc & k & v & -> & Hp & Hv & Hc & Hr) Hl. cbn [fst snd] in *.
    assert (RH := RK'_S _ _ H Hl ltac:(discriminate)).
    match goal with |- ParseLemmas.sat _ ?n _ _ _ => set (n1 := n) in * end.
    eapply sat_bind; [apply spanned_tpl_ok, RH|].
    intros tb tpl (es & -> & Hes) _.
    eapply sat_bind; [apply (end_control_ok (lit "endfor")); auto|].
    intros te [[a z] s'] [He _] _. cbn [fst snd] in *. apply sat_ret. rewrite app_nil_r.
    repeat rewrite blen_app in Hes, He.
    change (blen (lit "%{")) with 2 in *. change (blen (lit "for")) with 3 in *. change (blen (lit "in")) with 2 in *. change (blen [125]) with 1 in *.
    repeat rewrite blen_app. change (blen (lit "%{")) with 2. change (blen (lit "for")) with 3. change (blen (lit "in")) with 2. change (blen [125]) with 1.
    set (ot := o + 2 + blen (tilde_l s) + blen p + 3 + blen tv + 2 + blen tc + blen (tilde_r s) + 1).
    replace (o + (2 + (blen (tilde_l s) + (blen p + (3 + (blen tv + (2 + blen tc))) + (blen (tilde_r s) + 1))))) with ot in * by (unfold ot; lia).
    assert (G : gelem o ((lit "%{" ++ tilde_l s ++ (p ++ lit "for" ++ tv ++ lit "in" ++ tc) ++ tilde_r s ++ [125]) ++ tb ++ te)
       (XForD (Some (sp_of o ((lit "%{" ++ tilde_l s ++ (p ++ lit "for" ++ tv ++ lit "in" ++ tc) ++ tilde_r s ++ [125]) ++ tb ++ te)))
          (rw (o + 2 + blen (tilde_l s)) p) k v c (XTempl es (Some (sp_of ot tb))) s a z s')).
    { eapply GFor with (ot := ot); eauto; nf. }
    destruct k as [k|]; injection Hr as -> -> ->; exact G.
  Qed.
  Lemma element_ok lit_p n o : RK' n -> (forall n o, sat n o lit_p some_text) -> sat n o (element u R lit_p) (gelem o).
  Proof.
    intros H Hl. unfold element. eapply sat_bind.
    { apply sat_with_span with (P := fun t r => gelem o t (elem_set_span (snd r) (fst r))); try exact bad_app.
      apply sat_alt.
      { apply sat_pmap; try exact bad_app. eapply sat_conseq; [apply Hl|]. cbn. intros t s Ht. constructor. exact Ht. }
      apply sat_alt; [apply interpolation_ok, H|]. apply sat_alt; [apply if_directive_ok, H|apply for_directive_ok, H]. }
    intros t [e s] He _. apply sat_ret. rewrite app_nil_r. exact He.
  Qed.
  Lemma elements_ok lit_p n o : RK' n -> (forall n o, sat n o lit_p some_text) -> sat n o (elements u R lit_p) (gelems o).
  Proof.
    intros H Hl. unfold elements. eapply sat_conseq.
    { apply (sat_many0 bad bad_app gelem); [|apply gelem_ne]. intros m o' Hm. apply element_ok; [|exact Hl]. eapply RK'_le; eauto. }
    intros t l. apply gelems_rep.
  Qed.
  Lemma marker_start_quiet : quiet bad marker_start.
  Proof. intros n o. apply sat_alt; now apply sat_tag. Qed.
  Lemma ptemplate_ok n o : RK' n -> sat n o (ptemplate u R) (gelems o).
  Proof.
    intros H. apply elements_ok; [exact H|]. intros n' o'. apply build_string_ok; [exact bad_app|].
    apply template_frag_ok; [exact bad_app|]. apply marker_start_quiet.
  Qed.
  Lemma string_template_ok n o : RK' n ->
    sat n o (string_template u R) (fun t es => exists te, t = [34] ++ te ++ [34] /\ gelems (o + 1) te es).
  Proof.
    intros H. unfold string_template. eapply sat_bind; [apply sat_char with (P := fun t _ => t = [34]); reflexivity|].
    intros t1 ? -> _. eapply sat_bind.
    { apply elements_ok; [apply RK'_sub, H|]. intros. apply build_string_ok; [exact bad_app|]. apply quoted_frag_ok, bad_app. }
    intros te es Hes _. eapply sat_bind; [apply sat_char with (P := fun t _ => t = [34]); reflexivity|].
    intros t3 ? -> _. apply sat_ret. exists te. split; [nf|exact Hes].
  Qed.

  (** Heredocs. *)
  Lemma heredoc_end_quiet d : quiet bad (heredoc_end u d).
  Proof.
    intros n o. unfold heredoc_end. eapply sat_bind; [apply line_ending_ok, bad_app|]. intros t1 ? _ _.
    eapply sat_bind; [now apply sat_take_while0 with (P := fun _ _ => True)|]. intros t2 ? _ _.
    eapply sat_bind; [now apply sat_tag with (P := fun _ _ => True)|]. intros t3 ? _ _.
    eapply sat_conseq; [eapply sat_not; now apply sat_one_of with (P := fun _ _ => True)|]. auto.
  Qed.
  Lemma eol_ne le : eol le -> le <> [].
  Proof. intros [-> | ->]; discriminate. Qed.
  Lemma push_line_ending_ok o t es le : gelems o t es -> eol le ->
    gelems o (t ++ le) (push_line_ending le (sp_of (o + blen t) le) es).
  Proof.
    intros H Hle. rewrite gelems_rep in *. unfold push_line_ending.
    assert (D : rep gelem o (t ++ le) (es ++ [XLit (Some (sp_of (o + blen t) le)) le])).
    { apply rep_app; [exact H|]. rewrite <- (app_nil_r le) at 1. constructor; [|constructor]. constructor. now apply eol_ne. }
    destruct (rev es) as [|e r] eqn:E; [exact D|].
    assert (Ees : es = rev r ++ [e]). { rewrite <- (rev_involutive es), E. reflexivity. }
    destruct e as [[sp|] s| | |]; try exact D.
    rewrite Ees in H. apply rep_snoc_inv in H. destruct H as (t1 & t2 & -> & H1 & H2).
    inversion H2; subst. cbn [rev fst snd sp_of]. rewrite <- app_assoc. apply rep_app; [exact H1|].
    rewrite <- (app_nil_r (t2 ++ le)). constructor; [|constructor].
    replace (o + blen (t1 ++ t2) + blen le) with (o + blen t1 + blen (t2 ++ le)) by (rewrite !blen_app; lia).
    constructor. now apply ne_app_l.
  Qed.
  Lemma heredoc_template_ok d n o : RK' n -> sat n o (heredoc_template u R d) (gelems o).
  Proof.
    intros H. unfold heredoc_template. eapply sat_bind.
    { apply sat_opt with (P := fun t r => gelems o t (match r with Some es => es | None => [] end)); [|constructor].
      eapply sat_bind.
      { apply elements_ok; [exact H|]. intros n' o'. apply build_string_ok; [exact bad_app|].
        apply template_frag_ok; [exact bad_app|]. intros n2 o2. apply sat_alt; [now apply sat_tag|].
        apply sat_alt; [now apply sat_tag|apply heredoc_end_quiet]. }
      intros t es Hes _. eapply sat_bind.
      { apply sat_with_span with (P := fun t' r => eol t' /\ fst r = t' /\ snd r = sp_of (o + blen t) t'); try exact bad_app.
        eapply sat_conseq; [apply line_ending_ok, bad_app|]. cbn. intros t' x [A ->]. auto. }
      intros t' [le s] (Hle & E & E') _. cbn [fst snd] in E, E'. subst le s. apply sat_ret. rewrite app_nil_r. now apply push_line_ending_ok. }
    intros t r Hr _. apply sat_ret. rewrite app_nil_r. exact Hr.
  Qed.
  Lemma put_lits_ok es : forall o t ts, List.length ts = List.length es -> rep gelem o t es -> rep gelem o t (put_lits es ts).
  Proof.
    induction es as [|e es IH]; intros o t ts Hl H; inversion H as [|? t1 t2 ? ? H1 H2]; subst; [destruct ts; [constructor|discriminate]|].
    destruct ts as [|y ts]; [discriminate|]. cbn in Hl. injection Hl as Hl.
    assert (X := IH _ _ ts Hl H2). destruct e; cbn [put_lits]; try (constructor; assumption).
    destruct y; [|constructor; assumption]. constructor; [|assumption]. inversion H1; subst. now constructor.
  Qed.
  Lemma dedent_apply_length {E} k (t : list (tel E)) : forall skip, List.length (dedent_apply k skip t) = List.length t.
  Proof. induction t as [|[] t IH]; intros; cbn; auto. Qed.
  Lemma tpl_dedent_ok es o t : gelems o t es -> gelems o t (fst (tpl_dedent es)).
  Proof.
    intros H. unfold tpl_dedent. destruct (dedent (map to_tel es)) as [ts i] eqn:E. cbn [fst].
    apply gelems_rep, put_lits_ok; [|now apply gelems_rep].
    unfold dedent in E. destruct (dedent_measure _ _ _) as [[]|[k|]]; injection E as <- _; rewrite ?dedent_apply_length, map_length; reflexivity.
  Qed.

  Definition core (o : N) (t : str) (e : xexpr) : Prop := gexpr o t (x_upd (set_span (sp_of o t)) e).

  Lemma heredoc_ok n o : RK' n -> sat n o (heredoc u R) (core o).
  Proof.
    intros H. unfold heredoc. eapply sat_bind.
    { unfold heredoc_start. instantiate (1 := fun t r => exists le, t = lit "<<" ++ opt_char 45 (fst r) ++ snd r ++ le /\ is_ident u (snd r) = true /\ eol le).
      eapply sat_bind; [apply sat_tag with (P := fun t _ => t = lit "<<"); reflexivity|]. intros t1 ? -> _.
      eapply sat_bind; [apply opt_char_ok|]. intros t2 i -> _.
      eapply sat_bind; [apply sat_cut, str_ident_ok, bad_app|]. intros t3 d [Hd ->] _.
      eapply sat_bind; [apply sat_cut, line_ending_ok, bad_app|]. intros t4 ? [Hle _] _. apply sat_ret. cbn [fst snd].
      exists t4. split; [nf|auto]. }
    intros t [indented d] (le & -> & Hd & Hle) Hl. cbn [fst snd] in *.
    eapply sat_bind.
    { apply sat_with_span with (P := fun t r => gelems (o + blen (lit "<<" ++ opt_char 45 indented ++ d ++ le)) t (fst r) /\
        snd r = sp_of (o + blen (lit "<<" ++ opt_char 45 indented ++ d ++ le)) t); try exact bad_app.
      eapply sat_conseq; [apply heredoc_template_ok, RK'_sub, H|]. auto. }
    intros te [es s] [Hes E'] _. cbn [fst snd] in Hes, E'. subst s.
    eapply sat_bind.
    { apply (raw_string_ok bad bad_app) with (P := fun t => forallb is_space t = true).
      eapply sat_bind; [apply sat_take_while0 with (P := fun t _ => forallb is_space t = true); auto|]. intros t1 ? Ht _. apply sat_ret. nf. exact Ht. }
    intros tr r [Htr ->] _. eapply sat_bind.
    { apply sat_cut. instantiate (1 := fun t _ => t = d). eapply sat_bind; [apply sat_tag with (P := fun t _ => t = d); reflexivity|].
      intros t1 ? -> _. eapply sat_conseq; [eapply sat_not; now apply sat_one_of with (P := fun _ _ => True)|].
      cbn. intros ? ? ->. nf. }
    intros t5 ? -> _. apply sat_ret.
    assert (G : forall es' i, gelems (o + blen (lit "<<" ++ opt_char 45 indented ++ d ++ le)) te es' -> (indented = false -> i = None) ->
      core o ((lit "<<" ++ opt_char 45 indented ++ d ++ le) ++ te ++ tr ++ d ++ [])
       (XHeredoc no_meta d (XTempl es' (Some (sp_of (o + blen (lit "<<" ++ opt_char 45 indented ++ d ++ le)) te))) i
          (rw (o + blen (lit "<<" ++ opt_char 45 indented ++ d ++ le) + blen te) tr))).
    { intros es' i Hes' Hi. unfold core. cbn [x_upd]. repeat rewrite blen_app in *. change (blen (lit "<<")) with 2 in *.
      replace (o + (2 + (blen (opt_char 45 indented) + (blen d + blen le)))) with (o + 2 + blen (opt_char 45 indented) + blen d + blen le) in * by lia.
      eapply GHeredoc; eauto; nf. }
    destruct indented.
    - destruct (tpl_dedent es) as [es' i] eqn:E. apply G; [|discriminate]. replace es' with (fst (tpl_dedent es)) by now rewrite E.
      now apply tpl_dedent_ok.
    - apply G; auto.
  Qed.

  (** *** Terms *)
  Lemma pos_bind {B} n o (f : N -> parser B) Q : sat n o (f o) Q -> sat n o (x <- pos ;; f x) Q.
  Proof. intros H s Hs. exact (H s Hs). Qed.
  Lemma peek_bind {B} n o (f : N -> parser B) Q :
    (forall c, sat n o (f c) Q) -> sat n o (c <- peek any ;; f c) Q.
  Proof.
    intros H s Hs. unfold bind, peek, any. cbn [snd]. destruct s as [|c s]; [apply here'|]. exact (H c (c :: s) Hs).
  Qed.
  Lemma out_here {A} o s (a : A) (Q : str -> A -> Prop) : Q [] a -> out_ok bad o s (POk a (o, s)) Q.
  Proof. intros H. exists []. cbn. rewrite N.add_0_r. auto. Qed.
  Lemma out_sat {A} n o t s (p : parser A) (Q : str -> A -> Prop) :
    sat n (o + blen t) p (fun t' r => Q (t ++ t') r) -> (List.length s <= n)%nat ->
    out_ok bad o (t ++ s) (p (o + blen t, s)) Q.
  Proof. intros H Hs. apply out_ok_after; [exact bad_app|]. exact (H s Hs). Qed.
  Lemma out_here' {A} o t s (a : A) (Q : str -> A -> Prop) : Q t a -> out_ok bad o (t ++ s) (POk a (o + blen t, s)) Q.
  Proof. intros H. exists t. cbn. auto. Qed.
  Lemma out_bind_eq {A B} n o t s (p : parser A) (f : A -> parser B) P Q :
    sat n (o + blen t) p P -> (List.length s <= n)%nat ->
    (forall t' a s', s = t' ++ s' -> p (o + blen t, s) = POk a (o + blen (t ++ t'), s') -> P t' a ->
       out_ok bad o ((t ++ t') ++ s') (f a (o + blen (t ++ t'), s')) Q) ->
    out_ok bad o (t ++ s) (bind p f (o + blen t, s)) Q.
  Proof.
    intros Hp Hs Hf. unfold bind. specialize (Hp s Hs). destruct (p _) as [a s'|c s'| |] eqn:Ep.
    - destruct Hp as (t' & E & F & G). destruct s' as [o' s']. cbn [fst snd] in *. subst o'.
      rewrite <- N.add_assoc, <- blen_app in *. specialize (Hf t' a s' E eq_refl G). rewrite E, app_assoc. exact Hf.
    - destruct Hp as (t' & E & F). exists (t ++ t'). rewrite blen_app, F, E at 1. split; [now rewrite app_assoc|lia].
    - apply bad_app. exact Hp.
    - exact Hp.
  Qed.
  Lemma out_bind {A B} n o t s (p : parser A) (f : A -> parser B) P Q :
    sat n (o + blen t) p P -> (List.length s <= n)%nat ->
    (forall t' a s', s = t' ++ s' -> P t' a -> out_ok bad o ((t ++ t') ++ s') (f a (o + blen (t ++ t'), s')) Q) ->
    out_ok bad o (t ++ s) (bind p f (o + blen t, s)) Q.
  Proof. intros Hp Hs Hf. eapply out_bind_eq; eauto. Qed.
  Lemma out_bind0_eq {A B} n o s (p : parser A) (f : A -> parser B) P Q :
    sat n o p P -> (List.length s <= n)%nat ->
    (forall t' a s', s = t' ++ s' -> p (o, s) = POk a (o + blen t', s') -> P t' a ->
       out_ok bad o (t' ++ s') (f a (o + blen t', s')) Q) ->
    out_ok bad o s (bind p f (o, s)) Q.
  Proof.
    intros Hp Hs Hf. change (out_ok bad o ([] ++ s) (bind p f (o, s)) Q).
    replace (o, s) with (o + blen [], s) by (cbn [blen]; now rewrite N.add_0_r).
    eapply out_bind_eq; [cbn [blen]; rewrite N.add_0_r; exact Hp|exact Hs|].
    intros t' a s' E Ep. apply Hf; [exact E|]. cbn [blen] in Ep. now rewrite N.add_0_r in Ep.
  Qed.
  Lemma out_bind0 {A B} n o s (p : parser A) (f : A -> parser B) P Q :
    sat n o p P -> (List.length s <= n)%nat ->
    (forall t' a s', s = t' ++ s' -> P t' a -> out_ok bad o (t' ++ s') (f a (o + blen t', s')) Q) ->
    out_ok bad o s (bind p f (o, s)) Q.
  Proof.
    intros Hp Hs Hf. change (out_ok bad o ([] ++ s) (bind p f (o, s)) Q).
    replace (o, s) with (o + blen [], s) by (cbn [blen]; now rewrite N.add_0_r).
    eapply out_bind; [cbn [blen]; rewrite N.add_0_r; exact Hp|exact Hs|exact Hf].
  Qed.
  Lemma bind_ok {A B} (p : parser A) (f : A -> parser B) s r s' :
    bind p f s = POk r s' -> exists a s1, p s = POk a s1 /\ f a s1 = POk r s'.
  Proof. unfold bind. destruct (p s) as [a s1|c s1| |]; try discriminate. eauto. Qed.
  Lemma x_upd_upd f g e : x_upd f (x_upd g e) = x_upd (fun m => f (g m)) e.
  Proof. destruct e; reflexivity. Qed.
  Lemma x_meta_upd f e : x_meta (x_upd f e) = f (x_meta e).
  Proof. destruct e; reflexivity. Qed.

  Lemma stringlike_ok n o : RK' n -> sat n o (stringlike u R) (core o).
  Proof.
    intros H. unfold stringlike. apply sat_alt; apply sat_pmap; try exact bad_app; eapply sat_conseq.
    - apply pstring_ok, bad_app.
    - cbn. intros t s Ht. now constructor.
    - apply string_template_ok, H.
    - cbv beta. intros t es (te & -> & He). eapply GTpl; [reflexivity|exact He].
  Qed.
  Lemma number_expr_ok n o : sat n o (number_expr b parse_f64) (core o).
  Proof.
    unfold number_expr. eapply sat_bind.
    { apply sat_with_taken with (P := fun t r => gnum b parse_f64 t (fst r) /\ snd r = t); try exact bad_app.
      eapply sat_conseq; [apply number_ok, bad_app|]. auto. }
    intros t [x t'] [Hx E] _. cbn [fst snd] in *. subst t'. apply sat_ret. rewrite app_nil_r. now constructor.
  Qed.
  Lemma neg_number_ok n o : sat n o (neg_number b parse_f64) (core o).
  Proof.
    intros s Hs. unfold neg_number. unfold bind at 1.
    assert (X : sat n o (with_taken (char 45 ;; sp ;; number b parse_f64))
      (fun t r => snd r = t /\ exists z d, t = [45] ++ z ++ d /\ triv z /\ gnum b parse_f64 d (fst r))).
    { apply sat_with_taken; try exact bad_app. cbn [fst snd].
      eapply sat_bind; [apply sat_char with (P := fun t _ => t = [45]); reflexivity|]. intros t1 ? -> _.
      eapply sat_bind; [apply sp_ok|]. intros t2 ? H2 _. eapply sat_conseq; [apply number_ok, bad_app|].
      cbv beta. intros t3 x Hx. split; [reflexivity|]. exists t2, t3. auto. }
    specialize (X s Hs). destruct (with_taken _ _) as [[x t'] s'|c s'| |]; auto.
    destruct X as (t & E & F & E2 & z & d & E3 & Hz & Hd). cbn [fst snd] in *. subst t'.
    unfold bind, lift. destruct (num_neg b x) as [x'|] eqn:En.
    - exists t. split; [exact E|]. split; [exact F|]. eapply GNeg; eauto.
    - exists [], z, d, (snd s'), x. rewrite E, E3. split; [nf|auto].
  Qed.
  Lemma unary_op_ok nl n o : RK' n -> sat n o (unary_op R nl) (core o).
  Proof.
    intros H. unfold unary_op. eapply sat_bind.
    { apply sat_with_span with (P := fun t r => t = unop_str (fst r) /\ snd r = sp_of o t); try exact bad_app.
      unfold unary_operator. eapply sat_bind; [apply sat_any with (P := fun t c => t = [c]); reflexivity|].
      intros t c -> _. destruct (N.eqb_spec c 45) as [->|]; [now apply sat_ret|].
      destruct (N.eqb_spec c 33) as [->|]; [now apply sat_ret|apply sat_fail]. }
    intros t [op s] [Ht E] Hl. cbn [fst snd] in *. subst t s.
    assert (RH : RK (n - List.length (unop_str op))). { apply RK'_S; auto. destruct op; discriminate. }
    eapply sat_bind.
    { apply px_ok; [apply sp_ok|]. intros m o' Hm. apply RH. exact Hm. }
    intros te e He _. apply sat_ret. rewrite app_nil_r. unfold core. cbn [x_upd].
    replace (sp_of o (unop_str op)) with (o, o + 1) by (destruct op; reflexivity).
    eapply GUnary; [reflexivity|]. replace (o + 1) with (o + blen (unop_str op)) by (destruct op; reflexivity). exact He.
  Qed.
  Lemma dec_uint_ok n o : sat n o dec_uint (fun d x => x = digits_val d /\ forallb is_digit d = true /\
    (exists c r, d = c :: r /\ (c <> 48 \/ r = [])) /\ (Z.of_N (digits_val d) <= u64_max)%Z).
  Proof.
    unfold dec_uint. apply sat_verify_map; try exact bad_app.
    eapply sat_conseq with (P := fun t x => x = t /\ forallb is_digit t = true /\ exists c r, t = c :: r /\ (c <> 48 \/ r = [])).
    { apply sat_taken; try exact bad_app. apply sat_alt.
      - eapply sat_bind.
        { apply sat_one_of with (P := fun t _ => exists c, t = [c] /\ is_digit c = true /\ c <> 48).
          intros c E. exists c. apply andb_true_iff in E. destruct E as [E1 E2]. apply N.leb_le in E1, E2.
          split; [reflexivity|]. split; [|lia]. unfold is_digit. apply andb_true_iff. split; apply N.leb_le; lia. }
        intros t1 ? (c & -> & H1 & H2) _.
        eapply sat_bind; [apply sat_take_while0 with (P := fun t _ => forallb is_digit t = true); auto|].
        intros t2 ? H3 _. apply sat_ret. rewrite app_nil_r. split; [reflexivity|]. split; [cbn; rewrite H1, H3; reflexivity|].
        exists c, t2. auto.
      - eapply sat_bind; [apply sat_char with (P := fun t _ => t = [48]); reflexivity|]. intros t1 ? -> _. apply sat_ret.
        split; [reflexivity|]. split; [reflexivity|]. exists 48, []. auto. }
    cbv beta. intros t x (-> & H1 & H2) r. destruct (Z.of_N (digits_val t) <=? u64_max)%Z eqn:E; [|discriminate].
    intros [= <-]. apply Z.leb_le in E. auto.
  Qed.
  Lemma traversal_operator_ok n o : RK' n -> sat n o (traversal_operator u R) (gop o).
  Proof.
    intros H. unfold traversal_operator. eapply sat_bind; [apply sat_any with (P := fun t c => t = [c]); reflexivity|].
    intros t0 c -> Hl0. assert (RH : RK (n - List.length [c])) by (apply RK'_S; [exact H|exact Hl0|discriminate]).
    destruct (N.eqb_spec c 46) as [->|_].
    { eapply sat_conseq.
      { apply (prefix_decorated_ok bad bad_app op_upd _ _ ws _ (fun o t r =>
          (t = [42] /\ r = XAttrSplat no_meta) \/ (is_ident u t = true /\ r = XGetAttr (Did no_meta t)) \/
          (forallb is_digit t = true /\ (exists c r, t = c :: r /\ (c <> 48 \/ r = [])) /\ (Z.of_N (digits_val t) <= u64_max)%Z /\
             r = XLegacy no_meta (digits_val t)))); [apply ws_ok|].
        intros m o' Hm. apply peek_bind. intros c. destruct (c =? 42).
        { eapply sat_bind; [apply sat_char with (P := fun t _ => t = [42]); reflexivity|]. intros t1 ? -> _. apply sat_ret. auto. }
        destruct (is_digit c).
        { apply sat_pmap; try exact bad_app. eapply sat_conseq; [apply dec_uint_ok|]. cbv beta. intros t x (-> & A & B & C). right. right. auto. }
        destruct (is_id_start u c); [|apply sat_cut, sat_fail].
        apply sat_pmap; try exact bad_app. eapply sat_conseq; [apply ident_ok, bad_app|]. cbv beta. intros t x (A & ->). auto. }
      cbv beta. intros t r (a & x & y & -> & Ha & [[-> ->]|[[Hx ->]|(Hx1 & Hx2 & Hx3 & ->)]] & ->).
      - now apply GAttrSplat.
      - now apply GGetAttr.
      - now apply GLegacy. }
    destruct (N.eqb_spec c 91) as [->|_]; [|apply sat_fail].
    eapply sat_bind.
    { apply (decorated_ok bad bad_app op_upd _ _ ws _ ws (fun o t r =>
        (t = [42] /\ r = XFullSplat no_meta) \/ exists e, r = XIndex e /\ gexpr o t e)); try apply ws_ok.
      intros m o' Hm. apply peek_bind. intros c. destruct (c =? 42).
      { eapply sat_bind; [apply sat_char with (P := fun t _ => t = [42]); reflexivity|]. intros t1 ? -> _. apply sat_ret. auto. }
      apply sat_pmap; try exact bad_app. eapply sat_conseq; [apply RH; exact Hm|]. cbv beta. eauto. }
    intros t1 r (a & x & z & y & -> & Ha & Hz & Hy & ->) _.
    eapply sat_bind; [apply sat_cut, sat_char with (P := fun t _ => t = [93]); reflexivity|]. intros t2 ? -> _. apply sat_ret.
    destruct Hy as [[-> ->]|(e & -> & He)].
    - cbn [op_upd]. apply GFullSplat; auto. nf.
    - cbn [op_upd]. eapply GIndex; [|econstructor; eauto]. nf.
  Qed.
  Lemma gop_ne o t x : gop o t x -> t <> [].
  Proof. destruct 1; subst; discriminate. Qed.
  Lemma traversal_ok nl n o : RK' n -> sat n o (traversal u R nl) (fun t l => gtrops o t l /\ t <> []).
  Proof.
    intros H. unfold traversal. eapply sat_conseq.
    { apply (sat_many1 bad bad_app (fun o t r => exists p t1 op, t = p ++ t1 /\ triv p /\ gop (o + blen p) t1 op /\
        r = XTrop (set_prefix (rw o p) (M (o + blen p) t1)) op)).
      - intros m o' Hm. eapply sat_conseq.
        { apply (prefix_decorated_ok bad bad_app trop_upd _ _ (ws_or_sp nl) _ (fun o t r => exists op, r = XTrop no_meta op /\ gop o t op));
            [apply ws_or_sp_ok|]. intros m' o2 Hm'.
          eapply sat_bind; [eapply sat_not; now apply sat_tag with (P := fun _ _ => True)|]. intros t0 ? -> _.
          cbn [app List.length]. rewrite Nat.sub_0_r, N.add_0_r. apply sat_pmap; try exact bad_app.
          eapply sat_conseq; [apply traversal_operator_ok; eapply RK'_le; [exact H|lia]|]. cbv beta. eauto. }
        cbv beta. intros t r (a & x & y & -> & Ha & (op & -> & Hop) & ->). exists a, x, op. auto.
      - intros o' t a (p & t1 & op & -> & _ & Hop & _) E. apply app_eq_nil in E. destruct E as [_ E]. eapply gop_ne; eauto. }
    cbv beta. intros t l (HR & _ & Hne). split; [|exact Hne]. clear Hne.
    induction HR as [|o t1 t2 a l (p & t' & op & -> & Hp & Hop & ->) HR IH]; [constructor|].
    rewrite <- app_assoc. constructor; auto. rewrite blen_app in IH. rewrite N.add_assoc in IH. exact IH.
  Qed.

  Lemma binary_operator_ok n o : sat n o binary_operator (fun t op => t = binop_str op).
  Proof.
    unfold binary_operator. eapply sat_bind; [apply sat_any with (P := fun t c => t = [c]); reflexivity|].
    intros t0 c -> _.
    assert (C2 : forall c2 op n o, binop_str op = [c] ++ [c2] -> sat n o (char c2 ;; ret op) (fun t' r => [c] ++ t' = binop_str r)).
    { intros c2 op n' o' E. eapply sat_bind; [apply sat_char with (P := fun t _ => t = [c2]); reflexivity|].
      intros t1 ? -> _. apply sat_ret. rewrite app_nil_r. now rewrite E. }
    assert (C1 : forall op n o, binop_str op = [c] -> sat n o (ret op) (fun t' r => [c] ++ t' = binop_str r)).
    { intros. apply sat_ret. symmetry. assumption. }
    repeat (match goal with |- context [if ?c =? ?k then _ else _] => destruct (N.eqb_spec c k) as [->|_] end;
      [first [ apply C2; reflexivity | apply C1; reflexivity
             | apply sat_alt; [apply C2; reflexivity|apply C1; reflexivity]
             | eapply sat_bind; [eapply sat_not; now apply sat_one_of with (P := fun _ _ => True)|];
               intros t1 ? -> _; apply sat_ret; reflexivity ]|]).
    apply sat_fail.
  Qed.
  Lemma binop_ne op : binop_str op <> [].
  Proof. destruct op; discriminate. Qed.
  Lemma binary_ops_ok nl n o : RK' n -> sat n o (binary_ops R nl) (fun t l => gops o t l /\ t <> []).
  Proof.
    intros H. unfold binary_ops. eapply sat_conseq.
    { apply (sat_many1 bad bad_app (fun o t r => exists p z op t1 e, t = p ++ binop_str op ++ z ++ t1 /\ triv p /\ triv z /\
        gexpr (o + blen p + blen (binop_str op) + blen z) t1 e /\
        r = (around o p (o + blen p + blen (binop_str op)) z (M (o + blen p) (binop_str op)), op, e))).
      - intros m o' Hm. eapply sat_bind.
        { apply (decorated_ok bad bad_app oper_upd _ _ (ws_or_sp nl) _ (ws_or_sp nl) (fun _ t r => fst r = no_meta /\ t = binop_str (snd r))); try apply ws_or_sp_ok.
          intros m' o2 _. apply sat_pmap; try exact bad_app. eapply sat_conseq; [apply binary_operator_ok|]. cbn. auto. }
        intros t r (p & x & z & [m0 op] & -> & Hp & Hz & [E1 E2] & ->) Hl. cbn [fst snd] in *. subst x m0.
        assert (RH : RK (m - List.length (p ++ binop_str op ++ z))).
        { apply RK'_S; [eapply RK'_le; eauto|exact Hl|]. pose proof (binop_ne op). destruct p; [|discriminate]. cbn [app]. now apply ne_app_l. }
        eapply sat_bind; [apply RH; lia|]. intros t1 e He _. apply sat_ret.
        exists p, z, op, t1, e. split; [nf|]. split; [exact Hp|]. split; [exact Hz|]. split; [|reflexivity].
        rewrite !blen_app, !N.add_assoc in He. exact He.
      - intros o' t a (p & z & op & t1 & e & -> & _) E. apply app_eq_nil in E. destruct E as [_ E].
        apply app_eq_nil in E. destruct E as [E _]. now apply binop_ne in E. }
    cbv beta. intros t l (HR & _ & Hne). split; [|exact Hne]. clear Hne.
    induction HR as [|o t1 t2 a l (p & z & op & t' & e & -> & Hp & Hz & He & ->) HR IH]; [constructor|].
    rewrite <- !app_assoc. constructor; auto. rewrite !blen_app, !N.add_assoc in IH. exact IH.
  Qed.
  Lemma conditional_ok nl n o : RK' n ->
    sat n o (conditional R nl) (fun t r => exists ta tb, t = [63] ++ ta ++ [58] ++ tb /\ gdx (o + 1) ta (fst r) /\
      gpx (o + 1 + blen ta + 1) tb (snd r)).
  Proof.
    intros H. unfold conditional. eapply sat_bind; [apply sat_char with (P := fun t _ => t = [63]); reflexivity|].
    intros t0 ? -> Hl. assert (RH : RK (n - List.length [63])) by (apply RK'_S; [exact H|exact Hl|discriminate]).
    eapply sat_bind. { apply dx_ok'; try apply ws_or_sp_ok. intros m o' Hm. apply RH, Hm. }
    intros ta e1 Ha _. eapply sat_bind; [apply sat_cut, sat_char with (P := fun t _ => t = [58]); reflexivity|].
    intros t2 ? -> _. eapply sat_bind. { apply px_ok; [apply ws_or_sp_ok|]. intros m o' Hm. apply RH. lia. }
    intros tb e He _. apply sat_ret. rewrite app_nil_r. exists ta, tb. auto.
  Qed.

  (** [for] expressions. *)
  Lemma for_intro_ok n o : RK' n ->
    sat n o (for_intro u R) (fun t r => gintro o t (fst r) (fst (fst (snd r))) (snd (fst (snd r))) (snd (snd r)) /\ t <> []).
  Proof.
    intros H. unfold for_intro. eapply sat_conseq.
    { apply (prefix_decorated_ok bad bad_app intro_upd _ _ ws _ (fun o t r => exists tv tc k v e,
        t = lit "for" ++ tv ++ lit "in" ++ tc ++ [58] /\ gvars u (o + 3) tv k v /\ gdx (o + 3 + blen tv + 2) tc e /\
        r = (no_meta, (k, v, e)))); [apply ws_ok|]. intros m o' Hm.
      eapply sat_bind; [apply sat_tag with (P := fun t _ => t = lit "for"); reflexivity|]. intros t0 ? -> Hl.
      assert (RH : RK (m - List.length (lit "for"))) by (apply RK'_S; [eapply RK'_le; eauto|exact Hl|discriminate]).
      apply vars_then. intros tv k v Hv _.
      assert (X : forall x y, match y with Some y => (Some x, y) | None => (None, x) end = (k, v) ->
        sat (m - List.length (lit "for") - List.length tv) (o' + blen (lit "for") + blen tv)
          (cut (tag (lit "in")) ;; c <- decorated_expr (r_expr R false) ;; cut (char 58) ;;
           ret (no_meta, (match y with Some y => (Some x, y, c) | None => (None, x, c) end)))
          (fun t' r => exists tv0 tc k v e, lit "for" ++ tv ++ t' = lit "for" ++ tv0 ++ lit "in" ++ tc ++ [58] /\
             gvars u (o' + 3) tv0 k v /\ gdx (o' + 3 + blen tv0 + 2) tc e /\ r = (no_meta, (k, v, e)))).
      { intros x y E. eapply sat_bind; [apply sat_cut, sat_tag with (P := fun t _ => t = lit "in"); reflexivity|]. intros t2 ? -> _.
        eapply sat_bind; [apply dx_ok; eapply RK_le; [exact RH|lia]|]. intros t3 c Hc _.
        eapply sat_bind; [apply sat_cut, sat_char with (P := fun t _ => t = [58]); reflexivity|]. intros t4 ? -> _. apply sat_ret.
        exists tv, t3, k, v, c. split; [nf|]. split; [exact Hv|]. split; [exact Hc|].
        destruct y; injection E as <- <-; reflexivity. }
      destruct k as [k|]; [exact (X k (Some v) eq_refl)|exact (X v None eq_refl)]. }
    cbv beta. intros t r (a & x & y & -> & Ha & (tv & tc & k & v & e & -> & Hv & He & ->) & ->). cbn [intro_upd fst snd].
    split; [|destruct a; discriminate]. econstructor; eauto.
  Qed.
  Lemma for_cond_ok nl n o : RK' n -> sat n o (for_cond R nl) (fun t c => gcond o t (Some c)).
  Proof.
    intros H. unfold for_cond. eapply sat_conseq.
    { apply (prefix_decorated_ok bad bad_app cond_upd _ _ ws _ (fun o t r => exists te e, t = lit "if" ++ te /\ gdx (o + 2) te e /\
        r = XForCond no_meta e)); [apply ws_ok|]. intros m o' Hm.
      eapply sat_bind; [apply sat_tag with (P := fun t _ => t = lit "if"); reflexivity|]. intros t0 ? -> Hl.
      assert (RH : RK (m - List.length (lit "if"))) by (apply RK'_S; [eapply RK'_le; eauto|exact Hl|discriminate]).
      apply sat_pmap; try exact bad_app. eapply sat_conseq; [apply dx_ok, RH|]. cbv beta. eauto. }
    cbv beta. intros t r (a & x & y & -> & Ha & (te & e & -> & He & ->) & ->). cbn [cond_upd]. econstructor; eauto.
  Qed.
  Lemma for_expr_or_items_ok {A} (f i : parser A) n o P : sat n o f P -> sat n o i P -> sat n o (for_expr_or_items f i) P.
  Proof.
    intros Hf Hi s Hs. unfold for_expr_or_items.
    assert (X : sat n o (ws ;; tag (lit "for") ;; one_of (fun c => (c =? 32) || (c =? 9) || (c =? 35) || (c =? 47) || (c =? 10)))
                  (fun _ _ => True)).
    { eapply sat_bind; [apply ws_ok|]. intros t1 ? _ _. eapply sat_bind; [now apply sat_tag with (P := fun _ _ => True)|].
      intros t2 ? _ _. now apply sat_one_of. }
    specialize (X s Hs). destruct ((ws ;; _) (o, s)); auto; [now apply Hf|now apply Hi].
  Qed.
  Definition wrap (o : N) (l r : N) (t : str) (e : xexpr) : Prop := core o ([l] ++ t ++ [r]) e.
  Lemma for_list_ok nl n o : RK n -> sat n (o + 1) (for_list_expr u R nl) (wrap o 91 93).
  Proof.
    intros H. unfold for_list_expr. eapply sat_bind; [apply for_intro_ok, RK_RK', H|].
    intros t1 [im [[kv vv] coll]] [H1 _] Hl1. cbn [fst snd] in H1.
    eapply sat_bind; [apply dx_ok, RK_sub, H|]. intros t2 e He _.
    eapply sat_bind.
    { apply sat_opt with (P := fun t r => gcond (o + 1 + blen t1 + blen t2) t r); [|constructor].
      apply for_cond_ok, RK'_sub, RK'_sub, RK_RK', H. }
    intros t3 c Hc _. apply sat_ret. unfold wrap, core. cbn [x_upd]. eapply GForList; eauto. nf.
  Qed.
  Lemma sep_args n o (p : parser xexpr) :
    (forall m o, (m <= n)%nat -> sat m o p (gdx o)) ->
    sat n o (separated1 p (char 44)) (fun t l => gargs o t l /\ l <> []).
  Proof.
    intros H. eapply sat_conseq.
    { apply (sat_separated1 bad bad_app gdx (fun o t e => exists t', t = [44] ++ t' /\ gdx (o + 1) t' e)).
      - intros o'. apply H. lia.
      - intros m o' Hm. eapply sat_bind; [apply sat_char with (P := fun t _ => t = [44]); reflexivity|]. intros t0 ? -> _.
        eapply sat_conseq; [apply H; lia|]. cbv beta. intros t e He. exists t. auto.
      - intros o' t e (t' & -> & _). discriminate. }
    cbv beta. intros t l (e & l' & t1 & t2 & -> & -> & He & HR). split; [|discriminate]. constructor; [exact He|].
    clear He. induction HR as [|o' t3 t4 e' l' (t' & -> & He') HR IH]; [constructor|].
    rewrite <- app_assoc. constructor; [exact He'|]. change (o' + 1 + blen t') with (o' + blen [44] + blen t').
    rewrite <- N.add_assoc, <- blen_app. exact IH.
  Qed.
  Lemma array_items_ok nl n o : RK n -> sat n (o + 1) (array_items R nl) (wrap o 91 93).
  Proof.
    intros H. unfold array_items. eapply sat_bind.
    { unfold separated0. instantiate (1 := fun t l => gargs (o + 1) t l). apply sat_pmap; try exact bad_app.
      apply sat_opt; [|constructor]. eapply sat_conseq.
      { apply sep_args. intros m o' Hm. apply dx_ok'; try apply ws_ok. intros m' o2 Hm'.
        eapply sat_bind; [eapply sat_not; now apply sat_char with (P := fun _ _ => True)|]. intros t0 ? -> _.
        cbn [app List.length]. rewrite Nat.sub_0_r, N.add_0_r. apply H. lia. }
      cbv beta. tauto. }
    intros t1 l Hl _. eapply sat_bind; [apply opt_char_ok|]. intros t2 c -> _.
    eapply sat_bind; [apply (raw_string_ok bad bad_app), ws_ok|]. intros t3 r [Ht ->] _. apply sat_ret.
    unfold wrap, core. cbn [x_upd]. eapply GArr; eauto. nf.
  Qed.
  Lemma array_ok n o : RK' n -> sat n o (array u R) (core o).
  Proof.
    intros H. unfold array. eapply sat_bind; [apply sat_char with (P := fun t _ => t = [91]); reflexivity|].
    intros t0 ? -> Hl. assert (RH : RK (n - List.length [91])) by (apply RK'_S; [exact H|exact Hl|discriminate]).
    change (o + blen [91]) with (o + 1).
    eapply sat_bind. { apply for_expr_or_items_ok with (P := wrap o 91 93); [apply for_list_ok, RH|apply array_items_ok, RH]. }
    intros t1 e He _. eapply sat_bind; [apply sat_cut, sat_char with (P := fun t _ => t = [93]); reflexivity|].
    intros t2 ? -> _. apply sat_ret. rewrite app_nil_r. exact He.
  Qed.
  (** [ws] takes everything it can. *)
  Lemma multispace_idem s a s' : multispace0 s = POk a s' -> multispace0 s' = POk [] s'.
  Proof.
    unfold multispace0, take_while0. destruct s as [o t]. cbn [snd fst]. destruct (span is_multispace t) as [x r] eqn:E.
    intros [= <- <-]. cbn [snd fst].
    assert (Hr : span is_multispace r = ([], r)).
    { clear - E. revert x r E. induction t as [|c t IH]; intros x r E; cbn in E; [injection E as <- <-; reflexivity|].
      destruct (is_multispace c) eqn:Ec.
      - destruct (span is_multispace t) as [y q]. injection E as <- <-. now apply (IH y).
      - injection E as <- <-. cbn. now rewrite Ec. }
    rewrite Hr. cbn [blen]. rewrite N.add_0_r. reflexivity.
  Qed.
  Lemma many_loop_end {A} (p : parser A) (T : st -> Prop) k : forall s l s', many_loop k p s = POk l s' ->
    T s -> (forall s a s', p s = POk a s' -> T s') -> T s' /\ exists s2, p s' = PErr false s2.
  Proof.
    induction k as [|k IH]; intros s l s' E Hs HT; cbn [many_loop] in E; [discriminate|].
    destruct (p s) as [a s1|[] s1| |] eqn:Ep; try discriminate.
    - destruct (Nat.eqb _ _); [discriminate|]. destruct (many_loop k p s1) as [l1 s2|c s2| |] eqn:E1; try discriminate.
      injection E as _ <-. apply (IH s1 l1 s2 E1); [eapply HT, Ep|exact HT].
    - injection E as _ <-. eauto.
  Qed.
  Lemma ws_idem s s' : ws s = POk tt s' -> ws s' = POk tt s'.
  Proof.
    unfold ws at 1. intros E. apply bind_ok in E. destruct E as (a & s1 & E1 & E).
    apply bind_ok in E. destruct E as (l & s2 & E2 & E). injection E as ->.
    apply many_loop_end with (T := fun s => multispace0 s = POk [] s) in E2.
    - destruct E2 as [E2 (s3 & E3)]. unfold ws, bind at 1. rewrite E2. unfold bind at 1, many0. cbn [many_loop]. now rewrite E3.
    - eapply multispace_idem, E1.
    - intros s0 a0 s3 E. apply bind_ok in E. destruct E as (x & s4 & _ & E). eapply multispace_idem, E.
  Qed.
  Lemma for_cond_prefix nl s c s' : ws s = POk tt s -> for_cond R nl s = POk c s' -> cond_prefix c = Some REmpty.
  Proof.
    intros W E. unfold for_cond, prefix_decorated in E. apply bind_ok in E. destruct E as (sp0 & s1 & E1 & E).
    unfold pspan, pmap, bind, with_span in E1. rewrite W in E1. injection E1 as <- <-.
    apply bind_ok in E. destruct E as ([m e] & s2 & _ & E). injection E as <- _. cbn.
    unfold raw_of_span. cbn [fst snd]. now rewrite N.ltb_irrefl.
  Qed.
  Lemma opt_ok {A} (p : parser A) s a s' : opt p s = POk (Some a) s' -> p s = POk a s'.
  Proof. unfold opt. destruct (p s) as [a1 s1|[] s1| |]; intros [=]; now subst. Qed.
  Lemma for_object_ok n o : RK n -> sat n (o + 1) (for_object_expr u R) (fun t r => wrap o 123 125 t (fst r)).
  Proof.
    intros H. unfold for_object_expr. eapply sat_bind; [apply for_intro_ok, RK_RK', H|].
    intros t1 [im [[kv vv] coll]] [H1 _] Hl1. cbn [fst snd] in H1.
    eapply sat_bind; [apply dx_ok, RK_sub, H|]. intros t2 k Hk _.
    eapply sat_bind; [apply sat_cut, sat_tag with (P := fun t _ => t = lit "=>"); reflexivity|]. intros t3 ? -> _.
    eapply sat_bind; [apply dx_ok; do 3 apply RK_sub; exact H|]. intros t4 e He _.
    intros s Hs.
    match goal with |- context [bind ?p ?f (?oo, s)] => set (Q := p); set (F := f); set (O := oo) end.
    assert (SQ : sat (n - List.length t1 - List.length t2 - List.length (lit "=>") - List.length t4) O Q (fun t r => match r with
        | Some r => exists tt, t = lit "..." ++ tt /\ triv tt /\ r = rw (O + 3) tt
        | None => t = [] end)).
    { apply sat_opt; [|reflexivity].
      eapply sat_bind; [apply sat_tag with (P := fun t _ => t = lit "..."); reflexivity|]. intros t5 ? -> _.
      eapply sat_conseq; [apply (raw_string_ok bad bad_app), ws_ok|]. cbv beta. intros t r [A ->]. exists t. auto. }
    assert (W : forall r s', Q (O, s) = POk (Some r) s' -> ws s' = POk tt s').
    { intros r s' E. apply opt_ok in E. apply bind_ok in E. destruct E as (a5 & s5 & _ & E). unfold raw_string, pmap in E.
      apply bind_ok in E. destruct E as (a6 & s6 & E & E'). injection E' as _ <-. unfold pspan, pmap in E.
      apply bind_ok in E. destruct E as (a7 & s7 & E & E'). injection E' as _ <-. unfold with_span in E.
      destruct (ws s5) as [[] s8|c8 s8| |] eqn:Ew; try discriminate. injection E as _ <-. eapply ws_idem, Ew. }
    eapply (out_bind0_eq _ O s Q F); [exact SQ|exact Hs|].
    intros t5 g s5 Es Eq Hg.
    eapply out_bind_eq.
    { apply sat_opt with (P := fun t r => gcond (O + blen t5) t r); [|constructor].
      apply for_cond_ok. eapply RK'_le; [apply RK_RK', H|]. apply le_n. }
    { assert (List.length s5 <= List.length s)%nat by (rewrite Es, app_length; lia). lia. }
    intros t6 c s6 _ Eq2 Hc. apply out_here'. unfold wrap, core.
    change (blen (lit "=>")) with 2 in *.
    destruct g as [r|].
    - specialize (W _ _ Eq). destruct Hg as (tt & -> & Htt & ->). destruct c as [c|].
      + apply opt_ok in Eq2. assert (Pc := for_cond_prefix _ _ _ _ W Eq2).
        cbn [fst x_upd]. eapply GForGroupCond with (ti := t1) (tk := t2) (tv := t4) (tt := tt) (tc := t6); [nf|exact H1|exact Hk|exact He|exact Htt| |exact Pc].
        rewrite blen_app, N.add_assoc in Hc. exact Hc.
      + inversion Hc; subst. cbn [fst x_upd]. eapply GForGroup with (ti := t1) (tk := t2) (tv := t4) (tt := tt); [nf|exact H1|exact Hk|exact He|exact Htt].
    - subst t5. cbn [fst x_upd]. eapply GForObject with (ti := t1) (tk := t2) (tv := t4) (tc := t6); [nf|exact H1|exact Hk|exact He|].
      cbn [blen] in Hc. rewrite N.add_0_r in Hc. exact Hc.
  Qed.

  (** Objects. *)
  Lemma clen_pos c : 0 < clen c.
  Proof. unfold clen, Utf8.encode_char. repeat destruct (_ <? _); reflexivity. Qed.
  Lemma blen_pos t : t <> [] -> 0 < blen t.
  Proof. destruct t as [|c t]; [congruence|]. intros _. cbn [blen]. pose proof (clen_pos c). lia. Qed.
  Lemma rw_nil o : rw o [] = REmpty.
  Proof. unfold rw, raw_of_span, sp_of. cbn [blen fst snd]. rewrite N.add_0_r, N.ltb_irrefl. reflexivity. Qed.
  Lemma rw_ne o t : t <> [] -> rw o t = RSpanned o (o + blen t).
  Proof.
    intros H. apply blen_pos in H. unfold rw, raw_of_span, sp_of. cbn [fst snd].
    destruct (o <? o + blen t) eqn:E; [reflexivity|]. apply N.ltb_ge in E. lia.
  Qed.
  Lemma extend_suffix_ok oa a oz z zc e :
    extend_suffix (sp_of (oz + blen z) zc) (x_upd (around oa a oz z) e) = x_upd (around oa a oz (z ++ zc)) e.
  Proof.
    unfold extend_suffix. rewrite x_meta_upd. unfold around at 1. cbn [m_decor set_suffix d_suffix].
    rewrite x_upd_upd. destruct z as [|c z].
    - rewrite rw_nil. cbn [app blen]. rewrite N.add_0_r. reflexivity.
    - rewrite rw_ne by discriminate. unfold sp_of at 1. cbn [snd].
      replace (oz, oz + blen (c :: z) + blen zc) with (sp_of oz ((c :: z) ++ zc)) by (unfold sp_of; rewrite blen_app; f_equal; lia).
      reflexivity.
  Qed.
  (** With the next character known. *)
  Definition sat_c {A} (n : nat) (o : N) (c : N) (p : parser A) (Q : str -> A -> Prop) : Prop :=
    forall s, (List.length (c :: s) <= n)%nat -> out_ok bad o (c :: s) (p (o, c :: s)) Q.
  Lemma peek_bind_c {B} n o (f : N -> parser B) Q :
    (forall c, sat_c n o c (f c) Q) -> sat n o (c <- peek any ;; f c) Q.
  Proof.
    intros H s Hs. unfold bind, peek, any. cbn [snd]. destruct s as [|c s]; [apply here'|]. exact (H c s Hs).
  Qed.
  Lemma sat_sat_c {A} n o c (p : parser A) Q : sat n o p Q -> sat_c n o c p Q.
  Proof. intros H s Hs. exact (H (c :: s) Hs). Qed.
  Lemma sat_c_any {B} n o c (q : parser B) Q :
    sat (n - 1) (o + clen c) q (fun t r => Q (c :: t) r) -> sat_c n o c (any ;; q) Q.
  Proof.
    intros H s Hs. unfold bind, any. cbn [snd fst]. change (c :: s) with ([c] ++ s).
    replace (o + clen c) with (o + blen [c]) in * by (cbn [blen]; lia).
    apply out_sat with (n := (n - 1)%nat); [exact H|]. cbn in Hs. lia.
  Qed.
  Definition item_end_post oa a z (o : N) e (t : str) (r : xexpr * oterm * bool) : Prop := exists zc te,
      t = zc ++ te /\ gitem_end (z ++ zc) (snd (fst r)) te /\ fst (fst r) = x_upd (around oa a o (z ++ zc)) e.
  Lemma item_end_ok oa a z e n o : triv z ->
    sat n (o + blen z) (item_end (x_upd (around oa a o z) e)) (item_end_post oa a z o e).
  Proof.
    intros Hz. unfold item_end. apply peek_bind_c. intros c.
    assert (X : forall tm t l, ((tm = TNone /\ t = []) \/ (tm = TComma /\ t = [44]) \/ (tm = TNewline /\ eol t)) ->
      item_end_post oa a z o e t (x_upd (around oa a o z) e, tm, l)).
    { intros tm t l Ht. exists [], t. rewrite app_nil_r. cbn [fst snd]. repeat split; auto. }
    destruct (c =? 125). { apply sat_sat_c, sat_ret, X. auto. }
    destruct (c =? 13).
    { apply sat_sat_c. eapply sat_bind; [apply sat_tag with (P := fun t _ => t = [13; 10]); reflexivity|]. intros t1 ? -> _.
      apply sat_ret, X. right. right. split; [reflexivity|]. right. reflexivity. }
    destruct (c =? 10).
    { apply sat_sat_c. eapply sat_bind; [apply sat_char with (P := fun t _ => t = [10]); reflexivity|]. intros t1 ? -> _.
      apply sat_ret, X. right. right. split; [reflexivity|]. left. reflexivity. }
    destruct (N.eqb_spec c 44) as [->|_]. { apply sat_c_any, sat_ret, X. auto. }
    apply sat_sat_c. destruct (_ || _); [|apply sat_cut, sat_fail].
    eapply sat_bind.
    { apply sat_pspan with (P := fun t s => triv t /\ s = sp_of (o + blen z) t); try exact bad_app.
      eapply sat_conseq; [apply line_comment_ok, bad_app|]. cbv beta. tauto. }
    intros zc sp [Hzc ->] _. eapply sat_bind; [apply line_ending_ok, bad_app|]. intros te ? [Hte _] _. apply sat_ret.
    exists zc, te. rewrite app_nil_r. cbn [fst snd]. split; [reflexivity|].
    split; [split; [now apply triv_app|auto]|]. apply extend_suffix_ok.
  Qed.
  Lemma assign_ok n o : sat n o object_value_assignment (fun t a => t = assign_str a).
  Proof.
    unfold object_value_assignment. eapply sat_bind; [apply sat_any with (P := fun t c => t = [c]); reflexivity|].
    intros t0 c -> _. destruct (N.eqb_spec c 61) as [->|_]; [now apply sat_ret|].
    destruct (N.eqb_spec c 58) as [->|_]; [now apply sat_ret|apply sat_cut, sat_fail].
  Qed.
  Lemma key_upd_upd f g k : key_upd f (key_upd g k) = key_upd (fun m => f (g m)) k.
  Proof. destruct k; [reflexivity|]. cbn. f_equal. apply x_upd_upd. Qed.
  Lemma key_upd_ext f g k : (forall m, f m = g m) -> key_upd f k = key_upd g k.
  Proof.
    intros H. destruct k as [i|e]; cbn.
    - unfold did_upd. now rewrite H.
    - f_equal. destruct e; cbn; now rewrite H.
  Qed.
  Lemma object_item_ok n o p : RK n -> triv p ->
    sat n (o + blen p) (object_item R (rw o p)) (fun t r => gitem o (p ++ t) (fst r) /\ t <> []).
  Proof.
    intros H Hp. unfold object_item. eapply sat_bind.
    { apply (suffix_decorated_ok bad bad_app key_upd _ _ _ sp (fun o t r => exists k, r = key_of_expr k /\ gexpr o t k)); [apply sp_ok|].
      apply sat_pmap; try exact bad_app. eapply sat_conseq; [apply H; lia|]. cbv beta. eauto. }
    intros t1 key (tk & zk & y & -> & Hzk & (k & -> & Hk) & ->) _.
    eapply sat_bind; [apply assign_ok|]. intros t2 asg -> _.
    eapply sat_bind.
    { apply (decorated_ok bad bad_app x_upd _ _ sp _ sp gexpr); try apply sp_ok. intros m o' Hm. apply H. lia. }
    intros t3 v (pv & tv & zv & y & -> & Hpv & Hzv & Hv & ->) _.
    match goal with |- context [around ?oa ?a ?oz ?z] => set (OA := oa) in *; set (OZ := oz) in * end.
    match goal with |- ParseLemmas.sat _ ?nn ?oo _ _ => replace oo with (OZ + blen zv)
      by (unfold OZ, OA; rewrite !blen_app; lia) end.
    eapply sat_bind; [apply (item_end_ok OA pv zv); exact Hzv|].
    intros t4 [[v' tm] l] (zc & te & -> & Hend & E) _. cbn [fst snd] in *. subst v'. apply sat_ret. cbn [fst].
    split; [|pose proof (gexpr_ne _ _ _ Hk); destruct tk; [congruence|discriminate]].
    assert (EA : OA = o + blen p + blen tk + blen zk + 1) by (unfold OA; destruct asg; cbn [assign_str]; rewrite !blen_app; cbn [blen]; change (clen 58) with 1; change (clen 61) with 1; lia).
    assert (EZ : OZ = OA + blen pv + blen tv) by reflexivity.
    clear EZ. clearbody OZ. rewrite EA in *. clearbody OA. rewrite key_upd_upd.
    rewrite (key_upd_ext _ (around o p (o + blen p + blen tk) zk)) by reflexivity.
    eapply GItem with (p := p) (tk := tk) (zk := zk) (asg := asg) (pv := pv) (tv := tv) (zv := zv ++ zc) (te := te); auto. nf.
  Qed.
  Definition obj_post (o : N) (acc : list xitem) (t : str) (e : xexpr) : Prop := exists ti its tt,
    t = ti ++ tt /\ gitems o ti its /\ triv tt /\
    e = XObj no_meta (fold_left (fun acc i => obj_add i acc) its acc) (rw (o + blen ti) tt).
  Lemma object_loop_ok k : forall n o acc, RK n -> (n < k)%nat -> sat n o (object_loop obj_add R k acc) (obj_post o acc).
  Proof.
    induction k as [|k IH]; intros n o acc H Hk; [lia|]. cbn [object_loop].
    eapply sat_bind; [apply (raw_string_ok bad bad_app), ws_ok|]. intros p r [Hp ->] Hlp.
    apply peek_bind. intros c. destruct (c =? 125).
    { apply sat_ret. rewrite app_nil_r. exists [], [], p. cbn [blen app fold_left]. rewrite N.add_0_r.
      repeat split; [constructor|exact Hp]. }
    eapply sat_bind; [apply object_item_ok; [apply RK_sub, H|exact Hp]|].
    intros t [i last] [Hi Hne] Hl. cbn [fst] in Hi.
    assert (Ei : forall ti' its', gitems (o + blen p + blen t) ti' its' -> gitems o ((p ++ t) ++ ti') (i :: its')).
    { intros ti' its' H'. constructor; [exact Hi|]. rewrite blen_app, N.add_assoc. exact H'. }
    destruct last.
    { apply sat_ret. exists ((p ++ t) ++ []), [i], []. split; [nf|]. split; [apply Ei; constructor|].
      split; [constructor|]. rewrite rw_nil. reflexivity. }
    eapply sat_conseq. { apply IH; [do 2 apply RK_sub; exact H|]. destruct t; [congruence|]. cbn in Hl |- *. lia. }
    cbv beta. intros t' e (ti & its & tt & -> & Hits & Htt & ->).
    exists ((p ++ t) ++ ti), (i :: its), tt. split; [nf|]. split; [now apply Ei|]. split; [exact Htt|].
    cbn [fold_left]. rewrite !blen_app, !N.add_assoc. reflexivity.
  Qed.
  Lemma object_ok nl n o : RK' n -> sat n o (object u obj_add R nl) (fun t r => core o t (fst r)).
  Proof.
    intros H. unfold object. eapply sat_bind; [apply sat_char with (P := fun t _ => t = [123]); reflexivity|].
    intros t0 ? -> Hl. assert (RH : RK (n - List.length [123])) by (apply RK'_S; [exact H|exact Hl|discriminate]).
    change (o + blen [123]) with (o + 1).
    eapply sat_bind.
    { apply for_expr_or_items_ok with (P := fun t r => wrap o 123 125 t (fst r)); [apply for_object_ok, RH|].
      apply sat_pmap; try exact bad_app. cbn [fst]. unfold object_items. intros s Hs. cbn [snd].
      assert (X := object_loop_ok (S (List.length s)) (List.length s) (o + 1) [] (RK_le _ _ RH Hs) ltac:(lia) s (le_n _)).
      destruct (object_loop _ _ _ _ _) as [e s'|c s'| |]; auto.
      destruct X as (t & E & F & ti & its & tt & -> & Hits & Htt & ->). exists (ti ++ tt). split; [exact E|]. split; [exact F|].
      unfold wrap, core. cbn [x_upd]. eapply GObj with (ti := ti) (tt := tt); auto. nf. }
    intros t1 e He _. eapply sat_bind; [apply sat_cut, sat_char with (P := fun t _ => t = [125]); reflexivity|].
    intros t2 ? -> _. apply sat_ret. rewrite app_nil_r. exact He.
  Qed.
  Lemma parenthesis_ok n o : RK' n -> sat n o (parenthesis R) (core o).
  Proof.
    intros H. unfold parenthesis. eapply sat_bind; [apply sat_cut, sat_char with (P := fun t _ => t = [40]); reflexivity|].
    intros t0 ? -> Hl. assert (RH : RK (n - List.length [40])) by (apply RK'_S; [exact H|exact Hl|discriminate]).
    eapply sat_bind; [apply dx_ok, RH|]. intros t1 e He _.
    eapply sat_bind; [apply sat_cut, sat_char with (P := fun t _ => t = [41]); reflexivity|]. intros t2 ? -> _. apply sat_ret.
    rewrite app_nil_r. unfold core. cbn [x_upd]. eapply GParen with (ti := t1); [reflexivity|exact He].
  Qed.

  (** Function calls. *)
  Lemma components_ok nl n o : sat n o (func_namespace_components u nl) (fun t l => rep (gns u) o t l /\ l <> []).
  Proof.
    unfold func_namespace_components. eapply sat_conseq.
    { apply (sat_many1 bad bad_app (gns u)).
      - intros m o' Hm. eapply sat_bind; [apply sat_tag with (P := fun t _ => t = lit "::"); reflexivity|]. intros t0 ? -> _.
        eapply sat_conseq; [apply did_ok; apply ws_or_sp_ok|]. cbv beta. intros t i Hi. exists t. auto.
      - intros o' t i (t' & -> & _). discriminate. }
    cbv beta. tauto.
  Qed.
  Definition args_post (o : N) (t : str) (r : list xexpr * bool * bool * raw) : Prop :=
    let '(l, ex, co, tr) := r in exists tl tc tt,
      t = [40] ++ tl ++ tc ++ tt ++ [41] /\ gargs (o + 1) tl l /\
      tc = (if ex then lit "..." else if co then [44] else []) /\ (l = [] -> ex = false /\ co = false) /\
      triv tt /\ tr = rw (o + 1 + blen tl + blen tc) tt.
  Lemma trailer_ok n o : sat n o trailer (fun t r => t = if r then lit "..." else [44]).
  Proof.
    unfold trailer. eapply sat_bind; [apply sat_any with (P := fun t c => t = [c]); reflexivity|]. intros t0 c -> _.
    destruct (N.eqb_spec c 44) as [->|_]; [now apply sat_ret|]. destruct (N.eqb_spec c 46) as [->|_]; [|apply sat_fail].
    eapply sat_bind; [apply sat_cut, sat_tag with (P := fun t _ => t = lit ".."); reflexivity|]. intros t1 ? -> _. now apply sat_ret.
  Qed.
  Lemma func_args_ok n o : RK' n -> sat n o (func_args R) (args_post o).
  Proof.
    intros H. unfold func_args. eapply sat_bind; [apply sat_cut, sat_char with (P := fun t _ => t = [40]); reflexivity|].
    intros t0 ? -> Hl. assert (RH : RK (n - List.length [40])) by (apply RK'_S; [exact H|exact Hl|discriminate]).
    change (o + blen [40]) with (o + 1).
    eapply sat_bind.
    { apply sat_opt with (P := fun t r => match r with
        | None => t = []
        | Some (l, tr) => exists tl, gargs (o + 1) tl l /\ l <> [] /\
            t = tl ++ match tr with Some true => lit "..." | Some false => [44] | None => [] end end); [|reflexivity].
      eapply sat_bind.
      { apply sep_args. intros m o' Hm. apply dx_ok'; try apply ws_ok. intros m' o2 Hm'.
        eapply sat_bind.
        { eapply sat_peek with (Q := fun t _ => t = []); [now apply sat_one_of with (P := fun _ _ => True)|auto]. }
        intros t1 ? -> _. cbn [app List.length]. rewrite Nat.sub_0_r, N.add_0_r. apply RH. lia. }
      intros tl l [Hl1 Hl2] _. eapply sat_bind.
      { apply sat_opt with (P := fun t r => t = match r with Some true => lit "..." | Some false => [44] | None => [] end); [|reflexivity].
        eapply sat_conseq; [apply trailer_ok|]. cbv beta. intros t [] ->; reflexivity. }
      intros t2 r -> _. apply sat_ret. rewrite app_nil_r. exists tl. auto. }
    intros t1 r Hr _. eapply sat_bind; [apply (raw_string_ok bad bad_app), ws_ok|]. intros tt tr [Htt ->] _.
    eapply sat_bind; [apply sat_cut, sat_char with (P := fun t _ => t = [41]); reflexivity|]. intros t3 ? -> _. apply sat_ret.
    destruct r as [[l [[]|]]|]; [destruct Hr as (tl & Hl1 & Hl2 & ->)..|subst t1].
    - exists tl, (lit "..."), tt. split; [nf|]. rewrite blen_app, N.add_assoc. tauto.
    - exists tl, [44], tt. split; [nf|]. rewrite blen_app, N.add_assoc. tauto.
    - exists tl, [], tt. split; [nf|]. rewrite blen_app, N.add_assoc. tauto.
    - exists [], [], tt. split; [nf|]. split; [constructor|]. cbn [blen]. rewrite !N.add_0_r. tauto.
  Qed.
  Lemma look2_bind {B} n o (f : option str -> parser B) Q :
    (forall x, sat n o (f x) Q) -> sat n o (x <- look2 ;; f x) Q.
  Proof. intros H s Hs. unfold bind, look2. apply (H _ s Hs). Qed.
  Lemma identlike_ok nl n o : RK' n -> sat n o (identlike u R nl) (fun t r => core o t (fst r)).
  Proof.
    intros H. unfold identlike. eapply sat_bind.
    { apply sat_with_span with (P := fun t r => is_ident u t = true /\ fst r = t /\ snd r = sp_of o t); try exact bad_app.
      eapply sat_conseq; [apply str_ident_ok, bad_app|]. cbn. tauto. }
    intros x [x' xs] (Hx & E1 & E2) Hl. cbn [fst snd] in *. subst x' xs.
    assert (RH : RK (n - List.length x)) by (apply RK'_S; [exact H|exact Hl|eapply is_ident_ne; exact Hx]).
    eapply sat_ctx.
    { apply sat_pspan with (P := fun t s => triv t /\ s = sp_of (o + blen x) t); try exact bad_app.
      eapply sat_conseq; [apply ws_or_sp_ok|]. auto. }
    intros z sp s [Hz ->] Hs. unfold bind at 1, look2 at 1.
    match goal with |- context [opt_seqb ?X (lit "::") || _] => generalize X; intros bb end.
    destruct (opt_seqb bb (lit "::") || head_is (N.eqb 40) bb).
    2:{ apply out_here. rewrite app_nil_r. now constructor. }
    apply out_sat with (n := (n - List.length x - List.length z)%nat); [|rewrite app_length in Hs; lia].
    set (i := Did _ x).
    assert (Hi : gsid u o (x ++ z) i) by (exists x, z; auto).
    eapply sat_bind with (P := fun t r => exists ns, rep (gns u) (o + blen (x ++ z)) t ns /\ i :: ns = fst r ++ [snd r]).
    { destruct (opt_seqb bb (lit "::")).
      - eapply sat_bind; [apply components_ok|]. intros t l [Hl1 Hl2] _. destruct (rev l) as [|nm r] eqn:E.
        { apply (f_equal (@rev _)) in E. rewrite rev_involutive in E. now subst l. }
        unfold lift. apply sat_ret. rewrite app_nil_r. cbn [fst snd]. exists l. rewrite blen_app, N.add_assoc. split; [exact Hl1|].
        rewrite <- (rev_involutive l), E. reflexivity.
      - apply sat_ret. exists []. split; [constructor|reflexivity]. }
    intros tns [ns' name] (ns & Hns & En) _. cbn [fst snd] in En.
    eapply sat_bind; [apply func_args_ok; do 2 apply RK'_sub; apply RK_RK'; exact RH|].
    intros ta [[[l ex] co] tr] (tl & tc & tt & -> & Hargs & Htc & Hlc & Htt & ->) _. apply sat_ret. cbn [fst].
    assert (Ens : ns' = removelast (i :: ns)) by (rewrite En, removelast_app by discriminate; cbn; now rewrite app_nil_r).
    rewrite Ens. unfold core. cbn [x_upd].
    replace (o + blen x + blen z) with (o + blen (x ++ z)) in * by (rewrite blen_app; lia).
    eapply GCall with (tn := x ++ z) (tns := tns) (tl := tl) (tc := tc) (tt := tt) (i := i) (ns := ns); auto.
    - nf.
    - now rewrite <- Ens.
  Qed.
  Lemma term_start_ok nl n o : RK' n -> sat n o (term_start u b parse_f64 obj_add R nl) (fun t r => core o t (fst r)).
  Proof.
    intros H. unfold term_start. apply peek_bind. intros c.
    destruct (c =? 34); [apply sat_pmap; try exact bad_app; now apply stringlike_ok|].
    destruct (c =? 91); [apply sat_pmap; try exact bad_app; now apply array_ok|].
    destruct (c =? 123); [now apply object_ok|].
    destruct (is_digit c); [apply sat_pmap; try exact bad_app; now apply number_expr_ok|].
    destruct (c =? 60); [apply sat_pmap; try exact bad_app; now apply heredoc_ok|].
    destruct (c =? 45); [apply sat_pmap; try exact bad_app; apply sat_alt; [apply neg_number_ok|now apply unary_op_ok]|].
    destruct (c =? 33); [apply sat_pmap; try exact bad_app; now apply unary_op_ok|].
    destruct (c =? 40); [apply sat_pmap; try exact bad_app; now apply parenthesis_ok|].
    destruct (is_id_start u c); [now apply identlike_ok|apply sat_cut, sat_fail].
  Qed.
  Lemma expr_term_ok nl n o : RK' n -> sat n o (expr_term u b parse_f64 obj_add R nl) (fun t r => gexpr o t (fst r)).
  Proof.
    intros H. unfold expr_term. apply pos_bind. eapply sat_bind.
    { apply sat_with_span with (P := fun t r => gexpr o t (x_upd (set_span (snd r)) (fst (fst r)))); try exact bad_app.
      apply term_start_ok, H. }
    intros t [[e nl'] s0] He Hl. cbn [fst snd] in He.
    assert (RH : RK (n - List.length t)) by (apply RK'_S; [exact H|exact Hl|eapply gexpr_ne; exact He]).
    eapply sat_ctx.
    { apply sat_pspan with (P := fun z s => triv z /\ s = sp_of (o + blen t) z); try exact bad_app.
      eapply sat_conseq; [apply ws_or_sp_ok|]. auto. }
    intros z sp s [Hz ->] Hs. unfold bind at 1, look2 at 1.
    match goal with |- context [opt_seqb ?X (lit "..")] => generalize X; intros bb end.
    destruct (negb (opt_seqb bb (lit "..")) && _).
    2:{ apply out_here. rewrite app_nil_r. exact He. }
    apply out_sat with (n := (n - List.length t - List.length z)%nat); [|rewrite app_length in Hs; lia].
    eapply sat_bind.
    { apply sat_with_span with (P := fun t' r => gtrops (o + blen t + blen z) t' (fst r) /\ snd r = sp_of (o + blen t + blen z) t'); try exact bad_app.
      eapply sat_conseq; [apply traversal_ok; apply RK'_sub, RK_RK', RH|]. cbn. tauto. }
    intros to [ops s'] [Hops E] _. cbn [fst snd] in *. subst s'. apply sat_ret. rewrite app_nil_r. cbn [fst snd sp_of x_upd].
    replace (o, o + blen t + blen z + blen to) with (sp_of o (t ++ z ++ to)) by (unfold sp_of; rewrite !blen_app; f_equal; lia).
    eapply GTrav with (te := t) (z := z) (to := to); auto.
  Qed.
  Lemma expr_loop_ok k : forall nl n o t0 e, RK' n -> gexpr o t0 e -> (n < k)%nat ->
    sat n (o + blen t0) (expr_loop group R k nl o e) (fun t r => gexpr o (t0 ++ t) r).
  Proof.
    induction k as [|k IH]; intros nl n o t0 e H He Hk; [lia|]. cbn [expr_loop].
    eapply sat_ctx.
    { apply sat_pspan with (P := fun z s => triv z /\ s = sp_of (o + blen t0) z); try exact bad_app.
      eapply sat_conseq; [apply ws_or_sp_ok|]. auto. }
    intros z sp s [Hz ->] Hs. unfold bind at 1, look2 at 1.
    match goal with |- context [head_is (N.eqb 63) ?X] => generalize X; intros bb end.
    destruct (head_is (N.eqb 63) bb).
    { apply out_sat with (n := (n - List.length z)%nat); [|rewrite app_length in Hs; lia].
      eapply sat_bind.
      { eapply sat_with_span with (P := fun t r => snd r = sp_of (o + blen t0 + blen z) t /\ exists ta tb, t = [63] ++ ta ++ [58] ++ tb /\
           gdx (o + blen t0 + blen z + 1) ta (fst (fst r)) /\ gpx (o + blen t0 + blen z + 1 + blen ta + 1) tb (snd (fst r))); try exact bad_app.
        eapply sat_conseq; [apply conditional_ok, RK'_sub, H|]. cbv beta. auto. }
      intros t [[e1 e2] s'] (E & ta & tb & -> & Ha & Hb) _. cbn [fst snd] in *. subst s'. apply sat_ret. cbn [sp_of snd x_upd].
      rewrite app_nil_r.
      replace (o, o + blen t0 + blen z + blen ([63] ++ ta ++ [58] ++ tb)) with (sp_of o (t0 ++ z ++ [63] ++ ta ++ [58] ++ tb))
        by (unfold sp_of; rewrite !blen_app; f_equal; lia).
      eapply GCond with (tc := t0) (z := z) (ta := ta) (tb := tb); auto. }
    destruct (binop_ahead bb).
    { rewrite <- app_length in Hs || idtac.
      assert (X : sat n (o + blen t0) ('(ops, s) <- with_span (binary_ops R nl) ;;
              match group e ops with
              | Some e => fun s0 => expr_loop group R k nl o (x_upd (set_span (o, snd s)) e) s0
              | None => fun _ => PFuel
              end) (fun t r => gexpr o (t0 ++ t) r)).
      { eapply sat_bind.
        { apply sat_with_span with (P := fun t r => gops (o + blen t0) t (fst r) /\ t <> [] /\ snd r = sp_of (o + blen t0) t); try exact bad_app.
          eapply sat_conseq; [apply binary_ops_ok, H|]. cbn. tauto. }
        intros t [ops s'] (Hops & Hne & E) Hl. cbn [fst snd] in *. subst s'.
        destruct (group e ops) as [e'|] eqn:Eg; [|now apply group_total in Eg].
        cbn [sp_of snd].
        replace (o, o + blen t0 + blen t) with (sp_of o (t0 ++ t)) by (unfold sp_of; rewrite !blen_app; f_equal; lia).
        replace (o + blen t0 + blen t) with (o + blen (t0 ++ t)) by (rewrite blen_app; lia).
        eapply sat_conseq.
        { apply (IH nl (n - List.length t)%nat o (t0 ++ t)); [apply RK'_sub, H| |destruct t; [congruence|cbn in *; lia]].
          eapply GBinary with (te := t0) (to := t) (e := e) (ops := ops); auto. }
        cbv beta. intros t' r. now rewrite <- app_assoc. }
      exact (X (z ++ s) Hs). }
    apply out_here. rewrite app_nil_r. exact He.
  Qed.
  Lemma pexpr_ok nl n o : RK' n -> sat n o (pexpr u b parse_f64 group obj_add R nl) (gexpr o).
  Proof.
    intros H. unfold pexpr. apply pos_bind. eapply sat_bind; [apply expr_term_ok, H|].
    intros t [e nl'] He Hl. cbn [fst] in He. intros s Hs. cbn [snd].
    assert (L : (List.length s <= n)%nat) by lia. assert (L' : (List.length s < S (List.length s))%nat) by lia.
    exact (expr_loop_ok (S (List.length s)) nl' (List.length s) o t e (RK'_le _ _ H L) He L' s (le_n _)).
  Qed.

  (** Structures. *)
  Lemma attribute_expr_ok n o : RK' n -> sat n o (attribute_expr R) (fun t e => exists te, t = [61] ++ te /\ gpx (o + 1) te e).
  Proof.
    intros H. unfold attribute_expr. eapply sat_bind; [apply sat_cut, sat_char with (P := fun t _ => t = [61]); reflexivity|].
    intros t0 ? -> Hl. assert (RH : RK (n - List.length [61])) by (apply RK'_S; [exact H|exact Hl|discriminate]).
    eapply sat_conseq; [apply px_ok; [apply sp_ok|intros m o' Hm; now apply RH]|]. cbv beta. intros t e He. exists t. auto.
  Qed.
  Lemma labels_ok n o : sat n o (block_labels u) (rep (glabel u) o).
  Proof.
    unfold block_labels. apply sat_many0; try exact bad_app.
    2:{ intros o' t l (x & z & -> & _ & [[Hx _]|[(q & ->) _]]); [|discriminate]. apply is_ident_ne in Hx. destruct x; [congruence|discriminate]. }
    intros m o' _. eapply sat_conseq.
    { apply (suffix_decorated_ok bad bad_app label_upd _ _ _ _ (fun _ t l => (is_ident u t = true /\ l = XLId (Did no_meta t)) \/
         (gquoted t /\ exists s, l = XLStr no_meta s))); [apply sp_ok|].
      unfold block_label. apply sat_alt.
      - apply sat_pmap; try exact bad_app. eapply sat_conseq; [apply pstring_ok, bad_app|]. cbv beta. intros t a Ht. right. eauto.
      - apply sat_pmap; try exact bad_app. eapply sat_conseq; [apply ident_ok, bad_app|]. cbv beta. intros t a [Ht ->]. left. auto. }
    cbv beta. intros t r (x & z & y & -> & Hz & Hy & ->). exists x, z. split; [reflexivity|]. split; [exact Hz|].
    destruct Hy as [[Hx ->]|[Hx (s & ->)]]; [left|right]; (split; [exact Hx|]); [reflexivity|exists s; reflexivity].
  Qed.
  Lemma key_ok n o : sat n o (suffix_decorated did_upd (ident u) sp) (gsid u o).
  Proof.
    eapply sat_conseq.
    { apply (suffix_decorated_ok bad bad_app did_upd _ _ _ _ (fun _ t i => is_ident u t = true /\ i = Did no_meta t)); [apply sp_ok|].
      apply ident_ok, bad_app. }
    cbv beta. intros t r (x & z & y & -> & Hz & [Hx ->] & ->). exists x, z. auto.
  Qed.
  Lemma gsid_ne o t i : gsid u o t i -> t <> [].
  Proof. intros (x & z & -> & Hx & _). apply is_ident_ne in Hx. destruct x; [congruence|discriminate]. Qed.
  Lemma gstruct_ne o t x : gstruct o t x -> t <> [].
  Proof. intros H. destruct H; subst t; [apply gsid_ne in H0; destruct tk|apply gsid_ne in H0; destruct ti]; congruence || discriminate. Qed.
  Lemma gstructs_nil ks o l om : gstructs ks o [] l om -> l = [] /\ om = false.
  Proof.
    intros H. inversion H; subst; auto.
    - apply gstruct_ne in H2. destruct p; [destruct t1; [congruence|discriminate]|discriminate].
    - apply gstruct_ne in H2. destruct p; [destruct t1; [congruence|discriminate]|discriminate].
  Qed.
  Definition attr_post (o : N) (t : str) (s : xstruct) : Prop :=
    exists p ta z x, t = p ++ ta ++ z /\ triv p /\ triv z /\ gstruct (o + blen p) ta x /\ attr_key x <> None /\
      s = struct_upd (around o p (o + blen p + blen ta) z) x.
  Lemma oneline_attr_ok n o : RK n -> sat n o (oneline_attr u R) (attr_post o).
  Proof.
    intros H. unfold oneline_attr. eapply sat_conseq.
    { apply (decorated_ok bad bad_app struct_upd _ _ sp _ sp (fun o t x => exists k v, x = XAttr no_meta k v /\ gstruct o t (XAttr (M o t) k v))); try apply sp_ok.
      intros m o' Hm. eapply sat_bind; [apply key_ok|]. intros t1 k Hk _.
      eapply sat_bind; [apply attribute_expr_ok; apply RK'_sub, RK_RK'; eapply RK_le; [exact H|exact Hm]|].
      intros t2 v (te & -> & Hv) _. apply sat_ret. rewrite app_nil_r. exists k, v. split; [reflexivity|].
      eapply GAttr with (tk := t1) (te := te); auto. }
    cbv beta. intros t r (p & ta & z & y & -> & Hp & Hz & (k & v & -> & Hx) & ->).
    exists p, ta, z, (XAttr (M (o + blen p) ta) k v). repeat split; auto. discriminate.
  Qed.
  Lemma sat_and {A} n o (p : parser A) (P : str -> A -> Prop) (Q : A -> Prop) :
    sat n o p P -> (forall s a s', p s = POk a s' -> Q a) -> sat n o p (fun t a => P t a /\ Q a).
  Proof.
    intros H H' s Hs. specialize (H s Hs). specialize (H' (o, s)).
    destruct (p (o, s)) as [a s'|c s'| |]; auto. destruct H as (t & E & F & G). exists t. eauto.
  Qed.
  Definition x_omit (x : xbody) : bool := match x with XBody _ _ _ o => o end.
  Definition R_omit : Prop := forall s x s', r_body R s = POk x s' -> x_omit x = true -> snd s' = [].
  Lemma block_body_omit s x s' : R_omit -> block_body u R s = POk x s' -> x_omit x = false.
  Proof.
    intros RO. unfold block_body, bind at 1, cut at 1. destruct (char 123 s) as [a1 s1|c1 s1| |]; try discriminate.
    unfold bind at 1.
    match goal with |- match alt ?p ?q s1 with _ => _ end = _ -> _ => set (P := p); set (Q := q) end.
    assert (HP : forall x s2, P s1 = POk x s2 -> x_omit x = true -> snd s2 = []).
    { unfold P, prefix_decorated, spanned. intros y s2 E. apply bind_ok in E. destruct E as (a2 & s3 & _ & E).
      apply bind_ok in E. destruct E as (a3 & s4 & E1 & E2). injection E2 as <- <-.
      apply bind_ok in E1. destruct E1 as ([a4 sp4] & s5 & E1 & E2). injection E2 as <- <-.
      unfold with_span in E1. destruct ((line_ending ;; r_body R) s3) as [a5 s6|c6 s6| |] eqn:E3; try discriminate. injection E1 as <- _ <-.
      apply bind_ok in E3. destruct E3 as (a6 & s7 & _ & E3). intros Ho. apply (RO _ _ _ E3). destruct a5; exact Ho. }
    assert (HQ : forall x s2, Q s1 = POk x s2 -> x_omit x = false).
    { unfold Q, bind, ret. intros y s2. destruct (opt _ _) as [a2 s3|c2 s3| |]; try discriminate.
      destruct (raw_string _ _); try discriminate. now intros [= <- _]. }
    unfold alt. intros E.
    assert (E' : exists y s2, (P s1 = POk y s2 \/ Q s1 = POk y s2) /\ (cut (char 125) ;; ret y) s2 = POk x s').
    { destruct (P s1) as [y s2|[] s2| |]; try discriminate; [exists y, s2; auto|].
      destruct (Q s1) as [y s3|[] s3| |]; try discriminate. exists y, s3. auto. }
    destruct E' as (y & s2 & [Hy|Hy] & E2).
    - specialize (HP _ _ Hy). unfold bind, cut, char, one_of, ret in E2. destruct (snd s2) as [|c r] eqn:Es; [discriminate|].
      destruct (125 =? c); [|discriminate]. inversion E2; subst. destruct (x_omit x); [specialize (HP eq_refl); discriminate|reflexivity].
    - specialize (HQ _ _ Hy). unfold bind, cut, ret in E2. destruct (char 125 s2); try discriminate. now inversion E2; subst.
  Qed.
  Definition block_post (o : N) (t : str) (x : xbody) : Prop := exists tb, t = [123] ++ tb ++ [125] /\ gblock (o + 1) tb x.
  Lemma block_body_ok n o : R_omit -> RK' n -> sat n o (block_body u R) (block_post o).
  Proof.
    intros RO H. eapply sat_conseq with (P := fun t x => (exists tb, t = [123] ++ tb ++ [125] /\ (x_omit x = false -> gblock (o + 1) tb x)) /\ x_omit x = false).
    2:{ intros t x [(tb & -> & Hx) Ho]. exists tb. auto. }
    apply sat_and; [|intros s a s'; apply block_body_omit, RO].
    unfold block_body. eapply sat_bind; [apply sat_cut, sat_char with (P := fun t _ => t = [123]); reflexivity|].
    intros t0 ? -> Hl. assert (RH : RK (n - List.length [123])) by (apply RK'_S; [exact H|exact Hl|discriminate]).
    change (o + blen [123]) with (o + 1).
    eapply sat_bind with (P := fun t x => x_omit x = false -> gblock (o + 1) t x).
    { apply sat_alt.
      - eapply sat_conseq.
        { apply (prefix_decorated_ok bad bad_app body_upd _ _ sp_comment _ (fun o t x => exists le tb, t = le ++ tb /\ eol le /\ gbody (o + blen le) tb x));
            [intros; apply sp_comment_ok, bad_app|].
          intros m o' Hm. eapply sat_bind; [apply line_ending_ok, bad_app|]. intros le ? [Hle _] _.
          eapply sat_conseq; [apply RH; lia|]. cbv beta. intros tb x Hx. exists le, tb. auto. }
        cbv beta. intros t r (p & x & y & -> & Hp & (le & tb & -> & Hle & Hb) & ->) Ho.
        inversion Hb; subst. cbn [body_upd x_omit] in *. subst omit.
        eapply GMulti with (p := p) (le := le) (tb := ts ++ z); auto. 
      - eapply sat_bind.
        { apply sat_opt with (P := fun t r => match r with Some x => attr_post (o + 1) t x | None => t = [] end); [|reflexivity].
          apply oneline_attr_ok, RH. }
        intros t1 r Hr _. eapply sat_bind; [apply (raw_string_ok bad bad_app), sp_ok|]. intros z ? [Hz ->] _.
        apply sat_ret. intros _. destruct r as [x|].
        + destruct Hr as (p & ta & z' & y & -> & Hp & Hz' & Hy & Hk & ->).
          rewrite !blen_app, !N.add_assoc. eapply GOneAttr with (p := p) (ta := ta) (z := z') (z' := z); auto. nf.
        + subst t1. cbn [app]. rewrite app_nil_r. cbn [blen]. rewrite N.add_0_r. now constructor. }
    intros tb x Hx _. eapply sat_bind; [apply sat_cut, sat_char with (P := fun t _ => t = [125]); reflexivity|].
    intros t2 ? -> _. apply sat_ret. exists tb. split; [nf|exact Hx].
  Qed.
  Lemma existsb_In x ks : existsb (seqb x) ks = false -> ~ In x ks.
  Proof.
    intros H Hi. induction ks as [|k ks IH]; [exact Hi|]. cbn in H. apply orb_false_iff in H. destruct H as [H1 H2].
    destruct Hi as [->|Hi]; [|auto]. now rewrite seqb_refl in H1.
  Qed.
  Lemma structure_ok ks n o : R_omit -> RK' n -> sat n o (structure u R ks)
    (fun t r => gstruct o t (fst r) /\ fresh ks (fst r) /\ snd r = add_key ks (fst r)).
  Proof.
    intros RO H. unfold structure. apply pos_bind. intros s Hs.
    match goal with |- context [?p (o, s)] => change (out_ok bad o ([] ++ s) (p (o, s)) (fun t r => gstruct o t (fst r) /\ fresh ks (fst r) /\ snd r = add_key ks (fst r))) end.
    eapply (out_bind0 n o s); [|exact Hs|].
    { eapply sat_peek with (Q := fun t _ => t = []); [now apply sat_one_of with (P := fun _ _ => True)|auto]. }
    intros t0 ? s0 E ->. cbn [app] in E |- *. subst s0. cbn [blen]. rewrite N.add_0_r.
    eapply (out_bind0 n o s); [|exact Hs|].
    { apply sat_with_span with (P := fun t r => is_ident u t = true /\ fst r = t /\ snd r = sp_of o t); try exact bad_app.
      apply sat_cut. eapply sat_conseq; [apply str_ident_ok, bad_app|]. cbn. tauto. }
    intros x [x' xs] s1 E1 (Hx & E2 & E3). cbn [fst snd app] in *. subst x' xs.
    assert (Hl : (List.length x <= n)%nat) by (rewrite E1, app_length in Hs; lia).
    assert (RH : RK (n - List.length x)) by (apply RK'_S; [exact H|exact Hl|eapply is_ident_ne; exact Hx]).
    assert (Hs1 : (List.length s1 <= n - List.length x)%nat) by (rewrite E1, app_length in Hs; lia).
    eapply out_bind; [apply (raw_string_ok bad bad_app), sp_ok|exact Hs1|].
    intros z ? s2 E4 [Hz ->].
    assert (Hs2 : (List.length s2 <= n - List.length x)%nat) by (rewrite E4, app_length in Hs1; lia).
    eapply out_bind; [apply sat_peek with (P := fun _ _ => True) (Q := fun t _ => t = []); [now apply sat_any with (P := fun _ _ => True)|auto]|exact Hs2|].
    intros t3 c s3 E5 ->. rewrite app_nil_r. cbn [app] in E5. subst s3.
    set (i := Did _ x).
    assert (Hi : gsid u o (x ++ z) i) by (exists x, z; auto).
    assert (Rx : RK' (n - List.length x)) by (apply RK_RK', RH).
    destruct (c =? 61).
    { destruct (existsb (seqb x) ks) eqn:Ek.
      { exists []. cbn [fst snd app blen]. rewrite N.add_0_r. split; [rewrite E1, E4, app_assoc; reflexivity|reflexivity]. }
      eapply out_bind; [apply attribute_expr_ok, Rx|exact Hs2|]. intros t4 v s4 E6 (te & -> & Hv).
      unfold bind, pos, ret. apply out_here'. 
      cbn [fst snd]. split; [|split; [apply existsb_In, Ek|reflexivity]].
      eapply GAttr with (tk := x ++ z) (te := te); auto. }
    assert (Blk : forall ls tl s4, rep (glabel u) (o + blen (x ++ z)) tl ls -> s2 = tl ++ s4 ->
       out_ok bad o (((x ++ z) ++ tl) ++ s4) ((bd <- block_body u R ;; e <- pos ;; ret (XBlock (set_span (o, e) no_meta) i ls bd, ks)) (o + blen ((x ++ z) ++ tl), s4))
         (fun t r => gstruct o t (fst r) /\ fresh ks (fst r) /\ snd r = add_key ks (fst r))).
    { intros ls tl s4 Hls E6.
      assert (Hs4 : (List.length s4 <= n - List.length x)%nat) by (rewrite E6, app_length in Hs2; lia).
      eapply out_bind; [apply block_body_ok; [exact RO|exact Rx]|exact Hs4|].
      intros t5 bd s5 E7 (tb & -> & Hb). unfold bind, pos, ret. apply out_here'. cbn [fst snd].
      split; [|split; [exact I|reflexivity]]. rewrite blen_app, N.add_assoc in Hb.
      eapply GBlock with (ti := x ++ z) (tl := tl) (tb := tb); auto. nf. }
    destruct (c =? 123).
    { specialize (Blk [] [] s2 (rep_nil _ _) eq_refl). rewrite app_nil_r in Blk. exact Blk. }
    destruct (_ || _).
    { eapply out_bind; [apply labels_ok|exact Hs2|]. intros tl ls s4 E6 Hls. now apply Blk. }
    exists (x ++ z). cbn [cut fail fst snd]. auto.
  Qed.

  (** Bodies. *)
  Definition item_post (ks : list str) (o : N) (t : str) (r : xstruct * list str * bool) : Prop :=
    exists p t1 z le x, t = p ++ t1 ++ z ++ le /\ triv p /\ gstruct (o + blen p) t1 x /\ fresh ks x /\ triv z /\
      (if snd r then le = [] else eol le) /\
      fst r = (struct_upd (around o p (o + blen p + blen t1) z) x, add_key ks x).
  Lemma body_item_ok ks n o : R_omit -> RK' n -> sat n o (body_item u R ks) (item_post ks o).
  Proof.
    intros RO H. unfold body_item. eapply sat_bind.
    { apply sat_pspan with (P := fun t s => triv t /\ s = sp_of o t); try exact bad_app.
      eapply sat_conseq; [apply ws_ok|]. cbv beta. auto. }
    intros p sp0 [Hp ->] _. eapply sat_bind; [apply structure_ok; [exact RO|apply RK'_sub, H]|].
    intros t1 [x ks'] (Hx & Hf & E) _. cbn [fst snd] in *. subst ks'. eapply sat_bind.
    { apply sat_pspan with (P := fun t s => triv t /\ s = sp_of (o + blen p + blen t1) t); try exact bad_app.
      eapply sat_conseq; [apply sp_comment_ok, bad_app|]. cbv beta. auto. }
    intros z sp1 [Hz ->] _. eapply sat_bind with (P := fun t (e : bool) => if e then t = [] else eol t).
    { apply sat_cut, sat_alt.
      - eapply sat_bind; [apply line_ending_ok, bad_app|]. intros t ? [Ht _] _. apply sat_ret. now rewrite app_nil_r.
      - eapply sat_bind; [apply sat_eof with (P := fun t _ => t = []); reflexivity|]. intros t ? -> _. now apply sat_ret. }
    intros le e He _. apply sat_ret. exists p, t1, z, le, x. cbn [fst snd]. repeat split; auto. nf.
  Qed.
  Lemma body_item_eof ks s r s' : body_item u R ks s = POk r s' -> snd r = true -> snd s' = [].
  Proof.
    unfold body_item. intros E. apply bind_ok in E. destruct E as (a1 & s1 & _ & E).
    apply bind_ok in E. destruct E as ([x ks'] & s2 & _ & E). apply bind_ok in E. destruct E as (a3 & s3 & _ & E).
    apply bind_ok in E. destruct E as (e & s4 & E & E'). injection E' as <- <-. cbn [snd]. intros ->.
    unfold cut, alt, bind, ret in E. destruct (line_ending s3) as [a4 s5|[] s5| |]; try discriminate.
    unfold eof in E. destruct (snd s3) eqn:E3; [|discriminate]. now injection E as <-.
  Qed.
  Definition item_ne ks o t r : item_post ks o t r -> t <> [].
  Proof.
    intros (p & t1 & z & le & x & -> & _ & Hx & _). apply gstruct_ne in Hx. destruct p; [destruct t1; [congruence|]|]; discriminate.
  Qed.
  Lemma body_loop_ok k : forall ks omit n o, R_omit -> RK' n -> (n < k)%nat ->
    sat n o (body_loop u R k ks omit) (fun t r => exists om, gstructs ks o t (fst r) om /\ snd r = (omit || om)%bool).
  Proof.
    induction k as [|k IH]; intros ks omit n o RO H Hk; [lia|]. intros s Hs. cbn [body_loop].
    assert (X := body_item_ok ks n o RO H s Hs). assert (Y := body_item_eof ks (o, s)).
    destruct (body_item u R ks (o, s)) as [[[x ks'] e] s'|[] s'| |]; auto.
    2:{ exists []. cbn [fst snd app blen]. rewrite N.add_0_r. repeat split. exists false. split; [constructor|now rewrite orb_false_r]. }
    destruct X as (t & E & F & G). specialize (Y _ s' eq_refl). cbn [snd] in Y.
    assert (Hne := item_ne _ _ _ _ G). destruct G as (p & t1 & z & le & y & Et & Hp & Hy & Hf & Hz & Hle & Er). cbn [fst snd] in Hle, Er.
    injection Er as -> ->. destruct s' as [o' s']. cbn [fst snd] in *. subst o'.
    assert (Hl : (List.length t + List.length s' <= n)%nat) by (rewrite E, app_length in Hs; exact Hs).
    assert (Ht : (0 < List.length t)%nat) by (destruct t; [congruence|cbn; lia]).
    replace (Nat.eqb (List.length s') (List.length s)) with false by (symmetry; apply Nat.eqb_neq; rewrite E, app_length; lia).
    assert (X : sat (n - List.length t) (o + blen t) (body_loop u R k (add_key ks y) (omit || e))
      (fun t' r => exists om, gstructs (add_key ks y) (o + blen t) t' (fst r) om /\ snd r = (omit || e || om)%bool)).
    { apply IH; [exact RO|apply RK'_sub, H|lia]. }
    specialize (X s' ltac:(lia)).
    destruct (body_loop u R k _ _ _) as [[l om'] s2|c s2| |].
    - destruct X as (t' & E2 & F2 & om & G2 & Eo). cbn [fst snd] in *. exists (t ++ t').
      split; [now rewrite E, E2, app_assoc|]. split; [rewrite F2, blen_app; lia|].
      rewrite Et in *. destruct e.
      + specialize (Y eq_refl). subst s' le. symmetry in E2. apply app_eq_nil in E2. destruct E2 as [-> _].
        apply gstructs_nil in G2. destruct G2 as [-> ->]. exists true. rewrite !app_nil_r. split; [|rewrite Eo; now destruct omit].
        now apply GStructsLast.
      + exists om. split; [|rewrite Eo; now destruct omit].
        replace ((p ++ t1 ++ z ++ le) ++ t') with (p ++ t1 ++ z ++ le ++ t') by nf.
        rewrite !blen_app, !N.add_assoc in G2. now apply GStructs.
    - destruct X as (t' & E2 & F2). exists (t ++ t'). split; [now rewrite E, E2, app_assoc|]. rewrite F2, blen_app; lia.
    - rewrite E. now apply bad_app.
    - exact X.
  Qed.
  Lemma pbody_ok n o : R_omit -> RK' n -> sat n o (pbody u R) (gbody o).
  Proof.
    intros RO H. unfold pbody. eapply sat_bind.
    { apply sat_with_span with (P := fun t r => gstructs [] o t (fst (fst r)) (snd (fst r)) /\ snd r = sp_of o t); try exact bad_app.
      intros s Hs. cbn [snd].
      assert (L' : (List.length s < S (List.length s))%nat) by lia.
      assert (X := body_loop_ok (S (List.length s)) [] false (List.length s) o RO (RK'_le _ _ H Hs) L' s (le_n _)).
      destruct (body_loop _ _ _ _ _ _) as [[l om] s'|c s'| |]; auto.
      destruct X as (t & E & F & om' & G & Eo). cbn [fst snd orb] in *. subst om'. exists t. auto. }
    intros ts [[l om] sp0] [Hs E] _. cbn [fst snd] in *. subst sp0.
    eapply sat_bind; [apply (raw_string_ok bad bad_app), ws_ok|]. intros z ? [Hz ->] _. apply sat_ret. rewrite app_nil_r.
    eapply GBody with (ts := ts) (z := z); auto.
  Qed.
  Lemma body_loop_omit k : forall ks omit s r s', body_loop u R k ks omit s = POk r s' -> snd r = true ->
    (omit = true -> snd s = []) -> snd s' = [].
  Proof.
    induction k as [|k IH]; intros ks omit s r s'; [discriminate|]. cbn [body_loop].
    assert (Y := body_item_eof ks s).
    destruct (body_item u R ks s) as [[[x ks'] e] s1|[] s1| |] eqn:Eb; try discriminate.
    - destruct (Nat.eqb (List.length (snd s1)) (List.length (snd s))) eqn:El; [discriminate|]. specialize (Y _ s1 eq_refl). cbn [snd] in Y.
      destruct (body_loop u R k ks' _ s1) as [[l om] s2|c s2| |] eqn:E; try discriminate. intros [= <- <-]. cbn [snd]. intros -> Ho.
      eapply IH; [exact E|reflexivity|]. intros He. apply orb_true_iff in He. destruct He as [-> | ->]; auto.
      (* an earlier line ended at the end of the input: no item can follow *)
      specialize (Ho eq_refl). exfalso. destruct s as [o s]. cbn [snd] in Ho. subst s.
      assert (Z : exists s3, body_item u R ks (o, []) = PErr false s3) by (eexists; reflexivity).
      destruct Z as (s3 & Z). pose proof (eq_trans (eq_sym Eb) Z) as W. discriminate W.
    - intros [= <- <-]. cbn. auto.
  Qed.
  Lemma pbody_omit s x s' : pbody u R s = POk x s' -> x_omit x = true -> snd s' = [].
  Proof.
    unfold pbody. intros E. apply bind_ok in E. destruct E as ([[l om] sp0] & s1 & E & E').
    unfold with_span in E. destruct (body_loop _ _ _ _ _ _) as [[l' om'] s2|c s2| |] eqn:E2; try discriminate.
    injection E as <- <- _ <-. intros Ho.
    apply bind_ok in E'. destruct E' as (a3 & s3 & E3 & E4). injection E4 as <- <-. cbn [x_omit] in Ho. subst om'.
    apply body_loop_omit in E2; [|reflexivity|discriminate].
    destruct s2 as [o2 t2]. cbn [snd] in E2. subst t2. cbv in E3. injection E3 as _ <-. reflexivity.
  Qed.
End Rec.

(** All levels of the recursion. *)
Section All.
  Context (u : unicode) (b : build) (parse_f64 : str -> f64).
  Context (group : xexpr -> list (oper * xexpr) -> option xexpr).
  Context (obj_add : xitem -> list xitem -> list xitem).
  Context (group_total : forall e ops, group e ops <> None).
  Notation recs_at := (recs_at u b parse_f64 group obj_add).
  Lemma recs_omit n : R_omit (recs_at n).
  Proof. destruct n as [|n]; intros s x s'; [discriminate|]. apply pbody_omit. Qed.
  Lemma unroll_ok R n : R_omit R -> RK' u b parse_f64 group obj_add R n ->
    RK u b parse_f64 group obj_add (unroll u b parse_f64 group obj_add R) n.
  Proof.
    intros RO H. split; [|split; [|split]].
    - intros nl m o Hm. apply pexpr_ok; [exact group_total|]. eapply RK'_le; eauto.
    - intros nl m o Hm. apply sat_pmap; [apply bad_app|]. apply expr_term_ok; eapply RK'_le; eauto.
    - intros m o Hm. apply ptemplate_ok; try exact group_total. eapply RK'_le; eauto.
    - intros m o Hm. apply pbody_ok; try exact group_total; try exact RO. eapply RK'_le; eauto.
  Qed.
  Lemma recs_ok n : RK u b parse_f64 group obj_add (recs_at (S n)) n.
  Proof.
    induction n as [|n IH].
    - apply (unroll_ok (recs_at 0)); [apply (recs_omit 0)|]. intros m Hm. lia.
    - apply (unroll_ok (recs_at (S n))); [apply (recs_omit (S n))|]. intros m Hm. eapply RK_le; [exact IH|lia].
  Qed.
End All.

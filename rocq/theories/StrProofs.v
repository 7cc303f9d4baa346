(** * Reading quoted strings: proofs *)
From Coq Require Import NArith Arith Bool String List Lia.
From Verif Require Import Str Dec PrimModel PrimProofs EAst EncModel ParseBase ParseModel ParseLemmas Eat StrSpec.
Import ListNotations.
Open Scope N_scope.

Lemma esc_marker_at s : esc_marker s = true -> exists m r, (m = 36 \/ m = 37) /\ s = m :: m :: 123 :: r.
Proof.
  unfold esc_marker. rewrite orb_true_iff, !starts_with_spec. intros [[r ->]|[r ->]]; [exists 36, r|exists 37, r]; auto.
Qed.
Lemma live_marker_at s : live_marker s = true -> exists m r, (m = 36 \/ m = 37) /\ s = m :: 123 :: r.
Proof.
  unfold live_marker. rewrite orb_true_iff, !starts_with_spec. intros [[r ->]|[r ->]]; [exists 36, r|exists 37, r]; auto.
Qed.
Section Str.
Context {inp : str}.
Lemma eat_escaped_marker m (Q : str -> Prop) r : m = 36 \/ m = 37 -> Q [m; 123] -> eat inp escaped_marker [m; m; 123] Q r.
Proof.
  intros Hm HQ o _. unfold escaped_marker, bind, take_n. cbn [snd app List.length Nat.leb firstn skipn fst].
  destruct Hm as [-> | ->]; cbn; eauto.
Qed.
Lemma miss_escaped_marker s : esc_marker s = false -> miss inp escaped_marker s.
Proof.
  intros H o _. unfold escaped_marker, bind, take_n. cbn [snd fst]. destruct (Nat.leb 3 (List.length s)) eqn:L; [|eauto].
  assert (E : forall x, seqb (firstn 3 s) x = true -> List.length x = 3%nat -> starts_with x s = true).
  { intros x Ex _. apply seqb_eq in Ex. apply starts_with_spec. exists (skipn 3 s). rewrite <- Ex. symmetry. apply firstn_skipn. }
  unfold esc_marker in H. apply orb_false_iff in H. destruct H as [H1 H2].
  destruct (seqb (firstn 3 s) (lit "$${")) eqn:E1; [rewrite (E _ E1 eq_refl) in H1; discriminate|].
  destruct (seqb (firstn 3 s) (lit "%%{")) eqn:E2; [rewrite (E _ E2 eq_refl) in H2; discriminate|]. unfold fail. eauto.
Qed.
(** What ends a run of ordinary characters. *)
Lemma miss_literal_end s : ordinary s = true -> miss inp string_literal_end s.
Proof.
  destruct s as [|c s]; [discriminate|]. cbn [ordinary]. rewrite negb_true_iff, !orb_false_iff. intros [[[H1 H2] H3] _].
  unfold string_literal_end. apply (miss_bind2 any _ [c] (eq c) s); [now apply eat_any|]. intros a <-. rewrite H1, H2. cbn [orb].
  destruct ((c =? 36) || (c =? 37)) eqn:Hc; [|apply miss_fail]. apply miss_bind1, miss_char.
  destruct s as [|d s]; [exact I|]. cbn [ends]. destruct (N.eqb_spec 123 d) as [<-|_]; [|reflexivity].
  apply orb_true_iff in Hc. rewrite !N.eqb_eq in Hc. destruct Hc as [-> | ->]; discriminate H3.
Qed.
Lemma eat_literal_end s : ordinary s = false -> esc_marker s = false -> s <> [] -> exists t r, s = t ++ r /\ eat inp string_literal_end t (fun _ => True) r.
Proof.
  destruct s as [|c s]; [congruence|]. cbn [ordinary]. intros H H2 _. rewrite H2, orb_false_r, negb_false_iff, orb_true_iff in H.
  destruct H as [H|H].
  - exists [c], s. split; [reflexivity|]. unfold string_literal_end. apply (eat_bind any _ [c] [] (eq c)); [now apply eat_any|].
    intros a <-. rewrite H. now apply eat_ret.
  - apply live_marker_at in H. destruct H as (m & r & Hm & E). injection E as -> ->. exists [m; 123], r. split; [reflexivity|].
    unfold string_literal_end. apply (eat_bind any _ [m] [123] (eq m)); [now apply eat_any|]. intros a <-.
    destruct Hm as [-> | ->]; cbn [N.eqb Pos.eqb orb]; apply (eat_bind (char 123) _ [123] [] (fun _ => True)); try (now apply eat_char);
    intros; now apply eat_ret.
Qed.
Definition one : parser N := pnot (alt (pmap (fun _ => tt) escaped_marker) string_literal_end) ;; any.
Lemma eat_one c s : ordinary (c :: s) = true -> eat inp one [c] (fun _ => True) s.
Proof.
  intros H. unfold one. apply (eat_bind _ _ [] [c] (fun _ => True)); [|intros; now apply eat_any].
  apply eat_pnot; [|exact I]. apply miss_alt; [apply miss_pmap, miss_escaped_marker|now apply miss_literal_end].
  cbn [app]. cbn [ordinary] in H. rewrite negb_true_iff, !orb_false_iff in H. apply H.
Qed.
Lemma miss_one s : ordinary s = false -> miss inp one s.
Proof.
  intros H. destruct s as [|c s].
  { intros o _. eexists. reflexivity. }
  apply miss_bind1. destruct (esc_marker (c :: s)) eqn:E.
  - apply esc_marker_at in E. destruct E as (m & r & Hm & ->). apply (miss_pnot _ [m; m; 123] (fun _ => True)).
    apply eat_alt1, eat_pmap. now apply eat_escaped_marker.
  - destruct (eat_literal_end (c :: s)) as (t & r & Es & Ht); auto; [discriminate|]. rewrite Es. apply (miss_pnot _ t (fun _ => True)).
    apply eat_alt2; [|exact Ht]. apply miss_pmap, miss_escaped_marker. now rewrite <- Es.
Qed.
Fixpoint ords (p q : str) : Prop := match p with [] => True | c :: p' => ordinary (c :: p' ++ q) = true /\ ords p' q end.
Lemma ords_loop p q : ordinary q = false -> ords p q -> eat_loop inp one p (fun _ => True) q.
Proof.
  intros Hq. induction p as [|c p IH]; intros Hp.
  - apply eat_loop_nil; [now apply miss_one|exact I].
  - destruct Hp as [Hc Hp]. apply (eat_loop_cons one [c] p (fun _ => True)); [discriminate|now apply eat_one|auto].
Qed.
Lemma eat_string_literal p q (Q : str -> Prop) : p <> [] -> ordinary q = false -> ords p q -> Q p -> eat inp string_literal p Q q.
Proof.
  intros Hn Hq Hp HQ. unfold string_literal, any_until. apply eat_taken; [|exact HQ]. destruct p as [|c p]; [congruence|].
  destruct Hp as [Hc Hp]. apply (eat_many1 _ [c] p (fun _ => True)); [now apply eat_one|]. intros _ _. now apply ords_loop.
Qed.
Lemma miss_string_literal q : ordinary q = false -> miss inp string_literal q.
Proof. intros H. apply miss_taken, miss_many1, miss_one, H. Qed.

Lemma scalar_ok c : scalar c -> char_from_u32 c = Some c.
Proof.
  unfold scalar, char_from_u32. intros H. destruct (N.ltb_spec c 55296); [reflexivity|]. cbn [orb].
  replace (57344 <=? c) with true by (symmetry; apply N.leb_le; lia). replace (c <? 1114112) with true by (symmetry; apply N.ltb_lt; lia). reflexivity.
Qed.
Lemma scalar_only c d : char_from_u32 c = Some d -> d = c /\ scalar c.
Proof.
  unfold scalar, char_from_u32. destruct (N.ltb_spec c 55296); cbn [orb]; [intros [= <-]; auto|].
  destruct (N.leb_spec 57344 c); cbn [andb]; [|discriminate]. destruct (N.ltb_spec c 1114112); [|discriminate]. intros [= <-]. split; [reflexivity|lia].
Qed.
Lemma hexescape_ok n h c (Q : N -> Prop) r : List.length h = n -> forallb is_hex h = true -> char_from_u32 (hex_value h) = Some c -> Q c ->
  eat inp (hexescape n) h Q r.
Proof.
  intros Hl Hh Hc HQ. unfold hexescape. apply eat_verify_map. intros o _. exists (hex_value h). split; [|eauto]. cbn [snd fst].
  assert (E : firstn n (fst (span is_hex (h ++ r))) = h).
  { subst n. clear Hc. induction h as [|x h IH]; cbn [app List.length]; [reflexivity|]. cbn [forallb] in Hh. apply andb_true_iff in Hh.
    destruct Hh as [Hx Hh]. cbn [span]. rewrite Hx. specialize (IH Hh). destruct (span is_hex (h ++ r)) as [x1 x2]. cbn [fst firstn] in *. now rewrite IH. }
  rewrite E, Hl, Nat.eqb_refl. f_equal. f_equal. rewrite <- Hl. apply skipn_app_exact.
Qed.
Lemma eat_escaped_char e c r (Q : N -> Prop) : escape_seq e c -> Q c -> eat inp escaped_char e Q r.
Proof.
  intros H HQ. destruct H; unfold escaped_char;
    (eapply (eat_bind' _ _ _ [92]); [reflexivity|now apply (eat_char 92 (fun _ => True))|]); intros _ _.
  1-8: match goal with |- eat inp _ ?t _ _ => apply (eat_bind' _ _ t t [] (eq (hd 0 t))); [reflexivity|now apply eat_any|]; intros a <-; now apply eat_ret end.
  - apply (eat_bind' _ _ _ [117] h (eq 117)); [reflexivity|now apply eat_any|]. intros a <-. cbn [N.eqb Pos.eqb]. apply eat_cut.
    eapply hexescape_ok; eauto. subst c. now apply scalar_ok.
  - apply (eat_bind' _ _ _ [85] h (eq 85)); [reflexivity|now apply eat_any|]. intros a <-. cbn [N.eqb Pos.eqb]. apply eat_cut.
    eapply hexescape_ok; eauto. subst c. now apply scalar_ok.
Qed.
Lemma escape_seq_ordinary e c t : escape_seq e c -> ordinary (e ++ t) = false /\ esc_marker (e ++ t) = false.
Proof. intros H. destruct H; split; reflexivity. Qed.

Lemma reads_split r t v : reads r t v -> ordinary r = false ->
  exists p q w, t = p ++ q /\ v = p ++ w /\ ords p (q ++ r) /\ ordinary (q ++ r) = false /\ reads r q w.
Proof.
  intros H Hr. induction H as [|m t v Hm H IH|e c t v He H IH|c t v Hc H IH].
  - exists [], [], []. repeat split; auto. constructor.
  - exists [], (m :: m :: 123 :: t), (m :: 123 :: v). repeat split; auto; [|now constructor]. destruct Hm as [-> | ->]; reflexivity.
  - exists [], (e ++ t), (c :: v). repeat split; auto; [|now constructor]. rewrite <- app_assoc. now apply (escape_seq_ordinary e c).
  - destruct IH as (p & q & w & -> & -> & Hp & Hq & Hw). exists (c :: p), q, w. repeat split; auto. now rewrite app_assoc.
Qed.
(** The loop of [build_string]. *)
Definition eat_build (f : parser str) (t v r : str) : Prop :=
  forall n o, tail_at inp o (t ++ r) -> (List.length t < n)%nat -> build_loop n f (mk o (t ++ r)) = POk v (mk (o + blen t) r).
Lemma build_cons f t1 t2 v1 v2 r : t1 <> [] -> eat inp f t1 (eq v1) (t2 ++ r) -> eat_build f t2 v2 r -> eat_build f (t1 ++ t2) (v1 ++ v2) r.
Proof.
  intros Hn H1 H2 [|n] o T Hl; [inversion Hl|]. cbn [build_loop]. rewrite <- app_assoc in *. destruct (H1 o T) as (a & -> & <-).
  rewrite app_length in Hl. assert (List.length t1 <> 0)%nat by (destruct t1; [contradiction|discriminate]).
  rewrite H2 by (try lia; now apply tail_app). now rewrite blen_app, N.add_assoc.
Qed.
Lemma reads_frag r t v : reads r t v -> ordinary r = false -> t <> [] ->
  exists t1 t2 v1 v2, t = t1 ++ t2 /\ v = v1 ++ v2 /\ t1 <> [] /\ eat inp quoted_string_fragment t1 (eq v1) (t2 ++ r) /\ reads r t2 v2.
Proof.
  intros H H1 Hn. destruct (reads_split r t v H H1) as (p & q & w & -> & -> & Hp & Hq & Hw).
  destruct p as [|c p].
  - cbn [app] in *. inversion Hw as [E1 E2|m t v Hm Hw' E1 E2|e c t v He Hw' E1 E2|c t v Hc Hw' E1 E2]; subst.
    + congruence.
    + exists [m; m; 123], t, [m; 123], v. repeat split; auto; [discriminate|]. unfold quoted_string_fragment. apply eat_alt1. now apply eat_escaped_marker.
    + assert (e <> []) by (destruct He; discriminate). destruct (escape_seq_ordinary e c (t ++ r) He) as [O1 O2].
      exists e, t, [c], v. repeat split; auto.
      unfold quoted_string_fragment. apply eat_alt2; [now apply miss_escaped_marker|]. apply eat_alt2; [now apply miss_string_literal|].
      apply eat_pmap. eapply eat_escaped_char; eauto.
    + exfalso. cbn [app] in Hq. congruence.
  - exists (c :: p), q, (c :: p), w. repeat split; auto; [discriminate|]. unfold quoted_string_fragment. apply eat_alt2.
    + apply miss_escaped_marker. destruct Hp as [Hc _]. cbn [ordinary] in Hc. rewrite negb_true_iff, !orb_false_iff in Hc. apply Hc.
    + apply eat_alt1. apply eat_string_literal; auto. discriminate.
Qed.
Definition quiet (r : str) : Prop := ordinary r = false /\ esc_marker r = false /\ starts_with [92] r = false.
Lemma frag_stop r : quiet r -> forall o, tail_at inp o r -> quoted_string_fragment (mk o r) = PErr false (mk o r).
Proof.
  intros (H1 & H2 & H3) o T. unfold quoted_string_fragment, alt.
  destruct (miss_escaped_marker r H2 o T) as (s1 & ->). destruct (miss_string_literal r H1 o T) as (s2 & ->).
  assert (M : miss inp (pmap (fun c => [c]) escaped_char) r).
  { apply miss_pmap, miss_bind1, miss_char. destruct r as [|c r]; [exact I|]. cbn [ends starts_with] in *. now rewrite andb_true_r in H3. }
  destruct (M o T) as (s3 & ->). reflexivity.
Qed.
Lemma reads_build r t v : reads r t v -> quiet r -> eat_build quoted_string_fragment t v r.
Proof.
  intros H H1. remember (List.length t) as k eqn:Ek. revert t v Ek H.
  induction k as [k IH] using (well_founded_induction Wf_nat.lt_wf). intros t v -> H.
  destruct t as [|c t].
  - assert (v = []) by (inversion H as [E1 E2|m t v' Hm Hw E1 E2|e c t v' He Hw E1 E2|c t v' Hc Hw E1 E2]; subst; [reflexivity|destruct He; discriminate]).
    subst. intros [|n] o T Hn; [inversion Hn|]. cbn [app build_loop blen] in *. rewrite (frag_stop r), N.add_0_r; auto.
  - destruct (reads_frag r (c :: t) v H) as (t1 & t2 & v1 & v2 & E & -> & Hn & Hf & Hr); [apply H1|discriminate|]. rewrite E.
    apply build_cons; auto. eapply IH; [|reflexivity|exact Hr]. rewrite E, app_length. destruct t1; [contradiction|cbn; lia].
Qed.
Lemma eat_build_string r t v (Q : str -> Prop) : reads r t v -> quiet r -> t <> [] -> Q v -> eat inp (build_string quoted_string_fragment) t Q r.
Proof.
  intros H H1 Hn HQ. destruct (reads_frag r t v H) as (t1 & t2 & v1 & v2 & -> & -> & Hn1 & Hf & Hr); [apply H1|assumption|].
  unfold build_string. apply (eat_bind _ _ t1 t2 (eq v1)); [exact Hf|]. intros a <-.
  apply (eat_bind' _ _ t2 t2 [] (eq v2)); [symmetry; apply app_nil_r| |intros a <-; now apply eat_ret].
  intros o T. exists v2. split; [|reflexivity]. cbn [snd]. rewrite (reads_build r t2 v2 Hr H1); [reflexivity|exact T|]. rewrite app_length. lia.
Qed.
Lemma quiet_quote r : quiet (34 :: r). Proof. repeat split. Qed.
(** A quoted string. *)
Lemma eat_pstring t v r (Q : str -> Prop) : reads (34 :: r) t v -> Q v -> eat inp pstring ([34] ++ t ++ [34]) Q r.
Proof.
  intros H HQ. unfold pstring. apply (eat_bind (char 34) _ [34] _ (fun _ => True)); [now apply eat_char|]. intros _ _.
  apply (eat_bind _ _ t [34] (fun o => match o with Some s => s | None => [] end = v)).
  - destruct t as [|c t].
    + assert (v = []) by (inversion H as [E1 E2|m t v' Hm Hw E1 E2|e c t v' He Hw E1 E2|c t v' Hc Hw E1 E2]; subst; [reflexivity|destruct He; discriminate]).
      subst. apply eat_opt_none; [|reflexivity]. apply miss_bind1. intros o T. rewrite frag_stop; [eauto|apply quiet_quote|exact T].
    + apply eat_opt. eapply eat_build_string; eauto; [apply quiet_quote|discriminate].
  - intros o Ho. apply (eat_bind (char 34) _ [34] [] (fun _ => True)); [now apply eat_char|]. intros _ _. apply eat_ret. now subst v.
Qed.

End Str.

(** ** What the encoder writes is read back *)
Definition esc_special (c : N) : bool :=
  (c =? 8) || (c =? 9) || (c =? 10) || (c =? 12) || (c =? 13) || (c =? 34) || (c =? 92) || (c <=? 31) || (c =? 127).
Definition hex_ok (c : N) : bool := forallb is_hex (hex4 c) && match char_from_u32 (hex_value (hex4 c)) with Some d => d =? c | None => false end.
Lemma control_hex_ok c : (c <=? 31) || (c =? 127) = true -> hex_ok c = true.
Proof.
  intros H. assert (F : forallb hex_ok (127 :: map N.of_nat (seq 0 32)) = true) by (vm_compute; reflexivity).
  rewrite forallb_forall in F. apply F. apply orb_true_iff in H. rewrite N.leb_le, N.eqb_eq in H. destruct H as [H| ->]; [right|now left].
  apply in_map_iff. exists (N.to_nat c). split; [apply N2Nat.id|]. apply in_seq. lia.
Qed.
Lemma escape_char_seq c : esc_special c = true -> escape_seq (escape_char c) c.
Proof.
  intros H. unfold esc_special in H. unfold escape_char.
  destruct (N.eqb_spec c 8) as [E|_]; [rewrite E; exact Esc_b|]. destruct (N.eqb_spec c 9) as [E|_]; [rewrite E; exact Esc_t|].
  destruct (N.eqb_spec c 10) as [E|_]; [rewrite E; exact Esc_n|]. destruct (N.eqb_spec c 12) as [E|_]; [rewrite E; exact Esc_f|].
  destruct (N.eqb_spec c 13) as [E|_]; [rewrite E; exact Esc_r|]. destruct (N.eqb_spec c 34) as [E|_]; [rewrite E; exact Esc_quote|].
  destruct (N.eqb_spec c 92) as [E|_]; [rewrite E; exact Esc_backslash|].
  assert (H' : (c <=? 31) || (c =? 127) = true) by exact H.
  rewrite H'. apply control_hex_ok in H'. apply andb_true_iff in H'. destruct H' as [H1 H2].
  destruct (char_from_u32 (hex_value (hex4 c))) as [d|] eqn:E; [|discriminate]. apply N.eqb_eq in H2. subst d.
  apply scalar_only in E. destruct E as [E1 E2]. apply (Esc_u4 (hex4 c) c); auto. now rewrite E1.
Qed.
Lemma escape_char_plain c : esc_special c = false -> escape_char c = [c] /\ (c =? 34) = false /\ (c =? 92) = false.
Proof.
  unfold esc_special, escape_char. rewrite !orb_false_iff. intros (((((((( H1 & H2) & H3) & H4) & H5) & H6) & H7) & H8) & H9).
  rewrite H1, H2, H3, H4, H5, H6, H7, H8, H9. auto.
Qed.
(** For every encoder which escapes each special character and copies the others. *)
Section Enc.
Context (ec : N -> str) (special : N -> bool).
Context (ec_seq : forall c, special c = true -> escape_seq (ec c) c).
Context (ec_plain : forall c, special c = false -> ec c = [c] /\ (c =? 34) = false /\ (c =? 92) = false).
Context (ec_marks : forall c, In c [36; 37; 123] -> special c = false).
Lemma enc_starts ks : forallb (fun k => negb (special k)) ks = true -> forall t r,
  starts_with ks (flat_map ec t ++ 34 :: r) = starts_with ks t.
Proof.
  induction ks as [|k ks IH]; intros Hk t r; [reflexivity|]. cbn [forallb] in Hk. apply andb_true_iff in Hk. destruct Hk as [Hk Hks].
  apply negb_true_iff in Hk. destruct (ec_plain k Hk) as (_ & K1 & K2). destruct t as [|c t].
  - cbn [flat_map app starts_with]. now rewrite K1.
  - cbn [flat_map]. destruct (special c) eqn:E.
    + cbn [starts_with]. destruct (N.eqb_spec k c) as [Ek|Hn]; [congruence|]. cbn [andb].
      assert (X : exists e', ec c = 92 :: e') by (destruct (ec_seq c E); eexists; reflexivity).
      destruct X as (e' & ->). cbn [app]. now rewrite K2.
    + destruct (ec_plain c E) as (-> & _ & _). cbn [app starts_with]. f_equal. now apply IH.
Qed.
Lemma enc_ordinary c t r : special c = false -> ordinary (c :: flat_map ec t ++ 34 :: r) = negb (live_marker (c :: t) || esc_marker (c :: t)).
Proof.
  intros H. destruct (ec_plain c H) as (_ & H1 & H2). cbn [ordinary]. rewrite H1, H2. cbn [orb]. unfold live_marker, esc_marker.
  assert (E : forall a ks, forallb (fun k => negb (special k)) ks = true -> starts_with (a :: ks) (c :: flat_map ec t ++ 34 :: r) = starts_with (a :: ks) (c :: t))
    by (intros a ks Hk; cbn [starts_with]; f_equal; now apply enc_starts).
  change (lit "${") with [36; 123]. change (lit "%{") with [37; 123]. change (lit "$${") with [36; 36; 123]. change (lit "%%{") with [37; 37; 123].
  now rewrite !E by (cbn [forallb]; rewrite !ec_marks by (cbn; auto); reflexivity).
Qed.
Lemma encoded_reads r : forall k t s, (List.length t <= k)%nat -> read_template t = map TChar s -> reads (34 :: r) (flat_map ec t) s.
Proof.
  induction k as [|k IH]; intros t s Hl H.
  { destruct t; [|cbn in Hl; lia]. destruct s; [constructor|discriminate]. }
  destruct t as [|c t]; [destruct s; [constructor|discriminate]|]. cbn [List.length] in Hl.
  assert (Hone : forall s', live_marker (c :: t) || esc_marker (c :: t) = false -> read_template t = map TChar s' ->
                 reads (34 :: r) (flat_map ec (c :: t)) (c :: s')).
  { intros s' Hm Ht. cbn [flat_map]. destruct (special c) eqn:E.
    - apply Reads_escape; [now apply ec_seq|]. apply IH; [lia|exact Ht].
    - pose proof (ec_plain c E) as (-> & _). cbn [app]. apply Reads_char; [|apply IH; [lia|exact Ht]].
      rewrite enc_ordinary, Hm by exact E. reflexivity. }
  cbn [read_template] in H. destruct t as [|c2 t].
  - destruct s as [|c' [|]]; try discriminate. injection H as <-. apply Hone; [|reflexivity].
    unfold live_marker, esc_marker. cbn [lit map list_ascii_of_string starts_with]. rewrite !andb_false_r. reflexivity.
  - destruct (is_mark c && (c2 =? 123)) eqn:E1; [destruct s; discriminate|].
    assert (L : live_marker (c :: c2 :: t) = false).
    { unfold live_marker. change (lit "${") with [36; 123]. change (lit "%{") with [37; 123]. cbn [starts_with]. unfold is_mark in E1.
      rewrite (N.eqb_sym 36), (N.eqb_sym 37), (N.eqb_sym 123), !andb_true_r.
      destruct (c =? 36), (c =? 37), (c2 =? 123); cbn in *; congruence. }
    destruct t as [|c3 t].
    + destruct s as [|c' s]; [discriminate|]. cbn [map] in H. injection H as <- H. apply Hone; [|exact H].
      rewrite L. unfold esc_marker. cbn [lit map list_ascii_of_string starts_with]. rewrite !andb_false_r. reflexivity.
    + destruct (is_mark c && (c2 =? c) && (c3 =? 123)) eqn:E2.
      * destruct s as [|c' [|d s]]; try discriminate. cbn [map] in H. injection H as <- <- H.
        rewrite !andb_true_iff, !N.eqb_eq in E2. destruct E2 as ((M & ->) & ->).
        assert (Hm : c = 36 \/ c = 37) by (unfold is_mark in M; now rewrite orb_true_iff, !N.eqb_eq in M).
        cbn [flat_map]. replace (ec c) with [c] by (symmetry; apply (ec_plain c); destruct Hm as [-> | ->]; apply ec_marks; cbn; auto).
        replace (ec 123) with [123] by (symmetry; apply (ec_plain 123), ec_marks; cbn; auto). cbn [app]. apply Reads_marker; [exact Hm|]. apply IH; [cbn in Hl; lia|exact H].
      * destruct s as [|c' s]; [discriminate|]. cbn [map] in H. injection H as <- H. apply Hone; [|exact H].
        rewrite L. unfold esc_marker. change (lit "$${") with [36; 36; 123]. change (lit "%%{") with [37; 37; 123].
        cbn [starts_with orb]. rewrite !andb_true_r, (N.eqb_sym 123). rewrite (N.eqb_sym 36), (N.eqb_sym 37). unfold is_mark in E2.
        destruct (N.eqb_spec c 36) as [->|]; [|destruct (N.eqb_spec c 37) as [->|]]; cbn [orb andb] in *; try reflexivity;
        rewrite ?(N.eqb_sym 36 c2), ?(N.eqb_sym 37 c2), ?E2; try reflexivity.
Qed.
End Enc.
Lemma quoted_reads r s : escape_ok s = true -> reads (34 :: r) (encode_escaped (escape_markers s)) s.
Proof.
  intros H. apply (encoded_reads escape_char esc_special escape_char_seq escape_char_plain) with (k := List.length (escape_markers s)); [|reflexivity|now apply escape_markers_correct].
  intros c [<-|[<-|[<-|[]]]]; reflexivity.
Qed.
Section Quoted.
Context {inp : str}.
Lemma eat_quoted s r (Q : str -> Prop) : escape_ok s = true -> Q s -> eat inp pstring (quoted s) Q r.
Proof. intros H HQ. unfold quoted. eapply eat_pstring; [now apply quoted_reads|exact HQ]. Qed.
End Quoted.

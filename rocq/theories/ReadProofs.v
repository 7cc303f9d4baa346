(** * Reading printed strings and integers *)
From Coq Require Import NArith ZArith Arith Bool String List Lia.
From Verif Require Import Res Str Dec NumberModel PrimModel PrimProofs EAst EncModel ParseBase ParseModel ParseLemmas Grammar
  ParseTop ParseSpec ParseFacts Eat StrSpec StrProofs EatLeaf EatExpr.
Import ListNotations.
Open Scope N_scope.

Lemma parse_err {A} (p : parser A) (t : str) c s : p (@pair N str 0 t) = PErr c s -> parse p t = ParseError (fst s).
Proof. intros E. unfold parse, bind. now rewrite E. Qed.
Section Read.
Context (u : unicode) (b : build) (pf : str -> f64) (HU : ascii_exact u).
Lemma eat_raw inp (Q : xexpr -> Prop) : @EXPR inp u b pf false inp Q [] -> exists x, raw_expr u b pf inp = Parsed x /\ Q x.
Proof.
  intros H. destruct (EXPR_rec u b pf false inp Q [] (S (length inp)) H ltac:(lia) 0) as (x & E & HQ); [rewrite app_nil_r; apply tail_0|].
  exists x. split; [|exact HQ]. unfold raw_expr, parse_expr_raw, parse, top. rewrite app_nil_r in E. change (mk 0 inp) with (@pair N str 0 inp) in E. unfold bind at 1. rewrite E. reflexivity.
Qed.
Lemma eat_parse inp (Q : xexpr -> Prop) : @EXPR inp u b pf false inp Q [] ->
  exists x, parse_expr u b pf inp = Parsed (x_map (raw_despan inp) leave x) /\ Q x.
Proof. intros H. destruct (eat_raw inp Q H) as (x & E & HQ). destruct (expr_despan_ok u b pf inp x E) as (E' & _). eauto. Qed.

Lemma halt_nil nl : halt nl [].
Proof. destruct nl; reflexivity. Qed.
Lemma start_parse inp (Q : xexpr -> Prop) : @START inp u b pf false inp false Q [] -> stable Q ->
  exists x, parse_expr u b pf inp = Parsed (x_map (raw_despan inp) leave x) /\ Q x.
Proof.
  intros H HS. apply eat_parse. apply (expr_opn u b pf false inp false); [|apply halt_nil]. apply opn_term. apply term_plain; [exact H|exact HS|].
  apply halt_level, halt_nil.
Qed.

Lemma parse_string t v : reads [34] t v -> exists m, parse_expr u b pf ([34] ++ t ++ [34]) = Parsed (XStr m v).
Proof.
  intros H. destruct (start_parse ([34] ++ t ++ [34]) (fun x => exists m, x = XStr m v)) as (x & E & m & ->).
  - intros n _. apply (start_string u b pf (recs_at u b pf pratt_group items_insert n) false v (fun x => exists m, x = XStr m v) t []); eauto.
  - intros f x (m & ->). cbn. eauto.
  - eauto.
Qed.
Lemma parse_quoted s : escape_ok s = true -> exists m, parse_expr u b pf (quoted s) = Parsed (XStr m s).
Proof. intros H. apply parse_string. now apply quoted_reads. Qed.

(** An escaped code point which is not a scalar value is an error. *)
Lemma hexescape_bad n h r o : length h = n -> forallb is_hex h = true -> ~ scalar (hex_value h) -> exists s, hexescape n (mk o (h ++ r)) = PErr false s.
Proof.
  intros Hl Hh Hs. unfold hexescape, verify_map. cbn [snd fst].
  assert (E : firstn n (fst (span is_hex (h ++ r))) = h).
  { subst n. clear Hs. induction h as [|x h IH]; cbn [app length]; [reflexivity|]. cbn [forallb] in Hh. apply andb_true_iff in Hh.
    destruct Hh as [Hx Hh]. cbn [span]. rewrite Hx. specialize (IH Hh). destruct (span is_hex (h ++ r)) as [x1 x2]. cbn [fst firstn] in *. now rewrite IH. }
  rewrite E, Hl, Nat.eqb_refl. destruct (char_from_u32 (hex_value h)) as [d|] eqn:Ec; [|eauto]. exfalso. apply Hs. now apply (scalar_only _ d).
Qed.
Lemma parse_bad_escape k n h : (k = 117 /\ n = 4%nat) \/ (k = 85 /\ n = 8%nat) -> length h = n -> forallb is_hex h = true -> ~ scalar (hex_value h) ->
  exists o, parse_expr u b pf ([34; 92; k] ++ h ++ [34]) = ParseError o.
Proof.
  intros Hk Hl Hh Hs. set (t := [34; 92; k] ++ h ++ [34]). unfold parse_expr, parse_expr_with, finish.
  assert (E : exists s', r_expr (top u b pf pratt_group items_insert t) false (mk 0 t) = PErr true s').
  2: { destruct E as (s' & E). change (mk 0 t) with (@pair N str 0 t) in E. exists (fst s'). unfold parse_expr_raw. now rewrite (parse_err _ _ _ _ E). }
  assert (EF : exists s', quoted_string_fragment (mk 1 ([92; k] ++ h ++ [34])) = PErr true s').
  { unfold quoted_string_fragment, alt. assert (HO : ordinary ([92; k] ++ h ++ [34]) = false) by reflexivity.
    assert (Ht : tail_at t 1 ([92; k] ++ h ++ [34])) by (exists [34]; split; reflexivity).
    destruct (@miss_escaped_marker t ([92; k] ++ h ++ [34]) eq_refl 1 Ht) as (s1 & ->).
    destruct (@miss_string_literal t ([92; k] ++ h ++ [34]) HO 1 Ht) as (s2 & ->).
    destruct (hexescape_bad n h [34] 3 Hl Hh Hs) as (s3 & E3). exists s3. unfold escaped_char, pmap, bind, char, one_of, any, cut. cbn [app snd fst N.eqb Pos.eqb].
    destruct Hk as [(-> & ->) | (-> & ->)]; cbn [N.eqb Pos.eqb]; match goal with |- context [hexescape _ ?s] => change s with (mk 3 (h ++ [34])) end; rewrite E3; reflexivity. }
  destruct EF as (s' & EF). exists s'.
  assert (ES : pstring (mk 0 t) = PErr true s').
  { unfold pstring, bind at 1. change (char 34 (mk 0 t)) with (POk 34 (mk 1 ([92; k] ++ h ++ [34]))). cbv iota beta. unfold bind at 1, opt, build_string, bind at 1. now rewrite EF. }
  unfold top. cbn [recs_at unroll r_expr]. unfold pexpr, bind at 1, pos. cbv iota beta.
  set (R := recs_at u b pf pratt_group items_insert (length t)).
  assert (ET : expr_term u b pf items_insert R false (mk 0 t) = PErr true s').
  { unfold expr_term, bind at 1, pos. cbv iota beta. unfold bind at 1, with_span, term_start, bind at 1.
    change (peek any (mk 0 t)) with (POk 34 (mk 0 t)). cbv iota beta. cbn [N.eqb Pos.eqb]. unfold pmap at 1, bind at 1, stringlike, alt, pmap at 1, bind at 1. now rewrite ES. }
  unfold bind. now rewrite ET.
Qed.

Lemma parse_digits t : forallb is_digit t = true -> t <> [] -> (Z.of_N (digits_val t) <= u64_max)%Z ->
  exists m, parse_expr u b pf t = Parsed (XNum m (PosInt (Z.of_N (digits_val t))) (Some (RText t))).
Proof.
  intros H1 H2 H3. set (n := PosInt (Z.of_N (digits_val t))).
  destruct (start_parse t (fun x => exists m, x = XNum m n (Some (raw_of_str t)))) as (x & E & m & ->).
  - intros k _. apply (start_number u b pf _ false t n (fun x => exists m, x = XNum m n (Some (raw_of_str t))) []); eauto; [left; auto|exact (conj I I)|exact I].
  - intros f x (m & ->). cbn. eauto.
  - rewrite E. destruct t as [|c t]; [congruence|]. cbn. eauto.
Qed.
Lemma parse_neg_digits t n : forallb is_digit t = true -> t <> [] -> (Z.of_N (digits_val t) <= u64_max)%Z -> num_neg b (PosInt (Z.of_N (digits_val t))) = Done n ->
  exists m, parse_expr u b pf ([45] ++ t) = Parsed (XNum m n (Some (RText ([45] ++ t)))).
Proof.
  intros H1 H2 H3 H4.
  destruct (start_parse ([45] ++ t) (fun x => exists m, x = XNum m n (Some (raw_of_str ([45] ++ t))))) as (x & E & m & ->).
  - intros k _. apply (start_negative u b pf _ false [] t (PosInt (Z.of_N (digits_val t))) n (fun x => exists m, x = XNum m n (Some (raw_of_str ([45] ++ t)))) []); eauto; [left; auto|exact (conj I I)|exact I].
  - intros f x (m & ->). cbn. eauto.
  - rewrite E. cbn. eauto.
Qed.
Lemma parse_big t : forallb is_digit t = true -> (u64_max < Z.of_N (digits_val t))%Z -> exists o, parse_expr u b pf t = ParseError o.
Proof.
  intros H1 H2. assert (Hn : t <> []) by (intros ->; cbn in H2; unfold u64_max in H2; lia).
  unfold parse_expr, parse_expr_with, finish.
  assert (E : exists s', r_expr (top u b pf pratt_group items_insert t) false (mk 0 t) = PErr false s').
  2: { destruct E as (s' & E). change (mk 0 t) with (@pair N str 0 t) in E. exists (fst s'). unfold parse_expr_raw. now rewrite (parse_err _ _ _ _ E). }
  unfold top. cbn [recs_at unroll r_expr].
  assert (M : miss t (pexpr u b pf pratt_group items_insert (recs_at u b pf pratt_group items_insert (length t)) false) t).
  2: { apply M. apply tail_0. }
  unfold pexpr. apply (miss_bind2 pos _ [] EatLeaf.T t); [now apply eat_pos|]. intros o _. apply miss_bind1. unfold expr_term.
  apply (miss_bind2 pos _ [] EatLeaf.T t); [now apply eat_pos|]. intros o' _. apply miss_bind1, miss_with_span.
  assert (MN : miss t (number b pf) t).
  { unfold number. pose proof (digits_ends_exp (inp := t) pf t [] H1 Hn (conj I I) I) as MF. rewrite app_nil_r in MF. apply miss_alt.
    - intros k Tk. destruct (MF k Tk) as (s' & ->). eauto.
    - apply miss_pmap. unfold integer. rewrite <- (app_nil_r t) at 2. apply miss_verify_map2. eapply eat_imp; [apply (eat_take_while1 is_digit t (eq t)); auto; exact I|].
      intros a <-. cbv beta zeta. destruct (Z.leb_spec (Z.of_N (digits_val t)) u64_max); [lia|reflexivity]. }
  destruct t as [|c t]; [congruence|]. cbn [forallb] in H1. apply andb_true_iff in H1. destruct H1 as [Hc _].
  unfold term_start. apply (miss_bind2 (peek any) _ [] (eq c) (c :: t)); [apply (eat_peek any [c]); now apply eat_any|]. intros a <-.
  assert (L : forall q, is_digit q = false -> (c =? q) = false) by (intros q Hq; destruct (N.eqb_spec c q); [congruence|reflexivity]).
  rewrite !L by reflexivity. rewrite Hc. apply miss_pmap. unfold number_expr. apply miss_bind1, miss_with_taken, MN.
Qed.
End Read.

(** * Names, and what is read before anything else: lemmas about the parser *)
From Coq Require Import NArith ZArith Arith Bool String List Lia.
From Verif Require Import Res Str Dec NumberModel PrimModel PrimProofs EAst.
From Verif Require Import ParseBase ParseModel ParseLemmas ParseSpec ParseFacts Eat EatLeaf EatExpr EatColl ReadProofs.
Import ListNotations.
Open Scope N_scope.

Lemma seqb_lit x y : existsb (seqb x) y = false -> forall z, In z y -> seqb x z = false.
Proof. intros H z Hz. destruct (seqb x z) eqn:E; [|reflexivity]. rewrite <- H. symmetry. apply existsb_exists. eauto. Qed.
(** A word without a meaning of its own is a variable. *)
Lemma keyword_var x : existsb (seqb x) [lit "null"; lit "true"; lit "false"; lit "for"] = false -> keyword x = XVar no_meta x.
Proof. intros H. unfold keyword. pose proof (seqb_lit _ _ H) as L. rewrite !L by (cbn [In]; auto). reflexivity. Qed.

Section Names.
Context {inp : str} (u : unicode) (HU : ascii_exact u).
Notation idc := (is_id_continue u).
Lemma ident_letters x : forallb is_ascii_letter x = true -> x <> [] -> is_ident u x = true.
Proof.
  assert (HL : forall y, is_ascii_letter y = true -> y < 128) by (intros y; unfold is_ascii_letter; rewrite orb_true_iff, !andb_true_iff, !N.leb_le; lia).
  destruct x as [|y x]; [congruence|]. cbn [forallb is_ident]. rewrite !andb_true_iff, !forallb_forall. intros [Hy Hx] _. split.
  - unfold is_id_start. destruct (HU y (HL y Hy)) as [-> _]. now rewrite Hy.
  - intros z Hz. apply (cont_letter u HU); auto.
Qed.
Lemma opens_word x : is_ident u x = true -> x <> lit "for" -> opens u x.
Proof. intros H1 H2. rewrite <- (app_nil_r x). now apply opens_id. Qed.
Lemma eat_name (A : Type) x t (K : str * bspan -> parser A) (Q : A -> Prop) rest : is_ident u x = true -> ends idc (t ++ rest) ->
  (forall sp, eat inp (K (x, sp)) t Q rest) ->
  eat inp (ParseBase.bind (peek (one_of (is_id_start u))) (fun _ => ParseBase.bind (with_span (cut (str_ident u))) K)) (x ++ t) Q rest.
Proof.
  intros Hx Hs HK. apply (eat_bind' _ _ _ [] (x ++ t) EatLeaf.T); [reflexivity| |intros _ _].
  - destruct x as [|a x]; [discriminate|]. cbn [is_ident] in Hx. apply andb_true_iff in Hx. change (((a :: x) ++ t) ++ rest) with ([a] ++ (x ++ t) ++ rest). apply eat_peek. now apply eat_one_of.
  - apply (eat_bind _ _ x t (fun p => exists sp, p = (x, sp))).
    + apply eat_with_span, eat_cut. apply eat_str_ident; [exact Hx|exact Hs|]. eauto.
    + intros p (sp' & ->). apply HK.
Qed.
Lemma not_start : is_id_start u 125 = false.
Proof. apply not_true_iff_false. intros E. pose proof (id_start_not u HU 125 125 E). now discriminate H. Qed.
Lemma miss_ident r : ends (is_id_start u) r -> miss inp (str_ident u) r.
Proof. intros H. unfold str_ident. now apply miss_taken, miss_bind1, miss_one_of. Qed.
Lemma miss_spanned {A} (upd : (meta -> meta) -> A -> A) (p : parser A) r : miss inp p r -> miss inp (spanned upd p) r.
Proof. intros H. unfold spanned. now apply miss_bind1, miss_with_span. Qed.
End Names.

(** A body is read from the whole text. *)
Lemma eat_parse_body u b pf inp (Q : xbody -> Prop) : (forall n, (length inp <= n)%nat -> eat inp (pbody u (recs_at u b pf pratt_group items_insert n)) inp Q []) ->
  exists x, parse_body u b pf inp = Parsed (body_map (raw_despan inp) leave x) /\ Q x.
Proof.
  intros H. destruct (H (length inp) ltac:(lia) 0) as (x & E & HQ); [rewrite app_nil_r; apply tail_0|]. rewrite app_nil_r in E.
  exists x. split; [|exact HQ]. apply (body_despan_ok u b pf inp x). unfold raw_body, parse_body_raw, parse, top. cbn [recs_at unroll r_body]. change (mk 0 inp) with (@pair N str 0 inp) in E. unfold ParseBase.bind at 1. rewrite E. reflexivity.
Qed.

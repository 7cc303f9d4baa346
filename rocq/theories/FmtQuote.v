(** * Quoted templates and heredocs of formatted expressions are read back: proofs *)
From Coq Require Import NArith ZArith Arith Bool String List Lia.
From Verif Require Import Res Str Dec NumberModel PrimModel PrimProofs Ast EAst EAstInd DedentModel EncModel EqSpec EqProofs PrattSpec.
From Verif Require Import ConvModel FmtModel FmtSpec ParseBase ParseModel ParseSpec ParseLemmas Eat EatLeaf EatExpr.
From Verif Require Import BackSpec SameSpec BackEq BackTpl BackProofs BackAll BackPrint.
From Verif Require FmtReadSpec DedentSpec DedentProofs.
Import ListNotations.
Open Scope N_scope.

Section Quote.
Context {inp : str} (u : unicode) (b : build) (pf : str -> f64) (sf : f64 -> str) (c : cfg).
Context (HU : ascii_exact u) (HI : forallb is_space (c_indent c) = true).
Notation D := (raw_despan inp).
Notation DX := (x_map D leave).
Notation DE := (elem_map D leave).
Notation START := (@START inp u b pf).

(** The text of elements which are the same but for their formatting. *)
Lemma tpl_string_read es xs s q : lall (elem_ok u b pf sf q) es -> map bare_elem (map DE xs) = map bare_elem es ->
  flat_map (elem_text sf false) (map DE xs) = flat_map (elem_text sf false) es -> show_tpl sf (XTempl es None) = s -> tpl_string sf (map DE xs) = s.
Proof.
  intros HO EB ET <-. unfold tpl_string, show_tpl. pose proof (elems_even u b pf sf es q HO) as HE.
  rewrite (even_template sf (map DE xs)) by (eapply elems_same; eauto). rewrite (even_template sf es) by exact HE. cbn [fst]. exact ET.
Qed.
Lemma ends_break t : ends_nl (t ++ [10]) = true.
Proof. unfold ends_nl. rewrite rev_unit. reflexivity. Qed.

(** ** Dedenting *)
Definition shape {E} (t : tel E) : option str := match t with TLit s => Some s | TOther _ => None end.
Lemma measure_shape {E F} (t : list (tel E)) : forall (t' : list (tel F)) skip i, map shape t = map shape t' -> dedent_measure skip i t = dedent_measure skip i t'.
Proof.
  induction t as [|[s|e] t IH]; intros [|[s'|e'] t'] skip i H; try discriminate; [reflexivity| |]; cbn in H.
  - injection H as <- H. cbn. now apply IH.
  - injection H as H. cbn. destruct skip; auto.
Qed.
Definition view (e : xelem) : tel xelem := match e with XLit _ s => TLit s | e => TOther e end.
Lemma shape_view es : map shape (map view es) = map shape (map to_tel es).
Proof. rewrite !map_map. apply map_ext. now intros []. Qed.
Lemma shape_bare es : map shape (map view (map bare_elem es)) = map shape (map view es).
Proof. rewrite !map_map. apply map_ext. now intros []. Qed.
Lemma shape_despan es : map shape (map view (map DE es)) = map shape (map view es).
Proof. rewrite !map_map. apply map_ext. now intros []. Qed.
Lemma put_same es : put_lits es (map to_tel es) = es.
Proof. induction es as [|[] es IH]; cbn [map to_tel put_lits]; congruence. Qed.
Lemma undedented es xs : FmtReadSpec.unindented es -> map bare_elem (map DE xs) = map bare_elem es -> tpl_dedent xs = (xs, None).
Proof.
  intros (HW & H) HB. change (DedentSpec.wf_template false (map view es)) in HW.
  assert (HD : dedent (map view es) = (map view es, None)).
  { destruct H as [(s & Es & H)|[H|(v1 & e & v2 & E & H)]].
    - change (map view es = [TLit s]) in Es. change (In 0%nat (DedentSpec.indentations (DedentSpec.symbols (map view es)))) in H.
      rewrite Es in *. destruct HW as (_ & H1 & H2 & _). now apply DedentProofs.dedent_single_zero.
    - now apply DedentProofs.dedent_flat.
    - eapply DedentProofs.dedent_element; eauto. }
  assert (HS : map shape (map view es) = map shape (map to_tel xs)).
  { rewrite <- shape_bare, <- HB, shape_bare, shape_despan. apply shape_view. }
  unfold tpl_dedent, dedent in *. rewrite <- (measure_shape _ _ false None HS). clear HS.
  destruct (dedent_measure false None (map view es)) as [[]|[n|]]; [now rewrite put_same|discriminate|now rewrite put_same].
Qed.

(** ** Templates and heredocs *)
Lemma heredoc_text es d s : ok u b pf sf false false false (XHeredoc no_meta d (XTempl es None) None REmpty) -> show_tpl sf (XTempl es None) = s ->
  s = flat_map (elem_text sf false) es /\ ends_nl s = true.
Proof.
  intros HO E.
  assert (ET : exists s', flat_map (elem_text sf false) es = s' ++ [10]).
  { destruct HO as (_ & _ & _ & _ & _ & _ & _ & es0 & sp0 & s0 & le & -> & HB & _).
    rewrite flat_map_app. cbn [flat_map]. rewrite app_nil_r. change (elem_text sf false (XLit sp0 (s0 ++ le))) with (escape_markers (s0 ++ le)).
    destruct HB as [[-> _]| ->].
    - rewrite escape_break by now left. eexists. now rewrite app_assoc.
    - rewrite escape_break by now right. exists (flat_map (elem_text sf false) es0 ++ escape_markers s0 ++ [13]). now rewrite <- !app_assoc. }
  assert (HL : lall (elem_ok u b pf sf false) es) by apply HO.
  assert (EE : s = flat_map (elem_text sf false) es) by (rewrite <- E; unfold show_tpl; now rewrite (print_tpl u b pf sf es None HL)).
  split; [exact EE|]. destruct ET as [s' ET]. rewrite EE, ET. apply ends_break.
Qed.
Definition closing_indent (n : nat) (m : hdmode) : str := match m with HdNone => [] | HdIndent => pad c n end.
Lemma closing_text n m d : is_ident u d = true -> match m with HdNone => d | HdIndent => indented c n d end = closing_indent n m ++ d.
Proof.
  intros Hd. destruct m; [reflexivity|]. cbn [closing_indent].
  assert (HN : forall x, In x d -> is_lf x = false).
  { destruct (HU 10) as [U1 U2]; [lia|]. assert (A1 : is_id_start u 10 = false) by (unfold is_id_start; now rewrite U1).
    assert (A2 : is_id_continue u 10 = false) by (unfold is_id_continue; now rewrite U2).
    intros x Hx. unfold is_lf, LF. destruct (N.eqb_spec x 10) as [->|]; [exfalso|reflexivity]. clear -Hd Hx A1 A2.
    destruct d as [|y t]; [exact Hx|]. cbn [is_ident] in Hd. apply andb_true_iff in Hd. destruct Hd as [D1 D2]. rewrite forallb_forall in D2.
    destruct Hx as [->|Hx]; [|specialize (D2 _ Hx)]; congruence. }
  assert (NE : d <> []) by (intros ->; discriminate Hd).
  assert (HL : lines d = [d]).
  { unfold lines. rewrite <- (app_nil_r d) at 1. rewrite DedentProofs.split_one by assumption. cbn [split_incl map]. now rewrite DedentProofs.chomp_noeol. }
  unfold indented. rewrite HL, (DedentProofs.ends_nl_noeol d HN). cbn [flat_map]. now rewrite !app_nil_r.
Qed.
Lemma closing_space n m : forallb is_space (closing_indent n m) = true.
Proof. destruct m; [reflexivity|]. cbn [closing_indent]. unfold pad. induction n as [|n IH]; [reflexivity|]. cbn [repeat concat]. now rewrite forallb_app, HI, IH. Qed.
Lemma raw_text s : raw_enc (raw_of_str s) [] = s.
Proof. now destruct s. Qed.
Lemma tpl_reads t n h (K : xexpr -> Prop) rest : FmtReadSpec.tplexpr_readable u b pf sf t -> ends (is_id_continue u) rest ->
  (forall x, of_edit sf (DX x) = FmtReadSpec.as_read u c (ETpl t) -> K x) -> START h (tplexpr_text c n t) h K rest.
Proof.
  intros HR He HK. revert HR He. destruct t as [s|d s m]; cbn [FmtReadSpec.tplexpr_readable].
  - intros (es & HO & HS & E1 & E2) _. pose proof (print_expr u b pf sf _ _ _ false HO eq_refl) as EP.
    destruct HO as (H1 & H2 & H3 & H4 & _).
    assert (EX : show_expr sf (XTpl no_meta es) = fst (x_core sf (XTpl no_meta es) false)).
    { unfold show_expr, x_enc, xdec, deco. change (m_decor (x_meta (XTpl no_meta es))) with (m_decor no_meta). change (enc_prefix (m_decor no_meta) (fst NO)) with (@nil N). change (enc_suffix (m_decor no_meta) (snd NO)) with (@nil N). unfold cat, wr. destruct (x_core sf (XTpl no_meta es) false) as [t c']. cbn [fst app]. apply app_nil_r. }
    rewrite EX, EP in E1. cbn [fst] in E1. cbn [tplexpr_text]. change (fraw s) with ([34] ++ s ++ [34]). rewrite <- E1.
    change (x_text sf false (XTpl no_meta es)) with ([34] ++ flat_map (elem_text sf true) es ++ [34]).
    change (lall (elem_ok u b pf sf true) es) in H1. apply (quoted_start u b pf sf); auto using all_PE. intros xs [EB ET]. apply HK. change (ETpl (QuotedString (tpl_string sf (map DE xs))) = ETpl (QuotedString s)).
    do 2 f_equal. exact (tpl_string_read es xs s true H1 EB (ET HS false) E2).
  - intros (es & HO & HS & E & HM) Hr. destruct (heredoc_text es d s HO E) as [EE EN].
    assert (HL : lall (elem_ok u b pf sf false) es) by apply HO.
    assert (Hd : is_ident u d = true) by apply HO.
    set (ind := match m with HdNone => false | HdIndent => true end). set (w := closing_indent n m).
    assert (Hw : forallb is_space w = true) by apply closing_space.
    assert (HO' : ok u b pf sf false h h (XHeredoc no_meta d (XTempl es None) None (raw_of_str w))).
    { destruct HO as (O1 & O2 & O3 & O4 & O5 & O6). split; [exact O1|]. split; [exact O2|]. split; [exact O3|]. split; [|split; [|exact O6]]; unfold clean; now rewrite raw_text. }
    assert (EX : tplexpr_text c n (Heredoc d s m) = lit "<<" ++ dash ind ++ d ++ [10] ++ flat_map (elem_text sf false) es ++ raw_enc (raw_of_str w) [] ++ d).
    { transitivity (strip_str m ++ d ++ [10] ++ s ++ [] ++ closing_indent n m ++ d); [rewrite <- (closing_text n m d Hd); cbn [tplexpr_text]; now rewrite EN|].
      rewrite <- EE, raw_text. destruct m; reflexivity. }
    rewrite EX. refine (heredoc_start u b pf sf HU ind no_meta d es None None (raw_of_str w) false h h _ rest (all_PE u b pf sf HU es) HO' Hr _). intros xs sp' tr' [EB EQ] _. apply HK.
    assert (ED : (if ind then tpl_dedent xs else (xs, None)) = (xs, None)) by (destruct m; [reflexivity|exact (undedented es xs HM EB)]). rewrite ED.
    change (ETpl (Heredoc d (tpl_string sf (map DE xs)) HdNone) = ETpl (Heredoc d s HdNone)). do 2 f_equal. exact (tpl_string_read es xs s false HL EB (EQ HS false) E).
Qed.

End Quote.

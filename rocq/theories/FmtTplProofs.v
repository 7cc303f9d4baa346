(** * Formatted templates are read back: proofs *)
From Coq Require Import NArith ZArith Arith Bool String List Lia.
From Verif Require Import Res Str Dec NumberModel PrimModel PrimProofs Ast AstInd EAst EqSpec.
From Verif Require Import ConvModel ConvSpec ConvProofs PrattSpec FmtModel FmtSpec FmtLayout.
From Verif Require Import ParseBase ParseModel ParseLemmas Eat StrSpec StrProofs EatLeaf EatExpr EatColl ReadProofs ParseFacts.
From Verif Require Import ParseSpec FmtReadSpec FmtReadProofs FmtTplSpec.
From Verif Require BackSpec BackStr BackAll.
From Verif Require Import BackLex BackExpr BackColl BackTpl.
Import ListNotations.
Open Scope N_scope.

Section Tpl.
Context {inp : str} (u : unicode) (b : build) (pf : str -> f64) (sf : f64 -> str) (c : cfg).
Context (HU : ascii_exact u) (HI : forallb is_space (c_indent c) = true).
Notation idc := (is_id_continue u).
Notation EXPR := (@EXPR inp u b pf).
Notation CTRL := (@CTRL inp u b pf).
Notation TPL := (@TPL inp u b pf).
Notation R := (as_read u c).
Notation Re := (elem_as_read u c).
Notation show := (show u sf c).
Notation show_elem := (show_elem u sf c).
Notation readable := (FmtReadSpec.readable u b pf sf c).
Notation elem_readable := (elem_readable u b pf sf c).
Notation Q := (@Q inp u sf c).
Notation tlit := (build_string (template_string_fragment marker_start)).

Lemma shutter_ctx (s : strip) w nl (g : bool) r : FmtReadProofs.ctx u stop w nl ((if g then [32] else []) ++ shutter s ++ r).
Proof.
  apply (ctx_const u _ _ _ _ (shutter s ++ r)).
  - destruct g; [now apply (not_cont u HU)|]. unfold shutter. destruct (strip_end s); now apply (not_cont u HU).
  - destruct g; [exact I|]. unfold shutter. destruct (strip_end s); exact I.
  - intros m. destruct g; cbn [app]; [rewrite skip_space|]; unfold shutter; destruct (strip_end s); cbn [app]; now rewrite skip_stay.
  - unfold shutter. destruct (strip_end s), r; reflexivity.
  - unfold shutter. destruct (strip_end s); reflexivity.
Qed.
Lemma gap_1 : Gap true [32]. Proof. constructor; [reflexivity|constructor]. Qed.

(** ** Elements *)
Notation D := (raw_despan inp).
Notation DX := (x_map D leave).
Notation DE := (elem_map D leave).
Definition Qel (e : elem) (x : xelem) : Prop := of_elem sf (DE x) = Re e.
Definition Qes (es : list elem) (xs : list xelem) : Prop := map (of_elem sf) (map DE xs) = map Re es.
Definition is_lit (e : elem) : bool := match e with ElLit _ => true | _ => false end.
Definition spec_of (k : bool) (n : nat) (e : elem) : spec := match e with ElLit s => SLit (escape_markers s) s | e => SCtl (show_elem k n e) (Qel e) end.
Lemma stexts_of k n es : stexts (map (spec_of k n) es) = concat (map (show_elem k n) es).
Proof. induction es as [|e es IH]; [reflexivity|]. cbn [map concat]. unfold stexts in *. cbn [flat_map]. rewrite IH. now destruct e. Qed.
Lemma fits_Qel k n e x : fits (spec_of k n e) x -> Qel e x.
Proof.
  assert (H : forall sp y, Qel e y -> Qel e (elem_set_span sp y)).
  { intros sp y H. destruct y; exact H. }
  destruct e as [s|e' s|a t f s1 s2 s3|kv vv coll t s1 s2]; cbn [spec_of fits]; [intros [sp ->]; reflexivity| | |]; intros (sp & y & -> & HQ); now apply H.
Qed.
Lemma fits_Qes k n es : forall xs, Forall2 fits (map (spec_of k n) es) xs -> Qes es xs.
Proof.
  induction es as [|e es IH]; intros xs H; inversion H as [|? x ? xs' H1 H2]; subst; [reflexivity|].
  unfold Qes. cbn [map]. rewrite (fits_Qel _ _ _ _ H1). f_equal. exact (IH _ H2).
Qed.
Definition PE (e : elem) : Prop := elem_readable e -> is_lit e = false -> forall k n,
  live_marker (show_elem k n e) = true /\ hd 0 (show_elem k n e) = sign_of 0 [e] /\ forall rest, CTRL (show_elem k n e) (Qel e) rest.
Lemma readable_elems k n es z rest : (rest = [] /\ z = 0) \/ (live_marker rest = true /\ hd 0 rest = z) -> Forall PE es -> lall elem_readable es -> literals_ok z es ->
  BackTpl.readable u b pf (inp := inp) tlit (map (spec_of k n) es) rest.
Proof.
  intros HZ HP HO HL. induction es as [|e es IH]; [exact I|]. cbn [map BackTpl.readable]. inversion HP as [|? ? P1 P2]; subst. destruct HO as [O1 O2].
  assert (L2 : literals_ok z es) by (destruct e; [apply HL|exact HL|exact HL|exact HL]). split; [|now apply IH]. destruct (is_lit e) eqn:El.
  - destruct e as [s| | |]; try discriminate. cbn [spec_of]. destruct HL as (L3 & L4 & L5 & L6 & _). rewrite stexts_of.
    apply (BackAll.plain_literal false z rest s (sign_of z es)); auto.
    + destruct HZ as [[HZ _]|HZ]; auto.
    + discriminate.
    + destruct es as [|e es]; [left; auto|]. right. inversion P2 as [|? ? P3 P4]; subst. destruct O2 as [O2 _].
      assert (Hl : is_lit e = false) by now destruct e. destruct (P3 O2 Hl k n) as (E1 & E2 & _). cbn [map concat]. rewrite <- app_assoc. split; [now apply live_app|].
      destruct (show_elem k n e); [discriminate|]. cbn [hd app] in *. rewrite E2. now destruct e.
  - destruct (P1 O1 El k n) as (E1 & _ & E3). destruct e; try discriminate; cbn [spec_of]; auto.
Qed.
Definition part_readable (t : list elem) : Prop := lall elem_readable t /\ literals_ok 37 t.
Lemma part_read k n t rest : Forall PE t -> part_readable t -> enders rest -> TPL (concat (map (show_elem k n) t)) (Qes t) rest.
Proof.
  intros HP [H1 H2] He. rewrite <- stexts_of. apply back_template; [now left| |intros xs; apply fits_Qes]. apply (readable_elems k n t 37); auto. right. now apply BackAll.escape_enders.
Qed.
Lemma interp_eq s t : interp_text s t = BackSpec.strip_text (lit "${") s ([] ++ t ++ []).
Proof. unfold interp_text, strip_text, BackSpec.strip_text. cbn [app]. rewrite app_nil_r, <- !app_assoc. reflexivity. Qed.
Lemma directive_eq s t : directive_text s t = BackSpec.strip_text (lit "%{") s ([32] ++ t ++ [32]).
Proof. unfold directive_text, strip_text, BackSpec.strip_text. lits. cbn [app]. repeat (rewrite <- !app_assoc; cbn [app]). reflexivity. Qed.
Lemma word_eq s w : directive_text s w = word_text s [32] w [32].
Proof. apply directive_eq. Qed.

Lemma PE_interp e s : PE (ElInterp e s).
Proof.
  intros HR _ k n. cbn [FmtTplSpec.elem_readable] in HR. change (show_elem k n (ElInterp e s)) with (interp_text s (show k n e)). rewrite interp_eq.
  destruct (BackAll.strip_head (lit "${") s ([] ++ show k n e ++ []) eq_refl eq_refl) as (E1 & E2). split; [exact E1|]. split; [exact E2|]. intros rest.
  apply (back_interp u b pf HU s [] (show k n e) [] (Q e)).
  - constructor.
  - constructor.
  - now apply (show_opens u b pf sf c HU).
  - apply Q_stable.
  - apply (expr_read u b pf sf c HU HI); [exact HR|]. apply (shutter_ctx s _ _ false).
  - intros sp x [[_ H2] _]. change (ElInterp (of_edit sf (DX x)) s = ElInterp (R e) s). now rewrite H2.
Qed.
Lemma else_of el : option_map (of_else sf) el = match el with Some (XElse _ _ t _) => Some (of_tpl sf t) | None => None end.
Proof. now destruct el as [[]|]. Qed.
Lemma PE_if a t f s1 s2 s3 : Forall PE t -> opt_all (Forall PE) f -> PE (ElIf a t f s1 s2 s3).
Proof.
  intros IHt IHf (HA & HT & HF) _ k n. set (o := option_map (fun t => (s2, [32], [32], concat (map (show_elem k n) t)) : gelse) f).
  assert (EX : show_elem k n (ElIf a t f s1 s2 s3) = BackSpec.strip_text (lit "%{") s1 ([32] ++ lit "if" ++ [32] ++ show k n a ++ [32]) ++ concat (map (show_elem k n) t) ++ gelse_text o ++ word_text s3 [32] (lit "endif") [32]).
  { cbn [FmtSpec.show_elem]. rewrite directive_eq, !word_eq. unfold o. destruct f; reflexivity. }
  rewrite EX. clear EX. destruct (BackAll.strip_head (lit "%{") s1 ([32] ++ lit "if" ++ [32] ++ show k n a ++ [32]) eq_refl eq_refl) as (E1 & E2).
  destruct (BackAll.app_live _ (concat (map (show_elem k n) t) ++ gelse_text o ++ word_text s3 [32] (lit "endif") [32]) (conj E1 E2)) as (E3 & E4).
  split; [exact E3|]. split; [exact E4|]. intros rest.
  apply (back_if u b pf HU s1 [32] [32] (show k n a) [32] (Q a) _ (Qes t) o (match f with Some t => Qes t | None => fun _ => False end)); auto using gap_1.
  - now apply (show_opens u b pf sf c HU).
  - apply Q_stable.
  - intros r. apply (expr_read u b pf sf c HU HI); [exact HA|]. apply (shutter_ctx s1 _ _ true).
  - intros r Hr. now apply part_read.
  - unfold o. destruct f as [t'|]; [|exact I]. cbn. split; [apply gap_1|]. split; [apply gap_1|]. intros r Hr. now apply part_read.
  - intros rp x ts sp el ra rz _ [[_ A2] _] B2 HE _ _. set (el' := option_map (else_map D leave) el).
    assert (HE' : option_map (of_else sf) el' = option_map (map Re) f /\ match el' with Some (XElse _ _ _ s) => s | None => StripNone end = s2).
    { unfold o in HE. destruct f as [t'|], el as [[ra' rz' t'' s'']|]; cbn in HE; try contradiction; [|subst s2; repeat split].
      destruct HE as (_ & _ & -> & (es & sp' & -> & C2)). split; [|reflexivity]. change (Some (map (of_elem sf) (map DE es)) = Some (map Re t')). now rewrite C2. }
    destruct HE' as (C2 & C3).
    change (ElIf (of_edit sf (DX x)) (map (of_elem sf) (map DE ts)) (option_map (of_else sf) el') s1 (match el' with Some (XElse _ _ _ s) => s | None => StripNone end) s3 = Re (ElIf a t f s1 s2 s3)).
    rewrite A2, C2, C3. unfold Qes in B2. rewrite B2. reflexivity.
Qed.
Lemma PE_for kv vv coll t s1 s2 : Forall PE t -> PE (ElFor kv vv coll t s1 s2).
Proof.
  intros IHt (HK & HV & HC & HT) _ k n. set (ki := option_map (fun x => ([32], x, []) : gid) kv). set (vi := ([32], vv, [32]) : gid).
  assert (EX : show_elem k n (ElFor kv vv coll t s1 s2) = BackSpec.strip_text (lit "%{") s1 ([32] ++ lit "for" ++ loop_text ki vi ([32] ++ show k n coll ++ [32])) ++ concat (map (show_elem k n) t) ++ word_text s2 [32] (lit "endfor") [32]).
  { cbn [FmtSpec.show_elem]. rewrite directive_eq, word_eq. f_equal. f_equal. unfold ki, vi, loop_text. destruct kv; cbn [option_map opt_gid gid_text fst snd]; unfold gid_text; cbn [fst snd]; lits; cbn [app]; rewrite <- ?app_assoc; cbn [app]; rewrite <- ?app_assoc; reflexivity. }
  rewrite EX. clear EX. destruct (BackAll.strip_head (lit "%{") s1 ([32] ++ lit "for" ++ loop_text ki vi ([32] ++ show k n coll ++ [32])) eq_refl eq_refl) as (E1 & E2).
  destruct (BackAll.app_live _ (concat (map (show_elem k n) t) ++ word_text s2 [32] (lit "endfor") [32]) (conj E1 E2)) as (E3 & E4).
  split; [exact E3|]. split; [exact E4|]. intros rest.
  apply (back_ford u b pf HU s1 [32] ki vi [32] (show k n coll) [32] (Q coll) _ (Qes t)); auto using gap_1.
  - unfold ki. destruct kv as [x|]; [|exact I]. cbn. split; [apply gap_1|]. split; [exact HK|constructor].
  - unfold vi. split; [apply gap_1|]. split; [exact HV|apply gap_1].
  - discriminate.
  - now apply (show_opens u b pf sf c HU).
  - apply Q_stable.
  - intros r. apply (expr_read u b pf sf c HU HI); [exact HC|]. apply (shutter_ctx s1 _ _ true).
  - intros r Hr. now apply part_read.
  - intros rp kv' vv' x ts sp ra rz _ [F1 [F2 _]] [[_ A2] _] B2 _ _.
    assert (K1 : option_map i_name kv' = kv) by (unfold ki in F1; destruct kv, kv'; cbn in F1; try contradiction; [|reflexivity]; destruct F1 as [F1 _]; cbn in *; congruence). cbn in F2.
    change (ElFor (option_map i_name (option_map (did_map D) kv')) (i_name vv') (of_edit sf (DX x)) (map (of_elem sf) (map DE ts)) s1 s2 = Re (ElFor kv vv coll t s1 s2)).
    unfold Qes in B2. rewrite A2, B2, F2. replace (option_map i_name (option_map (did_map D) kv')) with kv; [reflexivity|]. rewrite <- K1. now destruct kv'.
Qed.
Lemma all_PE e : PE e.
Proof.
  induction e as [s|e s|a t f s1 s2 s3 IHt IHf|kv vv coll t s1 s2 IHt] using elem_ind'.
  - intros _ H. discriminate H.
  - apply PE_interp.
  - now apply PE_if.
  - now apply PE_for.
Qed.
Lemma tpl_read k n t : tpl_readable u b pf sf c t -> TPL (show_template u sf c k n t) (Qes t) [].
Proof.
  intros [H1 H2]. unfold show_template. rewrite <- stexts_of. apply back_template; [now right| |intros xs; apply fits_Qes].
  apply (readable_elems k n t 0); auto. apply Forall_forall. intros e _. apply all_PE.
Qed.
End Tpl.

Section Top.
Context (u : unicode) (b : build) (pf : str -> f64) (sf : f64 -> str) (c : cfg) (HU : ascii_exact u) (HI : forallb is_space (c_indent c) = true).
Lemma read_template k n t : tpl_readable u b pf sf c t -> exists x, parse_template u b pf (show_template u sf c k n t) = Parsed x /\ of_tpl sf x = map (elem_as_read u c) t.
Proof.
  intros HR. set (s := show_template u sf c k n t).
  destruct (@tpl_read s u b pf sf c HU HI k n t HR (length s) ltac:(apply le_n) 0) as (x & E & HQ); [rewrite app_nil_r; apply tail_0|]. rewrite app_nil_r in E. fold s in E.
  exists (tpl_map (raw_despan s) (fun r => r) (XTempl x None)). split.
  - apply (tpl_despan_ok u b pf s (XTempl x None)). unfold raw_tpl, parse_tpl_raw, parse, top. cbn [recs_at unroll r_tpl]. change (mk 0 s) with (@pair N str 0 s) in E. unfold pmap, ParseBase.bind. rewrite E. reflexivity.
  - cbn [tpl_map of_tpl]. apply HQ.
Qed.
End Top.

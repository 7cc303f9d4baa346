(** * Reading printed trees: templates *)
From Coq Require Import NArith ZArith Arith Bool String List Lia.
From Verif Require Import Res Str Dec NumberModel PrimModel PrimProofs EAst ParseBase ParseModel ParseLemmas Grammar ParseTop Eat StrSpec StrProofs EatLeaf EatExpr EatColl
  BackSpec SameSpec BackWear BackLex BackExpr BackColl BackStr.
Import ListNotations.
Open Scope N_scope.

Lemma strip_of_strip s : strip_of (strip_start s, strip_end s) = s.
Proof. now destruct s. Qed.
(** The end of a template sequence. *)
Definition shutter (s : strip) : str := (if strip_end s then [126] else []) ++ [125].

Section Tpl.
Context {inp : str} (u : unicode) (b : build) (pf : str -> f64).
Context (HU : ascii_exact u).
Notation Rn n := (recs_at u b pf pratt_group items_insert n).
Notation START := (@START inp u b pf).
Notation EXPR := (@EXPR inp u b pf).
Notation opens := (opens u).
Notation T := EatLeaf.T.
Notation slot := (@slot inp).
Notation loop_fits := (@loop_fits inp).

Lemma strip_text_eq k s t : strip_text k s t = k ++ (if strip_start s then [126] else []) ++ t ++ shutter s.
Proof. reflexivity. Qed.
Lemma shutter_clear s r : clear true (shutter s ++ r).
Proof. unfold shutter. destruct (strip_end s); split; reflexivity. Qed.
Lemma eat_control {A} k (inner : parser A) s t (Q : A -> Prop) (Q' : A * strip -> Prop) rest : ends (N.eqb 126) (t ++ shutter s ++ rest) ->
  eat inp inner t Q (shutter s ++ rest) -> (forall x, Q x -> Q' (x, s)) -> eat inp (control k inner) (strip_text k s t) Q' rest.
Proof.
  intros HE H HQ. rewrite strip_text_eq. unfold control. apply (eat_bind _ _ k _ T); [now apply eat_tag|]. intros _ _.
  apply (eat_bind _ _ _ _ (fun o => match o with Some _ => true | None => false end = strip_start s)).
  { destruct (strip_start s); [apply eat_opt; now apply eat_char|]. apply eat_opt_none; [|reflexivity]. apply miss_char. now rewrite <- app_assoc. }
  intros o1 E1. apply (eat_bind _ _ t _ Q); [exact H|]. intros x Hx. unfold shutter. apply (eat_bind _ _ _ [125] (fun o => match o with Some _ => true | None => false end = strip_end s)).
  { destruct (strip_end s); [apply eat_opt; now apply eat_char|]. apply eat_opt_none; [|reflexivity]. now apply miss_char. }
  intros o2 E2. apply (eat_bind' _ _ _ [125] [] T); [reflexivity|apply eat_cut; now apply eat_char|]. intros _ _. apply eat_ret. rewrite E1, E2, strip_of_strip. now apply HQ.
Qed.
Lemma gap_tilde g t r : Gap true g -> ends (N.eqb 126) (t ++ r) -> ends (N.eqb 126) ((g ++ t) ++ r).
Proof.
  intros Hg Ht. destruct g as [|c g]; [exact Ht|]. apply Gap_head in Hg. cbn [app ends]. destruct (N.eqb_spec 126 c) as [<-|]; [|reflexivity]. destruct Hg as [Hg|[Hg|Hg]]; discriminate.
Qed.
Lemma opens_tilde t r : opens t -> ends (N.eqb 126) (t ++ r).
Proof. intros (c & t' & -> & Hc & _). cbn [app ends]. rewrite N.eqb_sym. now apply (first_char_not u HU c 126). Qed.

(** ** Template sequences *)
Definition CTRL (t : str) (Q : xelem -> Prop) (rest : str) : Prop :=
  forall n, (length t <= n)%nat -> eat inp (alt (interpolation (Rn n)) (directive u (Rn n))) t Q rest.
Definition TPL (t : str) (Q : list xelem -> Prop) (rest : str) : Prop :=
  forall n, (length t <= n)%nat -> eat inp (ptemplate u (Rn n)) t Q rest.
Lemma strip_text_length k s t : (length k + length t < length (strip_text k s t))%nat.
Proof. rewrite strip_text_eq. unfold shutter. rewrite !app_length. cbn. lia. Qed.
Lemma back_interp s g t g' (P : xexpr -> Prop) (Q : xelem -> Prop) rest : Gap true g -> Gap true g' -> opens t -> stable P -> EXPR true t P (g' ++ shutter s ++ rest) ->
  (forall sp x, slot g g' P x -> Q (XInterp sp x s)) -> CTRL (strip_text (lit "${") s (g ++ t ++ g')) Q rest.
Proof.
  intros G1 G2 HO HS HE HQ n Hn. apply eat_alt1. unfold interpolation. pose proof (strip_text_length (lit "${") s (g ++ t ++ g')) as HL. rewrite !app_length in HL.
  eapply (eat_bind' _ _ _ _ [] (fun p => slot g g' P (fst p) /\ snd p = s)); [symmetry; apply app_nil_r| |].
  - apply (eat_control _ _ s _ (slot g g' P)); [| |auto].
    + apply gap_tilde; [exact G1|]. rewrite <- app_assoc. now apply opens_tilde.
    + cbn [app]. apply (worn_dexpr u b pf HU _ _ _ _ _ P); auto; [lia|apply shutter_clear|now split].
  - intros [x s'] [Hx Hs]. cbn [fst snd] in *. subst s'. apply eat_ret. now apply HQ.
Qed.
Lemma back_spanned t (Q : list xelem -> Prop) rest n : TPL t Q rest -> (length t < n)%nat -> eat inp (spanned_tpl (Rn n)) t (fun x => exists es sp, x = XTempl es sp /\ Q es) rest.
Proof.
  intros H Hn. destruct n as [|n]; [lia|]. unfold spanned_tpl. eapply (eat_bind' _ _ _ t [] (fun p => Q (fst p))); [symmetry; apply app_nil_r| |].
  - apply eat_with_span. eapply eat_imp; [apply (H n); lia|]. auto.
  - intros [es s] Hs. apply eat_ret. eauto.
Qed.
(** A directive with nothing but a word. *)
Definition word_text (s : strip) (g w g' : str) : str := strip_text (lit "%{") s (g ++ w ++ g').
Lemma back_word (p : parser unit) w s g g' rest : Gap true g -> Gap true g' -> (forall r, clear true (w ++ r) /\ ends (N.eqb 126) (w ++ r) /\ eat inp p w T r) ->
  eat inp (end_control p) (word_text s g w g') (fun x => let '(a, z, s') := x in raw_despan inp a = raw_of_str g /\ raw_despan inp z = raw_of_str g' /\ s' = s) rest.
Proof.
  intros G1 G2 Hw. unfold end_control, word_text. apply (eat_control _ _ s _ (fun x => raw_despan inp (fst x) = raw_of_str g /\ raw_despan inp (snd x) = raw_of_str g')).
  - apply gap_tilde; [exact G1|]. rewrite <- app_assoc. apply Hw.
  - apply (eat_bind _ _ g _ (fun x => raw_despan inp x = raw_of_str g)); [apply eat_raw_gap; auto; rewrite <- !app_assoc; apply Hw|]. intros a Ha.
    apply (eat_bind _ _ w _ T); [apply Hw|]. intros _ _. apply (eat_bind' _ _ g' g' [] (fun x => raw_despan inp x = raw_of_str g')); [symmetry; apply app_nil_r|apply eat_raw_gap; auto; apply shutter_clear|].
    intros z Hz. apply eat_ret. auto.
  - intros [a z]. tauto.
Qed.
(** Another word. *)
Lemma miss_word (p : parser unit) s g w r : Gap true g -> clear true (w ++ r) -> ends (N.eqb 126) (w ++ r) -> miss inp p (w ++ r) ->
  forall A (k : unit -> raw -> parser A), miss inp (control (lit "%{") (a <- raw_string ws ;; x <- p ;; k x a)) (lit "%{" ++ (if strip_start s then [126] else []) ++ g ++ w ++ r).
Proof.
  intros G1 Hc Ht Hm A k. unfold control. apply (miss_bind2 _ _ (lit "%{") T); [now apply eat_tag|]. intros _ _. apply (miss_bind2 _ _ (if strip_start s then [126] else []) T).
  { destruct (strip_start s); [apply eat_opt; now apply eat_char|]. apply eat_opt_none; [|exact I]. apply miss_char. rewrite app_assoc. now apply gap_tilde. }
  intros o _. apply miss_bind1. apply (miss_bind2 _ _ g (fun _ => True)); [apply eat_raw_gap; auto|]. intros a _. now apply miss_bind1.
Qed.
(** The end of the template in a directive: one of its other words. *)
Definition ender (w r : str) : Prop := exists s g r', Gap true g /\ r = lit "%{" ++ (if strip_start s then [126] else []) ++ g ++ w ++ r'.
Definition enders (r : str) : Prop := ender (lit "else") r \/ ender (lit "endif") r \/ ender (lit "endfor") r.
Lemma word_ender s g w g' r : Gap true g -> ender w (word_text s g w g' ++ r).
Proof. intros G. exists s, g, (g' ++ shutter s ++ r). split; [exact G|]. unfold word_text. rewrite strip_text_eq, <- !app_assoc. reflexivity. Qed.
Lemma ender_live w r : ender w r -> live_marker r = true.
Proof. intros (s & g & r' & _ & ->). reflexivity. Qed.
Lemma miss_ender r n : enders r -> miss inp (alt (interpolation (Rn n)) (directive u (Rn n))) r.
Proof.
  intros H. assert (E : exists w, ender w r /\ (w = lit "else" \/ w = lit "endif" \/ w = lit "endfor")) by (destruct H as [H|[H|H]]; eauto).
  clear H. destruct E as (w & (s & g & r' & G & ->) & Hw). apply miss_alt; [|apply miss_alt].
  - unfold interpolation. apply miss_bind1. unfold control. apply miss_bind1. now apply miss_tag.
  - unfold if_directive. apply miss_bind1. apply miss_word; [exact G| | |].
    + destruct Hw as [->|[->| ->]]; split; reflexivity.
    + destruct Hw as [->|[->| ->]]; reflexivity.
    + apply miss_tag. destruct Hw as [->|[->| ->]]; reflexivity.
  - unfold for_directive. apply miss_bind1. apply miss_word; [exact G| | |].
    + destruct Hw as [->|[->| ->]]; split; reflexivity.
    + destruct Hw as [->|[->| ->]]; reflexivity.
    + apply miss_tag. destruct Hw as [->|[->| ->]]; reflexivity.
Qed.
Lemma Enders_intro w s g g' r : w = lit "else" \/ w = lit "endif" \/ w = lit "endfor" -> Gap true g -> enders (word_text s g w g' ++ r).
Proof. intros Hw G. pose proof (word_ender s g w g' r G) as H. unfold enders. destruct Hw as [->|[->| ->]]; auto. Qed.
Lemma back_tag_word w s g g' rest : w = lit "else" \/ w = lit "endif" \/ w = lit "endfor" -> Gap true g -> Gap true g' ->
  eat inp (end_control (cut (tag w))) (word_text s g w g') (fun x => let '(a, z, s') := x in raw_despan inp a = raw_of_str g /\ raw_despan inp z = raw_of_str g' /\ s' = s) rest /\
  eat inp (end_control (tag w)) (word_text s g w g') (fun x => let '(a, z, s') := x in raw_despan inp a = raw_of_str g /\ raw_despan inp z = raw_of_str g' /\ s' = s) rest.
Proof.
  intros Hw G1 G2. split; apply back_word; auto; intros r; (split; [destruct Hw as [->|[->| ->]]; split; reflexivity|split; [destruct Hw as [->|[->| ->]]; reflexivity|]]).
  - apply eat_cut. now apply eat_tag.
  - now apply eat_tag.
Qed.

(** The else branch. *)
Definition gelse : Type := strip * str * str * str.
Definition gelse_text (o : option gelse) : str := match o with Some (s, a, z, t) => word_text s a (lit "else") z ++ t | None => [] end.
Definition gelse_ok (o : option gelse) (Pe : list xelem -> Prop) : Prop :=
  match o with Some (_, a, z, t) => Gap true a /\ Gap true z /\ forall r, enders r -> TPL t Pe r | None => True end.
Definition gelse_fits (o : option gelse) (Pe : list xelem -> Prop) (x : option xelse) : Prop :=
  match o, x with
  | Some (s, a, z, _), Some (XElse ra rz t s') => raw_despan inp ra = raw_of_str a /\ raw_despan inp rz = raw_of_str z /\ s' = s /\ exists es sp, t = XTempl es sp /\ Pe es
  | None, None => True
  | _, _ => False
  end.
Lemma back_if s p g tc g' Pc t Pt o Pe es a z (Q : xelem -> Prop) rest : Gap true p -> Gap true g -> Gap true g' -> Gap true a -> Gap true z ->
  opens tc -> stable Pc -> (forall r, EXPR false tc Pc (g' ++ shutter s ++ r)) -> (forall r, enders r -> TPL t Pt r) -> gelse_ok o Pe ->
  (forall rp c ts sp el ra rz, raw_despan inp rp = raw_of_str p -> slot g g' Pc c -> Pt ts -> gelse_fits o Pe el -> raw_despan inp ra = raw_of_str a -> raw_despan inp rz = raw_of_str z ->
     Q (XIfD None rp c (XTempl ts sp) s el ra rz es)) ->
  CTRL (strip_text (lit "%{") s (p ++ lit "if" ++ g ++ tc ++ g') ++ t ++ gelse_text o ++ word_text es a (lit "endif") z) Q rest.
Proof.
  intros G1 G2 G3 G4 G5 HO HS HC HT HE HQ n Hn. apply eat_alt2.
  { unfold interpolation. apply miss_bind1. unfold control. apply miss_bind1. now apply miss_tag. }
  apply eat_alt1. unfold if_directive.
  pose proof (strip_text_length (lit "%{") s (p ++ lit "if" ++ g ++ tc ++ g')) as HL. repeat rewrite app_length in HL. repeat rewrite app_length in Hn.
  apply (eat_bind _ _ _ _ (fun x => (raw_despan inp (fst (fst x)) = raw_of_str p /\ slot g g' Pc (snd (fst x))) /\ snd x = s)).
  { apply (eat_control _ _ s _ (fun x => raw_despan inp (fst x) = raw_of_str p /\ slot g g' Pc (snd x))); [| |auto].
    - now apply gap_tilde.
    - apply (eat_bind _ _ p _ (fun x => raw_despan inp x = raw_of_str p)); [apply eat_raw_gap; auto; split; reflexivity|]. intros rp Hp.
      apply (eat_bind _ _ (lit "if") _ T); [now apply eat_tag|]. intros _ _.
      apply (eat_bind' _ _ _ (g ++ tc ++ g') [] (slot g g' Pc)); [symmetry; apply app_nil_r| |intros c Hc; apply eat_ret; auto].
      cbn [app]. apply (worn_dexpr u b pf HU _ _ _ _ _ Pc); auto; [lia|apply shutter_clear|now split]. }
  intros [[rp c] s'] [[Hp Hc] Hs]. cbn [fst snd] in *. subst s'.
  assert (EN : forall r, enders (gelse_text o ++ word_text es a (lit "endif") z ++ r)).
  { intros r. destruct o as [[[[s1 a1] z1] t1]|]; cbn [gelse_text app]; [rewrite <- app_assoc|]; apply Enders_intro; auto; apply HE. }
  apply (eat_bind _ _ t _ (fun x => exists es sp, x = XTempl es sp /\ Pt es)).
  { apply back_spanned; [rewrite <- app_assoc; apply HT, EN|lia]. }
  intros x (ts & sp & -> & Ht). apply (eat_bind _ _ (gelse_text o) _ (gelse_fits o Pe)).
  - destruct o as [[[[s1 a1] z1] t1]|]; cbn [gelse_text].
    + destruct HE as (E1 & E2 & E3). apply eat_opt. apply (eat_bind _ _ _ t1 (fun x => let '(a, z, s') := x in raw_despan inp a = raw_of_str a1 /\ raw_despan inp z = raw_of_str z1 /\ s' = s1)).
      { apply back_tag_word; auto. }
      intros [[ra rz] s2] (R1 & R2 & ->). apply (eat_bind' _ _ _ t1 [] (fun x => exists es sp, x = XTempl es sp /\ Pe es)); [symmetry; apply app_nil_r| |].
      * apply back_spanned; [apply E3; cbn [app]; apply Enders_intro; auto|cbn [gelse_text] in Hn; rewrite app_length in Hn; lia].
      * intros x Hx. apply eat_ret. cbn. auto.
    + apply eat_opt_none; [|exact I]. unfold end_control, word_text. rewrite strip_text_eq, <- !app_assoc. apply miss_bind1. apply miss_word; auto; try reflexivity; [split; reflexivity|now apply miss_tag].
  - intros el Hel. apply (eat_bind' _ _ _ (word_text es a (lit "endif") z) [] (fun x => let '(ra, rz, s') := x in raw_despan inp ra = raw_of_str a /\ raw_despan inp rz = raw_of_str z /\ s' = es)); [symmetry; apply app_nil_r| |].
    + apply back_tag_word; auto.
    + intros [[ra rz] s2] (R1 & R2 & ->). apply eat_ret. now apply HQ.
Qed.
Lemma back_ford s p k v gc tc gc' Pc t Pt es a z (Q : xelem -> Prop) rest : Gap true p -> opt_gid_ok u k -> gid_ok u true v -> snd v <> [] -> Gap true gc -> Gap true gc' -> Gap true a -> Gap true z ->
  opens tc -> stable Pc -> (forall r, EXPR false tc Pc (gc' ++ shutter s ++ r)) -> (forall r, enders r -> TPL t Pt r) ->
  (forall rp kv vv c ts sp ra rz, raw_despan inp rp = raw_of_str p -> loop_fits k v kv vv -> slot gc gc' Pc c -> Pt ts -> raw_despan inp ra = raw_of_str a -> raw_despan inp rz = raw_of_str z ->
     Q (XForD None rp kv vv c (XTempl ts sp) s ra rz es)) ->
  CTRL (strip_text (lit "%{") s (p ++ lit "for" ++ loop_text k v (gc ++ tc ++ gc')) ++ t ++ word_text es a (lit "endfor") z) Q rest.
Proof.
  intros G1 Hk Hv Hv' G2 G3 G4 G5 HO HS HC HT HQ n Hn. apply eat_alt2.
  { unfold interpolation. apply miss_bind1. unfold control. apply miss_bind1. now apply miss_tag. }
  pose proof (strip_text_length (lit "%{") s (p ++ lit "for" ++ loop_text k v (gc ++ tc ++ gc'))) as HL. unfold loop_text in HL at 1. repeat rewrite app_length in HL. repeat rewrite app_length in Hn.
  apply eat_alt2.
  { unfold if_directive. apply miss_bind1. rewrite strip_text_eq, <- !app_assoc. apply miss_word; auto; try reflexivity; [split; reflexivity|now apply miss_tag]. }
  unfold for_directive.
  apply (eat_bind _ _ _ _ (fun x => (let '(rp, x, y, c) := fst x in raw_despan inp rp = raw_of_str p /\
      loop_fits k v (match y with Some _ => Some x | None => None end) (match y with Some y => y | None => x end) /\ slot gc gc' Pc c) /\ snd x = s)).
  { apply (eat_control _ _ s _ (fun x => let '(rp, x, y, c) := x in raw_despan inp rp = raw_of_str p /\
      loop_fits k v (match y with Some _ => Some x | None => None end) (match y with Some y => y | None => x end) /\ slot gc gc' Pc c)); [| |auto].
    - now apply gap_tilde.
    - apply (eat_bind _ _ p _ (fun x => raw_despan inp x = raw_of_str p)); [apply eat_raw_gap; auto; split; reflexivity|]. intros rp Hp.
      apply (eat_bind _ _ (lit "for") _ T); [now apply eat_tag|]. intros _ _. unfold loop_text.
      apply (back_loop_vars u pf HU k v (fun y x => c <- decorated_expr (r_expr (Rn n) false) ;; ret (rp, x, y, c))); auto. intros x y Hxy.
      apply (eat_bind _ _ (lit "in") _ T); [apply eat_cut; now apply eat_tag|]. intros _ _.
      apply (eat_bind' _ _ _ (gc ++ tc ++ gc') [] (slot gc gc' Pc)); [symmetry; apply app_nil_r| |intros c Hc; apply eat_ret; auto].
      cbn [app]. apply (worn_dexpr u b pf HU _ _ _ _ _ Pc); auto; [lia|apply shutter_clear|now split]. }
  intros [[[[rp x] y] c] s'] [(Hp & Hxy & Hc) Hs]. cbn [fst snd] in *. subst s'.
  apply (eat_bind _ _ t _ (fun x => exists es sp, x = XTempl es sp /\ Pt es)).
  { apply back_spanned; [apply HT, Enders_intro; auto|lia]. }
  intros xt (ts & sp & -> & Ht). apply (eat_bind' _ _ _ (word_text es a (lit "endfor") z) [] (fun x => let '(ra, rz, s') := x in raw_despan inp ra = raw_of_str a /\ raw_despan inp rz = raw_of_str z /\ s' = es)); [symmetry; apply app_nil_r| |].
  - apply back_tag_word; auto.
  - intros [[ra rz] s2] (R1 & R2 & ->). apply eat_ret. destruct y as [y|]; now apply HQ.
Qed.

(** ** Elements *)
Inductive spec := SLit (t v : str) | SCtl (t : str) (Q : xelem -> Prop).
Definition stext (s : spec) : str := match s with SLit t _ | SCtl t _ => t end.
Definition stexts (l : list spec) : str := flat_map stext l.
Definition fits (s : spec) (x : xelem) : Prop :=
  match s with SLit _ v => exists sp, x = XLit (Some sp) v | SCtl _ Q => exists sp y, x = elem_set_span sp y /\ Q y end.
Fixpoint readable (L : parser str) (l : list spec) (rest : str) : Prop :=
  match l with
  | [] => True
  | s :: l' =>
      match s with
      | SLit t v => t <> [] /\ eat inp L t (eq v) (stexts l' ++ rest)
      | SCtl t Q => live_marker t = true /\ CTRL t Q (stexts l' ++ rest)
      end /\ readable L l' rest
  end.
Lemma live_app a r : live_marker a = true -> live_marker (a ++ r) = true.
Proof. intros H. destruct (live_marker_at a H) as (m & x & [->| ->] & ->); reflexivity. Qed.
Lemma live_nonnil a : live_marker a = true -> a <> []. Proof. now destruct a. Qed.
Lemma back_elements L l rest n : (forall r, live_marker r = true -> miss inp L r) -> readable L l rest -> (length (stexts l) <= n)%nat ->
  miss inp (element u (Rn n) L) rest -> eat inp (elements u (Rn n) L) (stexts l) (Forall2 fits l) rest.
Proof.
  intros HL HR Hn HM. unfold elements. apply eat_many0.
  enough (G : forall (Q : list xelem -> Prop), (forall xs, Forall2 fits l xs -> Q xs) -> eat_loop inp (element u (Rn n) L) (stexts l) Q rest) by now apply G.
  revert HR Hn. induction l as [|s l IH]; intros HR Hn Q HQ.
  - apply eat_loop_nil; [exact HM|]. apply HQ. constructor.
  - change (stexts (s :: l)) with (stext s ++ stexts l) in *. rewrite app_length in Hn. destruct HR as [Hs HR]. apply (eat_loop_cons _ _ _ (fits s)).
    + destruct s; cbn [stext] in *; [apply Hs|apply live_nonnil, Hs].
    + unfold element. apply (eat_bind' _ _ _ (stext s) [] (fun p => exists x, fst p = x /\ forall sp, fits s (elem_set_span sp x))); [symmetry; apply app_nil_r| |].
      * apply eat_with_span. destruct s as [t v|t P]; cbn [stext app] in *.
        -- apply eat_alt1. apply eat_pmap. eapply eat_imp; [apply Hs|]. cbn beta. intros ? <- sp. eexists; split; [reflexivity|]. intros sp'. eexists; reflexivity.
        -- apply eat_alt2; [apply miss_pmap, HL, live_app, Hs|]. eapply eat_imp; [apply Hs; lia|]. cbn beta. intros y Hy sp. eexists; split; [reflexivity|]. intros sp'. eexists _, _; split; [reflexivity|exact Hy].
      * intros [x sp] (x' & E & Hx). cbn in E. subst x'. apply eat_ret. apply Hx.
    + intros x Hx. apply IH; [exact HR|lia|]. intros xs Hxs. apply HQ. now constructor.
Qed.
Lemma miss_element L r n : miss inp L r -> miss inp (alt (interpolation (Rn n)) (directive u (Rn n))) r -> miss inp (element u (Rn n) L) r.
Proof. intros H1 H2. unfold element. apply miss_bind1, miss_with_span, miss_alt; [now apply miss_pmap|exact H2]. Qed.
(** What does not start a template sequence. *)
Lemma miss_ctrl r n : live_marker r = false -> miss inp (alt (interpolation (Rn n)) (directive u (Rn n))) r.
Proof.
  intros H. assert (E1 : starts_with (lit "${") r = false /\ starts_with (lit "%{") r = false).
  { unfold live_marker in H. now apply orb_false_iff in H. }
  apply miss_alt; [|apply miss_alt].
  - unfold interpolation. apply miss_bind1. unfold control. apply miss_bind1. now apply miss_tag.
  - unfold if_directive. apply miss_bind1. unfold control. apply miss_bind1. now apply miss_tag.
  - unfold for_directive. apply miss_bind1. unfold control. apply miss_bind1. now apply miss_tag.
Qed.

(** ** Quoted templates *)
Notation qlit := (build_string quoted_string_fragment).
Lemma live_quiet r : live_marker r = true -> quiet r.
Proof. intros H. destruct (live_marker_at r H) as (m & x & [->| ->] & ->); repeat split. Qed.
Lemma miss_qlit r : quiet r -> miss inp qlit r.
Proof. intros H. apply miss_bind1. intros o Ho. eexists. now apply (@frag_stop inp). Qed.
Lemma live_head r c : live_marker r = true -> c <> 36 -> c <> 37 -> ends (N.eqb c) r.
Proof. intros H H1 H2. destruct (live_marker_at r H) as (m & x & Hm & ->). cbn. apply N.eqb_neq. destruct Hm; congruence. Qed.
(** The text is not that of a string literal. *)
Definition composed (l : list spec) : Prop := match l with SCtl _ _ :: _ | SLit _ _ :: SCtl _ _ :: _ => True | _ => False end.
Lemma miss_pstring l rest : composed l -> readable qlit l (34 :: rest) -> miss inp pstring ([34] ++ stexts l ++ [34] ++ rest).
Proof.
  intros HC HR. unfold pstring. apply (miss_bind2 _ _ [34] T); [now apply eat_char|]. intros _ _.
  destruct l as [|[t v|t Q] l]; [contradiction| |].
  - destruct l as [|[|t' Q'] l]; try contradiction. destruct HR as ((H1 & H2) & (H3 & _) & _). cbn [stexts flat_map stext] in *. rewrite <- !app_assoc in *.
    apply (miss_bind2 _ _ t T); [apply eat_opt; eapply eat_imp; [exact H2|exact (fun _ _ => I)]|]. intros o _. apply miss_bind1, miss_char. apply live_head; [now apply live_app|discriminate|discriminate].
  - destruct HR as ((H3 & _) & _). cbn [stexts flat_map stext] in *. rewrite <- !app_assoc in *.
    apply (miss_bind2 _ _ [] T); [apply eat_opt_none; [apply miss_qlit, live_quiet; now apply live_app|exact I]|]. intros o _. apply miss_bind1, miss_char. apply live_head; [now apply live_app|discriminate|discriminate].
Qed.
Lemma back_string_template nl l (Q : xexpr -> Prop) rest : composed l -> readable qlit l (34 :: rest) -> (forall xs, Forall2 fits l xs -> Q (XTpl no_meta xs)) ->
  START nl ([34] ++ stexts l ++ [34]) nl Q rest.
Proof.
  intros HC HR HQ n Hn. repeat rewrite app_length in Hn. cbn [length] in Hn. unfold term_start. cbn [app]. apply eat_dispatch. cbn [N.eqb Pos.eqb]. apply eat_pmap. cbn [fst snd].
  eapply eat_imp; [|intros a Ha; split; [exact Ha|reflexivity]]. unfold stringlike. change (34 :: stexts l ++ [34]) with ([34] ++ stexts l ++ [34]).
  apply eat_alt2; [apply miss_pmap; rewrite <- !app_assoc; now apply miss_pstring|]. apply eat_pmap. unfold string_template.
  apply (eat_bind _ _ [34] _ T); [now apply eat_char|]. intros _ _. apply (eat_bind _ _ (stexts l) [34] (Forall2 fits l)).
  - apply back_elements; [intros r Hr; now apply miss_qlit, live_quiet|exact HR|lia|]. apply miss_element; [apply miss_qlit, quiet_quote|now apply miss_ctrl].
  - intros xs Hxs. apply (eat_bind' _ _ [34] [34] [] T); [reflexivity|now apply eat_char|]. intros _ _. apply eat_ret. auto.
Qed.

(** ** Templates *)
Notation tlit := (build_string (template_string_fragment marker_start)).
Lemma live_tquiet stop r : (forall s, live_marker s = true -> stop s = true) -> live_marker r = true -> tquiet stop r.
Proof.
  intros H Hr. destruct (live_marker_at r Hr) as (m & x & Hm & ->). split.
  - unfold free. rewrite H by exact Hr. reflexivity.
  - now destruct Hm as [->| ->].
Qed.
Lemma nil_tquiet stop : tquiet stop []. Proof. split; reflexivity. Qed.
Lemma miss_tlit r : live_marker r = true \/ r = [] -> miss inp tlit r.
Proof.
  intros H. apply (miss_tpl_string marker_start live_marker); try reflexivity.
  - apply marker_eat.
  - apply marker_miss.
  - destruct H as [H| ->]; [now apply live_tquiet|apply nil_tquiet].
Qed.
Lemma back_template l (Q : list xelem -> Prop) rest : enders rest \/ rest = [] -> readable tlit l rest -> (forall xs, Forall2 fits l xs -> Q xs) -> TPL (stexts l) Q rest.
Proof.
  intros HE HR HQ n Hn. eapply eat_imp; [|exact HQ]. apply back_elements; auto; [intros r Hr; apply miss_tlit; now left|].
  apply miss_element.
  - apply miss_tlit. destruct HE as [HE|HE]; [left; destruct HE as [HE|[HE|HE]]; exact (ender_live _ _ HE)|now right].
  - destruct HE as [HE| ->]; [now apply miss_ender|now apply miss_ctrl].
Qed.

(** ** Heredocs *)
Notation hend d := (alt (tag (lit "${")) (alt (tag (lit "%{")) (heredoc_end u d))).
Notation hlit d := (build_string (template_string_fragment (hend d))).
Lemma close_tquiet d r : closes u d r = true -> tquiet (hstop u d) r /\ live_marker r = false.
Proof.
  intros H. assert (E : exists r', r = 10 :: r' \/ r = 13 :: r').
  { destruct r as [|c r]; [discriminate|]. cbn [closes] in H. destruct (N.eqb_spec c 10) as [->|]; [eauto|]. destruct (N.eqb_spec c 13) as [->|]; [eauto|discriminate]. }
  repeat split.
  - unfold free, hstop. destruct E as (r' & [->| ->]); rewrite H, orb_true_r; reflexivity.
  - destruct E as (r' & [->| ->]); reflexivity.
  - destruct E as (r' & [->| ->]); reflexivity.
Qed.
Lemma closes_delim d le w r : is_ident u d = true -> break le -> forallb is_space w = true -> ends (is_id_continue u) r -> closes u d (le ++ w ++ d ++ r) = true.
Proof.
  intros Hd Hle Hw Hr. apply closes_spec. exists le, (w ++ d ++ r). repeat split; auto. apply delim_spec. exists w, r. repeat split; auto.
  exact (proj1 (clear_id u HU false d r Hd)).
Qed.
Definition dash (i : bool) : str := if i then [45] else [].
Lemma back_heredoc (i : bool) nl d l le w (Q : xexpr -> Prop) rest : is_ident u d = true -> break le -> forallb is_space w = true -> ends (is_id_continue u) rest ->
  readable (hlit d) l (le ++ w ++ d ++ rest) ->
  (forall xs sp sp' tr, Forall2 fits l xs -> raw_despan inp tr = raw_of_str w -> 
     Q (let '(es, n) := if i then tpl_dedent (push_line_ending le sp xs) else (push_line_ending le sp xs, None) in XHeredoc no_meta d (XTempl es sp') n tr)) ->
  START nl (lit "<<" ++ dash i ++ d ++ [10] ++ (stexts l ++ le) ++ w ++ d) nl Q rest.
Proof.
  intros Hd Hle Hw Hr HR HQ n Hn. pose proof (clear_id u HU false d rest Hd) as [HS _]. repeat rewrite app_length in Hn. unfold term_start.
  change (lit "<<" ++ dash i ++ d ++ [10] ++ (stexts l ++ le) ++ w ++ d) with (60 :: [60] ++ dash i ++ d ++ [10] ++ (stexts l ++ le) ++ w ++ d). apply eat_dispatch. cbn [N.eqb Pos.eqb is_digit N.leb N.compare Pos.compare Pos.compare_cont andb].
  apply eat_pmap. cbn [fst snd]. eapply eat_imp; [|intros a Ha; split; [exact Ha|reflexivity]]. unfold heredoc.
  replace (60 :: [60] ++ dash i ++ d ++ [10] ++ (stexts l ++ le) ++ w ++ d) with ((lit "<<" ++ dash i ++ d ++ [10]) ++ (stexts l ++ le) ++ w ++ d) by now rewrite <- !app_assoc.
  apply (eat_bind _ _ (lit "<<" ++ dash i ++ d ++ [10]) _ (eq (i, d))).
  { unfold heredoc_start. apply (eat_bind _ _ (lit "<<") _ T); [now apply eat_tag|]. intros _ _. apply (eat_bind _ _ (dash i) (d ++ [10]) (fun o => match o with Some _ => true | None => false end = i)).
    - destruct i; [apply eat_opt; eapply eat_imp; [apply (eat_char 45 T); exact I|reflexivity]|]. apply eat_opt_none; [|reflexivity]. apply miss_char. destruct d as [|c d]; [discriminate|]. cbn [is_ident] in Hd. apply andb_true_iff in Hd. destruct Hd as [Hc _].
      cbn [app ends]. rewrite N.eqb_sym. apply (id_start_not u HU c); [exact Hc|lia|reflexivity].
    - intros o Ho. apply (eat_bind _ _ d [10] (eq d)); [apply eat_cut, eat_str_ident; [exact Hd|now apply (not_cont u HU)|reflexivity]|]. intros d' <-.
      apply (eat_bind' _ _ [10] [10] [] T); [reflexivity|apply eat_cut; eapply eat_imp; [apply eat_break; now left|exact (fun _ _ => I)]|]. intros _ _. apply eat_ret. now rewrite Ho. }
  intros ? <-. apply (eat_bind _ _ (stexts l ++ le) _ (fun p => exists xs sp, fst p = push_line_ending le sp xs /\ Forall2 fits l xs)).
  { apply eat_with_span. unfold heredoc_template. apply (eat_bind' _ _ _ (stexts l ++ le) [] (fun o => exists xs sp, o = Some (push_line_ending le sp xs) /\ Forall2 fits l xs)); [symmetry; apply app_nil_r| |].
    - apply eat_opt. assert (CL : closes u d (le ++ w ++ d ++ rest) = true) by now apply closes_delim. apply (eat_bind _ _ (stexts l) le (Forall2 fits l)).
      + cbn [app]. rewrite <- app_assoc. apply back_elements; [|exact HR|lia|].
        * intros r H. apply (miss_tpl_string _ (hstop u d)); [intros s; now apply (@hstop_eat inp u d)|intros s; now apply (@hstop_miss inp u d)|reflexivity|]. apply live_tquiet; [|exact H]. intros s Es. unfold hstop. now rewrite Es.
        * apply miss_element.
          -- apply (miss_tpl_string _ (hstop u d)); [intros s; now apply (@hstop_eat inp u d)|intros s; now apply (@hstop_miss inp u d)|reflexivity|]. now apply close_tquiet.
          -- apply miss_ctrl. now apply (close_tquiet d).
      + intros xs Hxs. apply (eat_bind' _ _ le le [] (fun p => fst p = le)); [symmetry; apply app_nil_r|apply eat_with_span; eapply eat_imp; [now apply eat_break|]; intros ? <- sp; reflexivity|].
        intros [le' sp] E. cbn in E. subst le'. apply eat_ret. eauto.
    - intros o (xs & sp & -> & H). apply eat_ret. intros sp'. exists xs, sp. auto. }
  intros [es sp'] (xs & sp & E & H). cbn [fst] in E. subst es. apply (eat_bind _ _ w d (fun x => raw_despan inp x = raw_of_str w)).
  { apply eat_raw_any; [|auto]. apply (eat_bind' _ _ w w [] T); [symmetry; apply app_nil_r|now apply eat_space0|]. intros _ _. now apply eat_ret. }
  intros tr Htr. apply (eat_bind' _ _ d d [] T); [symmetry; apply app_nil_r| |].
  - apply eat_cut. apply (eat_bind' _ _ d d [] T); [symmetry; apply app_nil_r|now apply eat_tag|]. intros _ _. apply eat_pnot; [|exact I]. now apply miss_one_of.
  - intros _ _. apply eat_ret. now apply HQ.
Qed.
End Tpl.

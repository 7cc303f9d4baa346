(** * Printed expressions are read back: proofs *)
From Coq Require Import NArith ZArith Arith Bool String List Lia.
From Verif Require Import Res Str Dec NumberModel PrimModel PrimProofs EAst EAstInd EncModel EqSpec EqProofs PrattSpec.
From Verif Require Import ParseBase ParseModel ParseSpec ParseLemmas Eat StrSpec StrProofs EatLeaf EatExpr EatColl ReadProofs.
From Verif Require Import BackSpec SameSpec BackEq BackLex BackWear BackExpr BackColl BackSame.
From Verif Require EatName.
Import ListNotations.
Open Scope N_scope.

(** ** Gaps in decor *)
Definition blanks_df (df : str * str) : Prop := forall nl, Gap nl (fst df) /\ Gap nl (snd df).
Lemma sp_gap nl : Gap nl SP.
Proof. apply (Gap_blank nl 32 []); [now destruct nl|constructor]. Qed.
Lemma df_ok : blanks_df NO /\ blanks_df LEADING /\ blanks_df TRAILING /\ blanks_df BOTH.
Proof. repeat split; cbn [fst snd NO LEADING TRAILING BOTH]; auto using sp_gap, Gap_nil. Qed.
Lemma pre_gap df nl m : blanks_df df -> gap nl (pre NO m) = true -> Gap nl (pre df m).
Proof.
  intros D H. unfold pre, enc_prefix in *. destruct (d_prefix (m_decor m)) as [r|]; [|apply D]. destruct r; cbn [raw_enc] in *; try apply D; now apply gap_spec.
Qed.
Lemma suf_gap df nl m : blanks_df df -> gap nl (suf NO m) = true -> Gap nl (suf df m).
Proof.
  intros D H. unfold suf, enc_suffix in *. destruct (d_suffix (m_decor m)) as [r|]; [|apply D]. destruct r; cbn [raw_enc] in *; try apply D; now apply gap_spec.
Qed.
Lemma suf_last nl m (df : str * str) : snd df = [] -> last_gap nl (suf NO m) = true -> exists w z, suf df m = w ++ z /\ Gap nl w /\ Open z.
Proof. intros D H. apply last_gap_spec in H. replace (suf df m) with (suf NO m); [exact H|]. unfold suf. now rewrite D. Qed.
Lemma snug_in core e : snug (x_meta e) -> text_in core NO e = core e.
Proof. intros [H1 H2]. unfold text_in, around. rewrite H1, H2. apply app_nil_r. Qed.
Lemma suf_no m (df : str * str) : snd df = [] -> suf df m = suf NO m.
Proof. intros H. unfold suf. now rewrite H. Qed.
Lemma pre_no m (df : str * str) : fst df = [] -> pre df m = pre NO m.
Proof. intros H. unfold pre. now rewrite H. Qed.

(** ** What follows *)
Section Ctx.
Context {inp : str} (u : unicode) (HU : ascii_exact u).
Notation idc := (is_id_continue u).
Notation follows := (@follows inp).
Definition ctx (F : str -> bool) (w nl : bool) (rest : str) : Prop :=
  ends idc rest /\ nofrac rest /\
  forall m, (nl = true -> m = true) -> (m = true -> nl = true \/ w = true) -> follows (fun r => uncall r && F r) m rest.
Lemma ctx_imp (F G : str -> bool) w nl rest : (forall r, F r = true -> G r = true) -> ctx F w nl rest -> ctx G w nl rest.
Proof.
  intros H (A & B & C). split; [exact A|split; [exact B|]]. intros m M1 M2. eapply follows_imp; [|exact (C m M1 M2)].
  cbn beta. intros r E. apply andb_true_iff in E. destruct E as [E1 E2]. rewrite E1. now apply H.
Qed.
Lemma ctx_weaken F w w' nl rest : (w' = true -> w = true) -> ctx F w nl rest -> ctx F w' nl rest.
Proof. intros H (A & B & C). split; [exact A|split; [exact B|]]. intros m M1 M2. apply C; [exact M1|]. intros E. destruct (M2 E); auto. Qed.
Lemma ctx_raise F w nl s rest : (s = true -> w = true) -> ctx F w nl rest -> ctx F w (nl || s) rest.
Proof.
  intros H (A & B & C). split; [exact A|split; [exact B|]]. intros m M1 M2. apply C.
  - intros ->. now apply M1.
  - intros E. destruct (M2 E) as [E'|E']; [|auto]. apply orb_true_iff in E'. destruct E'; auto.
Qed.
Lemma ctx_at F w nl s rest : (s = true -> w = true) -> ctx F w nl rest -> follows F (nl || s) rest.
Proof.
  intros H (_ & _ & C). eapply follows_imp; [|apply C].
  - cbn beta. intros r E. now apply andb_true_iff in E.
  - intros ->. reflexivity.
  - intros E. apply orb_true_iff in E. destruct E; auto.
Qed.
Lemma ctx_here F w nl rest : ctx F w nl rest -> follows F nl rest.
Proof. intros H. rewrite <- (orb_false_r nl). apply (ctx_at F w nl false); [discriminate|exact H]. Qed.
Lemma ctx_call F w nl rest : ctx F w nl rest -> follows uncall nl rest.
Proof. intros (_ & _ & C). eapply follows_imp; [|apply (C nl); auto]. cbn beta. intros r E. now apply andb_true_iff in E. Qed.
Lemma gap_nofrac nl g r : Gap nl g -> nofrac r \/ g <> [] -> nofrac (g ++ r).
Proof.
  intros Hg H. destruct g as [|c g]; [destruct H; [exact H|congruence]|]. apply Gap_head in Hg. cbn [app].
  assert (E : c <> 46).
  { intros ->. destruct Hg as [Hg|[Hg|Hg]]; try discriminate. now destruct nl. }
  unfold nofrac. destruct c as [|p]; [exact I|]. do 6 (destruct p as [p|p|]; try exact I). congruence.
Qed.
Lemma follows_gap (F : str -> bool) m k g r : (forall x, quiet2 x = true -> uncall x = true -> F x = true) -> Gap k g -> clear true r -> F r = true -> follows F m (g ++ r).
Proof.
  intros HF Hg Hr HR. destruct (@rests_any inp m k g r Hg Hr) as (r' & H1 & H2). exists r'. split; [exact H1|].
  destruct H2 as [-> |[_ H2]]; [exact HR|]. destruct (brk_quiet r' H2). auto.
Qed.
Lemma gap_idc k g r : Gap k g -> ends idc r \/ g <> [] -> ends idc (g ++ r).
Proof. apply (@gap_ends_id inp u (fun _ => Flocq.IEEE754.BinarySingleNaN.B754_nan) HU). Qed.
Definition lax (F : str -> bool) : Prop := forall r, quiet2 r = true -> F r = true.
Lemma lax_untrav : lax untrav. Proof. intros r H. apply quiet1_trav. now apply quiet2_1. Qed.
Lemma lax_quiet1 : lax quiet1. Proof. intros r H. now apply quiet2_1. Qed.
Lemma lax_quiet2 : lax quiet2. Proof. intros r H. exact H. Qed.
Lemma ctx_gap F w nl k g r : lax F -> Gap k g -> clear true r -> uncall r = true -> F r = true -> ends idc r \/ g <> [] -> nofrac r \/ g <> [] -> ctx F w nl (g ++ r).
Proof.
  intros HL Hg Hr H1 H2 H3 H4. split; [now apply (gap_idc k)|]. split; [now apply (gap_nofrac k)|]. intros m _ _.
  apply (follows_gap _ m k); auto; [intros x X1 X2; now rewrite X2, HL|now rewrite H1].
Qed.
(** A sign. *)
Definition sign (c : N) : bool := (c <? 128) && negb (is_ascii_letter c || is_digit c || (c =? 95) || (c =? 45) || is_multispace c || (c =? 35) || (c =? 47) || (c =? 46) || (c =? 40)).
Lemma sign_clear c r : sign c = true -> clear true (c :: r) /\ ends idc (c :: r) /\ nofrac (c :: r).
Proof.
  unfold sign. rewrite andb_true_iff, N.ltb_lt, negb_true_iff, !orb_false_iff. intros [H ((((((((H1 & H2) & H3) & H4) & H5) & H6) & H7) & H8) & H9)]. split; [|split].
  - split; [exact H5|]. unfold nocomment. change (lit "//") with [47; 47]. change (lit "/*") with [47; 42]. cbn [starts_with]. now rewrite (N.eqb_sym 35), (N.eqb_sym 47), H6, H7.
  - apply (not_cont u HU); [exact H|]. now rewrite H1, H2, H3, H4.
  - apply (gap_nofrac true [] (c :: r)); [constructor|]. left. apply N.eqb_neq in H8. unfold nofrac. destruct c as [|p]; [exact I|]. do 6 (destruct p as [p|p|]; try exact I). congruence.
Qed.
Lemma sign_call c r : sign c = true -> (c = 58 -> starts_with [58] r = false) -> uncall (c :: r) = true.
Proof.
  intros H E. unfold uncall, call2. apply negb_true_iff. change (lit "::") with [58; 58]. rewrite l2_two. cbn [starts_with].
  assert (H40 : (c =? 40) = false) by (unfold sign in H; rewrite andb_true_iff, negb_true_iff, !orb_false_iff in H; apply H).
  apply orb_false_iff. split.
  - destruct (N.eqb_spec 58 c) as [<-|_]; [exact (E eq_refl)|reflexivity].
  - apply l2_head. intros d r' [= <- _]. now rewrite N.eqb_sym.
Qed.
Lemma ctx_sign F w nl k g c r : lax F -> Gap k g -> sign c = true -> (c = 58 -> starts_with [58] r = false) -> F (c :: r) = true -> ctx F w nl (g ++ c :: r).
Proof. intros HL Hg Hs Hc HF. destruct (sign_clear c r Hs) as (S1 & S2 & S3). apply (ctx_gap F w nl k); auto. now apply sign_call. Qed.
(** A closing bracket or a comma. *)
Lemma ctx_close w nl k g c r : Gap k g -> In c [41; 93; 125; 44; 126] -> ctx quiet2 w nl (g ++ c :: r).
Proof. intros Hg H. apply (ctx_sign quiet2 w nl k); auto using lax_quiet2; cbn [In] in H; intuition (subst; try reflexivity; try discriminate). Qed.
Lemma ctx_dots w nl k g r : Gap k g -> ctx quiet2 w nl (g ++ lit "..." ++ r).
Proof.
  intros Hg. apply (ctx_gap quiet2 w nl k); auto using lax_quiet2; try reflexivity.
  - split; reflexivity.
  - left. now apply (not_cont u HU).
  - left. reflexivity.
Qed.
Lemma ctx_if w nl k g r : Gap k g -> g <> [] -> ctx quiet2 w nl (g ++ lit "if" ++ r).
Proof. intros Hg Hn. apply (ctx_gap quiet2 w nl k); auto using lax_quiet2; try reflexivity. split; reflexivity. Qed.
(** The end of an item, and the next key. *)
Lemma ctx_line w g z v r : Gap false g -> Open z -> Gap true v -> clear true r -> (w = true -> uncall r = true /\ quiet2 r = true) ->
  ctx quiet2 w false (g ++ (z ++ [10]) ++ v ++ r).
Proof.
  intros Hg Hz Hv Hr HW.
  assert (HB : brk ((z ++ [10]) ++ v ++ r)).
  { destruct Hz as [-> |(h & x & [-> | ->] & _ & ->)]; cbn [app]; eexists _, _; (split; [reflexivity|]); eauto 8. }
  pose proof (brk_quiet _ HB) as [B1 B2].
  split; [|split].
  - apply (gap_idc false); [exact Hg|]. left. destruct Hz as [-> |(h & x & [-> | ->] & _ & ->)]; now apply (not_cont u HU).
  - apply (gap_nofrac false); [exact Hg|]. left. destruct Hz as [-> |(h & x & [-> | ->] & _ & ->)]; exact I.
  - intros m _ HM. destruct m.
    + destruct (HM eq_refl) as [E|E]; [discriminate|]. destruct (HW E) as [W1 W2]. exists r. split; [|now rewrite W1, W2].
      replace (g ++ (z ++ [10]) ++ v ++ r) with ((g ++ z ++ [10] ++ v) ++ r) by (now rewrite <- !app_assoc). apply rests_gap; [|exact Hr]. now apply Gap_line_end; auto.
    + exists ((z ++ [10]) ++ v ++ r). split; [|now rewrite B1, B2]. apply rests_gap; [exact Hg|now apply brk_clear].
Qed.
(** The end of a text. *)
Lemma ctx_end w nl : ctx quiet2 w nl [].
Proof. split; [exact I|]. split; [exact I|]. intros m _ _. apply (follows_gap _ m true [] []); auto; [intros x -> ->; reflexivity|constructor|split; [exact I|reflexivity]]. Qed.
(** Expressions which do not look like the continuation of another one. *)
Lemma soft_quiet t r : opens u t -> soft t = true -> clear true (t ++ r) /\ uncall (t ++ r) = true /\ quiet2 (t ++ r) = true.
Proof.
  intros HO HS. split; [now apply (opens_clear u HU)|]. destruct HO as (c & t' & -> & H & _). cbn [app]. cbn [soft] in HS. apply negb_true_iff in HS.
  change (lit "-![(<") with [45; 33; 91; 40; 60] in HS. cbn [existsb] in HS. rewrite !orb_false_iff in HS. destruct HS as (H1 & H2 & H3 & H4 & H5 & _).
  assert (L : forall k, k < 128 -> existsb (N.eqb k) (lit """[{<-!(") || is_digit k || is_ascii_letter k || (k =? 95) = false -> (c =? k) = false).
  { intros k Hk Hn. rewrite !orb_false_iff in Hn. destruct Hn as (((N1 & N2) & N3) & N4). apply (first_char_not u HU c k); auto; now rewrite N1, N2, N3, N4. }
  split.
  - unfold uncall, call2. apply negb_true_iff. change (lit "::") with [58; 58]. rewrite l2_two. cbn [starts_with]. rewrite (N.eqb_sym 58 c), L by reflexivity. cbn [andb orb].
    apply l2_head. intros d r' [= <- _]. now rewrite N.eqb_sym.
  - unfold quiet2, untrav, unbin, uncond. rewrite !L by reflexivity. rewrite H3. change (lit "!<>+-*%&|") with [33; 60; 62; 43; 45; 42; 37; 38; 124]. cbn [existsb].
    rewrite H2, H5, H1. rewrite !L by reflexivity. reflexivity.
Qed.
End Ctx.

(** ** Expressions *)
Section Back.
Context {inp : str} (u : unicode) (b : build) (pf : str -> f64) (sf : f64 -> str).
Context (HU : ascii_exact u).
Notation idc := (is_id_continue u).
Notation START := (@START inp u b pf).
Notation TERM := (@TERM inp u b pf).
Notation EXPR := (@EXPR inp u b pf).
Notation OPN := (@OPN inp u b pf).
Notation opens := (opens u).
Notation ctx := (@ctx inp u).
Notation follows := (@follows inp).
Notation text := (x_text sf).
Notation ok := (ok u b pf sf).
Notation D := (raw_despan inp).
Notation DX := (x_map D leave).
Notation wears := (wears inp).
Notation same := (@same inp sf).

(** What is read, with texts in place of spans, is [e] up to layout; and its text is the text of [e]. *)
Definition Q (e : xexpr) (x : xexpr) : Prop := bare (DX x) = bare e /\ same e x.
Lemma Q_stable e : stable (Q e).
Proof. intros h x [H S]. split; [rewrite <- H; now destruct x|now apply same_upd]. Qed.
Lemma sticky_wide e : sticky e = true -> wide e = true.
Proof. induction e; cbn [sticky wide]; intros H; try discriminate; try reflexivity; auto. now rewrite IHe1. Qed.

Definition BaseOK (q h : bool) (e : xexpr) : Prop := is_base e = true -> forall rest, ends idc rest -> (is_num e = true -> nofrac rest) ->
  follows uncall h rest -> START h (text q e) (h || sticky e) (Q e) rest.
Definition TermOK (q h : bool) (e : xexpr) : Prop := is_term e = true -> forall rest, ctx untrav (wide e) h rest -> TERM h (text q e) (h || sticky e) (Q e) rest.
Definition operand (q h : bool) (e : xexpr) : Prop := opens (text q e) /\ is_term e = true /\ TermOK q h e.
(** The operands and operators of an operation. *)
Fixpoint mtree (e : xexpr) : optree xexpr (meta * binop) :=
  match e with XBinary _ l om o r => Node (mtree l) (om, o) (mtree r) | e => Leaf e end.
Definition layout (fl : bool) (p : meta * binop) : Prop :=
  tidy fl (fst p) /\ (snd p = OpMinus -> pre BOTH (fst p) <> []) /\ (snd p = OpDiv -> match suf BOTH (fst p) with c :: _ => c <> 47 | [] => True end).
Definition opx (q : bool) (p : (meta * binop) * xexpr) : str := around BOTH (fst (fst p)) (binop_str (snd (fst p))) ++ text q (snd p).
Definition LV (q h fl : bool) (e : xexpr) : Prop := is_cond e = false ->
  operand q h (head (mtree e)) /\ Forall (fun p => layout fl (fst p) /\ operand q fl (snd p)) (tail (mtree e)) /\
  text q e = text q (head (mtree e)) ++ flat_map (opx q) (tail (mtree e)).
Definition OpnOK (q h : bool) (e : xexpr) : Prop := is_cond e = false -> forall rest, ctx quiet1 (wide e) h rest -> OPN h (text q e) (h || sticky e) (fun x => Q e x /\ bald x) rest.
Definition ExprOK (q h : bool) (e : xexpr) : Prop := forall rest, ctx quiet2 (wide e) h rest -> EXPR h (text q e) (Q e) rest.
Definition P (e : xexpr) : Prop := forall q h fl, ok q h fl e ->
  opens (text q e) /\ BaseOK q h e /\ TermOK q h e /\ LV q h fl e /\ (fl = h || sticky e -> OpnOK q h e /\ ExprOK q h e).

Lemma base_term q h e : is_base e = true -> BaseOK q h e -> TermOK q h e.
Proof.
  intros HB H _ rest HC. apply back_plain.
  - apply H; [exact HB|apply HC|intros _; apply HC|now apply (ctx_call u untrav (wide e))].
  - apply Q_stable.
  - exact (ctx_at u untrav (wide e) h (sticky e) rest (sticky_wide e) HC).
Qed.
Lemma term_tree e : is_term e = true -> mtree e = Leaf e.
Proof. destruct e; try reflexivity; discriminate. Qed.
Lemma term_lv q h fl e : opens (text q e) -> is_term e = true -> TermOK q h e -> LV q h fl e.
Proof. intros HO HT H _. rewrite (term_tree e HT). cbn [head tail flat_map]. rewrite app_nil_r. split; [|split; [constructor|reflexivity]]. split; auto. Qed.
Lemma term_opn q h e : is_term e = true -> TermOK q h e -> OpnOK q h e.
Proof. intros HT H _ rest HC. apply opn_bald. apply H; [exact HT|]. eapply ctx_imp; [|exact HC]. apply quiet1_trav. Qed.
Lemma opn_expr q h e : is_cond e = false -> OpnOK q h e -> ExprOK q h e.
Proof.
  intros HT H rest HC. apply (back_opn u b pf h _ (h || sticky e)).
  - eapply opn_imp; [apply H; [exact HT|]|now intros x [Hx _]]. eapply ctx_imp; [|exact HC]. apply quiet2_1.
  - eapply follows_imp; [|exact (ctx_at u quiet2 (wide e) h (sticky e) rest (sticky_wide e) HC)]. cbn beta. unfold quiet2. intros r E. rewrite !andb_true_iff in E. destruct E as ((_ & ->) & ->). reflexivity.
Qed.
Lemma term_pack e : is_term e = true -> (forall q h fl, ok q h fl e -> opens (text q e) /\ BaseOK q h e /\ TermOK q h e) -> P e.
Proof.
  intros HT H q h fl HR. destruct (H q h fl HR) as (H1 & H2 & H3). assert (HN : is_cond e = false) by (destruct e; auto; discriminate).
  pose proof (term_opn q h e HT H3) as H4. split; [exact H1|split; [exact H2|split; [exact H3|split; [now apply term_lv|]]]]. intros _. split; [exact H4|now apply opn_expr].
Qed.
Lemma base_pack e : is_base e = true -> (forall q h fl, ok q h fl e -> opens (text q e) /\ BaseOK q h e) -> P e.
Proof.
  intros HB H. assert (HT : is_term e = true) by (destruct e; auto; discriminate). apply term_pack; [exact HT|]. intros q h fl HR. destruct (H q h fl HR) as (H1 & H2).
  split; [exact H1|]. split; [exact H2|]. now apply base_term.
Qed.

(** ** Operations *)
Lemma tree_head e : head (operands e) = head (mtree e).
Proof. induction e; try reflexivity. exact IHe1. Qed.
Lemma tree_tail e : tail (operands e) = map (fun p => (snd (fst p), snd p)) (tail (mtree e)).
Proof. induction e; try reflexivity. cbn [operands mtree tail]. rewrite map_app. cbn [map fst snd]. now rewrite IHe1, IHe2, tree_head. Qed.
Lemma tree_sticky e : sticky (head (mtree e)) = sticky e.
Proof. induction e; try reflexivity. exact IHe1. Qed.
Lemma tree_wide e : (wide (head (mtree e)) = true -> wide e = true) /\ Forall (fun p => wide (snd p) = true -> wide e = true) (tail (mtree e)).
Proof.
  induction e; cbn [mtree head tail]; try (split; [auto|constructor]).
  destruct IHe1 as [A1 A2], IHe2 as [B1 B2]. cbn [wide]. split; [intros H; now rewrite A1|].
  apply Forall_app. split; [eapply Forall_impl; [|exact A2]; cbn; intros p Hp H; now rewrite Hp|].
  constructor; [cbn; intros H; rewrite B1 by exact H; apply orb_true_r|]. eapply Forall_impl; [|exact B2]. cbn. intros p Hp H. rewrite Hp by exact H. apply orb_true_r.
Qed.
(** The operands are without white space of their own. *)
Fixpoint snugs (e : xexpr) : Prop := match e with XBinary _ l _ _ r => snug (x_meta l) /\ snug (x_meta r) /\ snugs l /\ snugs r | _ => True end.
Lemma ok_snugs q e : forall h fl, ok q h fl e -> snugs e.
Proof. induction e; intros h fl H; try exact I. destruct H as (_ & _ & R1 & R2 & S1 & S2 & _). split; [exact S1|]. split; [exact S2|]. split; [exact (IHe1 _ _ R1)|exact (IHe2 _ _ R2)]. Qed.
Definition gaps_of (om : meta) (o : binop) : gapped := (pre BOTH om, suf BOTH om, o).
Fixpoint gtree (e : xexpr) : optree (xexpr -> Prop) gapped :=
  match e with XBinary _ l om o r => Node (gtree l) (gaps_of om o) (gtree r) | e => Leaf (Q e) end.
Definition opq (p : (meta * binop) * xexpr) : gapped * (xexpr -> Prop) := (gaps_of (fst (fst p)) (snd (fst p)), Q (snd p)).
Lemma gtree_head e : head (gtree e) = Q (head (mtree e)).
Proof. induction e; try reflexivity. exact IHe1. Qed.
Lemma gtree_tail e : tail (gtree e) = map opq (tail (mtree e)).
Proof. induction e; try reflexivity. cbn [gtree mtree tail]. rewrite map_app. cbn [map]. now rewrite IHe1, IHe2, gtree_head. Qed.
Lemma gtree_root n e : root_ge (fun o => o) n (operands e) -> root_ge snd n (gtree e).
Proof. destruct e; auto. Qed.
Lemma gtree_grouped e : grouped (fun o => o) (operands e) -> grouped snd (gtree e).
Proof. induction e; auto. cbn [operands gtree grouped]. intros (H1 & H2 & H3 & H4). repeat split; auto using gtree_root. Qed.
Lemma gtree_ops e : map (fun a => snd (fst a)) (tail (gtree e)) = map fst (tail (operands e)).
Proof. rewrite gtree_tail, tree_tail, !map_map. reflexivity. Qed.
Lemma fits_Q e : snugs e -> forall x, @gfits inp (gtree e) x -> Q e x.
Proof.
  induction e; intros HS xx; try (cbn [gtree gfits]; auto; fail).
  cbn [gtree gfits]. intros (mm & xl & m2 & xr & -> & (_ & W) & (F1 & B1) & F2 & B2). destruct HS as (N1 & N2 & S1 & S2). apply (IHe1 S1) in F1. apply (IHe2 S2) in F2. destruct F1 as [E1 T1], F2 as [E2 T2]. cbn [snd gaps_of]. split.
  - change (XBinary no_meta (bare (DX xl)) no_meta o (bare (DX xr)) = XBinary no_meta (bare e1) no_meta o (bare e2)). now rewrite E1, E2.
  - intros (Y1 & L1 & Y2 & L2 & G1 & G2) q.
    change (text_in (text q) NO (DX xl) ++ around BOTH (meta_map leave m2) (binop_str o) ++ text_in (text q) NO (DX xr) = text_in (text q) NO e1 ++ around BOTH om (binop_str o) ++ text_in (text q) NO e2).
    rewrite (bald_in sf q xl B1 (lone_read xl e1 E1 L1)), (bald_in sf q xr B2 (lone_read xr e2 E2 L2)), (left_around _ _ _ _ _ W), (T1 Y1), (T2 Y2), !snug_in by assumption.
    cbn [gaps_of fst snd BOTH]. rewrite (one_gap_left _ G1), (one_gap_left _ G2). reflexivity.
Qed.
Lemma layout_gaps fl p : layout fl p -> Gap fl (pre BOTH (fst p)) /\ Gap fl (suf BOTH (fst p)) /\ (snd p = OpDiv -> ends (N.eqb 47) (suf BOTH (fst p))).
Proof.
  intros ((H1 & H2) & _ & H3). destruct df_ok as (_ & _ & _ & D4). split; [now apply pre_gap|]. split; [now apply suf_gap|]. intros E. specialize (H3 E).
  destruct (suf BOTH (fst p)) as [|c s]; [exact I|]. cbn [ends]. apply N.eqb_neq. congruence.
Qed.
Lemma op_ctx w nl fl p t r : layout fl p -> opens t -> ctx untrav w nl ((pre BOTH (fst p) ++ binop_str (snd p) ++ suf BOTH (fst p) ++ t) ++ r).
Proof.
  intros HL HO. destruct (layout_gaps fl p HL) as (G1 & G2 & G3). destruct (op_next u HU fl (snd p) _ t r G2 G3 HO) as (d & s & E & E1 & E2 & E3).
  destruct (@back_binop_clear true (snd p) d s E3 E2 E1) as (C1 & _ & _). rewrite <- E in C1.
  rewrite <- !app_assoc. rewrite <- app_assoc in C1, E. apply (ctx_gap u HU untrav w nl fl); auto using lax_untrav.
  - rewrite E. destruct p as [om o]. cbn [snd]. destruct o; reflexivity.
  - rewrite E. destruct p as [om o]. cbn [snd]. destruct o; reflexivity.
  - destruct p as [om o]. cbn [fst snd] in *. destruct o; try (left; now apply (not_cont u HU)). right. now apply HL.
  - left. destruct p as [om o]. cbn [snd]. destruct o; exact I.
Qed.
Lemma opx_text q p : opx q p = pre BOTH (fst (fst p)) ++ binop_str (snd (fst p)) ++ suf BOTH (fst (fst p)) ++ text q (snd p).
Proof. unfold opx, around. now rewrite <- !app_assoc. Qed.
Lemma ops_ctx q w fl rest l : Forall (fun p => layout fl (fst p) /\ operand q fl (snd p)) l -> ctx quiet1 w fl rest -> ctx untrav w fl (flat_map (opx q) l ++ rest).
Proof.
  intros HL H. destruct l as [|p l]; cbn [flat_map app]; [eapply ctx_imp; [|exact H]; apply quiet1_trav|]. inversion HL as [|? ? (L1 & L2 & _) _]; subst.
  rewrite <- app_assoc. rewrite opx_text. now apply (op_ctx w fl fl).
Qed.
Lemma ops_ok q w fl rest l : Forall (fun p => layout fl (fst p) /\ operand q fl (snd p)) l -> Forall (fun p => wide (snd p) = true -> w = true) l ->
  ctx quiet1 w fl rest -> @OPS inp u b pf fl rest (flat_map (opx q) l) (map opq l).
Proof.
  intros HO HW HC. induction l as [|p l IH]; cbn [flat_map map].
  - constructor. eapply follows_imp; [|exact (ctx_here u quiet1 w fl rest HC)]. apply quiet1_bin.
  - inversion HO as [|? ? (L1 & O1 & T1 & K1) H2]; subst. inversion HW as [|? ? W1 W2]; subst. rewrite opx_text. destruct (layout_gaps fl (fst p) L1) as (G1 & G2 & G3).
    apply (OPS_cons u b pf fl rest (snd (fst p)) _ _ (text q (snd p)) (fl || sticky (snd p))); auto.
    apply K1; [exact T1|]. exact (ctx_weaken u untrav w (wide (snd p)) fl _ W1 (ops_ctx q w fl rest l H2 HC)).
Qed.
Lemma binary_opn q h m l om o r : snugs (XBinary m l om o r) -> LV q h (h || sticky l) (XBinary m l om o r) ->
  grouped (fun o => o) (operands (XBinary m l om o r)) -> ~ chained (map fst (tail (operands (XBinary m l om o r)))) -> OpnOK q h (XBinary m l om o r).
Proof.
  set (e := XBinary m l om o r). intros HSn HL HG HN _ rest HC. destruct (HL eq_refl) as (H1 & H2 & ->). destruct (tree_wide e) as [W1 W2].
  change (sticky e) with (sticky l). set (fl := h || sticky l) in *.
  assert (HT : exists p t1, tail (mtree e) = p :: t1).
  { cbn [e mtree tail]. destruct (tail (mtree l)) as [|p t1]; cbn [app]; eauto. }
  destruct HT as (p & t1 & ET). pose proof (gtree_tail e) as TT. rewrite ET in *. cbn [flat_map]. rewrite opx_text.
  inversion H2 as [|? ? (L1 & O1 & T1 & K1) H2']; subst. inversion W2 as [|? ? W3 W4]; subst. destruct H1 as (O0 & T0 & K0).
  eapply (opn_imp u b pf _ _ _ (fun x => @gfits inp (gtree e) x /\ bald x)); [|intros x [Hx HB]; exact (conj (fits_Q e HSn x Hx) HB)].
  assert (HC' : ctx quiet1 (wide e) fl rest) by (apply (ctx_raise u quiet1 (wide e) h (sticky l) rest); [apply (sticky_wide e)|exact HC]).
  destruct (layout_gaps fl (fst p) L1) as (G1 & G2 & G3).
  assert (S0 : h || sticky (head (mtree e)) = fl) by (rewrite tree_sticky; reflexivity).
  apply (back_binary u b pf HU h _ fl (gtree e) (snd (fst p)) _ _ (text q (snd p)) (fl || sticky (snd p)) (Q (snd p)) (flat_map (opx q) t1) (map opq t1)); auto.
  - rewrite gtree_head, <- S0. apply K0; [exact T0|]. now apply (op_ctx _ h fl).
  - apply K1; [exact T1|]. exact (ctx_weaken u untrav (wide e) (wide (snd p)) _ _ W3 (ops_ctx q (wide e) _ rest t1 H2' HC')).
  - now apply (ops_ok q (wide e)).
  - now apply gtree_grouped.
  - rewrite gtree_ops. exact HN.
Qed.
Lemma P_binary m l om o r : P l -> P r -> P (XBinary m l om o r).
Proof.
  intros IHl IHr q h fl HR. pose proof (ok_snugs q _ h fl HR) as HSn. destruct HR as (N1 & N2 & R1 & R2 & S1 & S2 & TD & L1 & L2 & HG & HN).
  destruct (IHl q h fl R1) as (_ & _ & _ & A & _), (IHr q fl fl R2) as (_ & _ & _ & B & _).
  assert (HL : LV q h fl (XBinary m l om o r)).
  { intros _. destruct (A N1) as (A1 & A2 & A3), (B N2) as (B1 & B2 & B3). cbn [mtree head tail]. split; [exact A1|]. split.
    - apply Forall_app. split; [exact A2|]. constructor; [|exact B2]. cbn [fst snd]. split; [|exact B1]. split; [exact TD|]. split; [exact L1|exact L2].
    - change (text q (XBinary m l om o r)) with (text_in (text q) NO l ++ around BOTH om (binop_str o) ++ text_in (text q) NO r).
      rewrite !snug_in by assumption. rewrite A3 at 1. rewrite B3 at 1. rewrite flat_map_app. cbn [flat_map].
      change (opx q (om, o, head (mtree r))) with (around BOTH om (binop_str o) ++ text q (head (mtree r))). now rewrite <- !app_assoc. }
  split; [|split; [discriminate|split; [discriminate|split; [exact HL|]]]].
  - destruct (HL eq_refl) as ((O1 & _) & F & ->). destruct (tail (mtree (XBinary m l om o r))) as [|p t] eqn:ET; [cbn [flat_map]; now rewrite app_nil_r|]. inversion F as [|? ? (F1 & F2 & _) _]; subst.
    cbn [flat_map]. rewrite opx_text. apply opens_app; [exact O1|]. exact (proj1 (op_ctx false false fl (fst p) _ _ F1 F2)).
  - intros ->. assert (HO : OpnOK q h (XBinary m l om o r)) by now apply binary_opn. split; [exact HO|]. now apply opn_expr.
Qed.

(** ** Conditionals *)
Lemma P_cond m a d f : P a -> P d -> P f -> P (XCond m a d f).
Proof.
  intros IHa IHd IHf q h fl HR. destruct HR as (N1 & R1 & R2 & R3 & G1 & G2 & (G3 & G4) & G5 & G6). set (k := h || sticky a) in *.
  destruct (IHa q h _ R1) as (OA & _ & _ & _ & HA), (IHd q k _ R2) as (OD & _ & _ & _ & HD), (IHf q k _ R3) as (OF & _ & _ & _ & HF).
  destruct (HA eq_refl) as [HA1 _], (HD eq_refl) as [_ HD2], (HF eq_refl) as [_ HF2]. clear HA HD HF.
  destruct df_ok as (D1 & D2 & D3 & D4).
  assert (ET : text q (XCond m a d f) = text q a ++ suf TRAILING (x_meta a) ++ [63] ++ (pre BOTH (x_meta d) ++ text q d ++ suf BOTH (x_meta d)) ++ [58] ++ pre LEADING (x_meta f) ++ text q f).
  { change (text q (XCond m a d f)) with (text_in (text q) TRAILING a ++ [63] ++ text_in (text q) BOTH d ++ [58] ++ text_in (text q) LEADING f). unfold text_in, around.
    rewrite (pre_no _ TRAILING), G1, (suf_no _ LEADING), G6 by reflexivity. rewrite app_nil_r. cbn [app]. now rewrite <- !app_assoc. }
  pose proof (suf_gap TRAILING k _ D3 G2) as X1. pose proof (pre_gap BOTH k _ D4 G3) as X2. pose proof (suf_gap BOTH k _ D4 G4) as X3. pose proof (pre_gap LEADING k _ D2 G5) as X4.
  rewrite ET.
  assert (CA : forall F w nl r, F = quiet1 -> ctx F w nl (suf TRAILING (x_meta a) ++ [63] ++ r)) by (intros F w nl r ->; apply (ctx_sign u HU quiet1 w nl k); auto using lax_quiet1; discriminate).
  split; [|split; [discriminate|split; [discriminate|split; [discriminate|]]]].
  - apply opens_app; [exact OA|]. exact (proj1 (CA quiet1 false false _ eq_refl)).
  - intros _. split; [discriminate|]. intros rest HC. unfold ExprOK. rewrite ET. cbn [wide] in HC.
    apply (back_cond u b pf HU h _ k (Q a) _ _ (text q d) (Q d) _ _ (text q f) (Q f)); auto using Q_stable.
    + apply HD2. apply (ctx_sign u HU quiet2 _ _ k); auto using lax_quiet2. intros _. destruct (opens_clear u HU true (text q f) rest OF) as [C1 C2].
      destruct (pre LEADING (x_meta f)) as [|c g] eqn:E.
      * destruct OF as (c & t' & -> & HF & _). cbn [app starts_with]. rewrite N.eqb_sym, (first_char_not u HU c 58) by (try exact HF; reflexivity). reflexivity.
      * apply Gap_head in X4. cbn [app starts_with]. destruct (N.eqb_spec 58 c) as [<-|_]; [|reflexivity]. destruct X4 as [X4|[X4|X4]]; try discriminate. now destruct k.
    + apply HF2. eapply ctx_weaken; [|apply ctx_raise; [|exact HC]].
      * intros ->. apply orb_true_r.
      * intros S. now rewrite (sticky_wide a S).
    + intros mm xa xd xf [A1 T1] W1 [A2 T2] W2 [A3 T3] W3. split.
      * change (XCond no_meta (bare (DX xa)) (bare (DX xd)) (bare (DX xf)) = XCond no_meta (bare a) (bare d) (bare f)). now rewrite A1, A2, A3.
      * intros (Y1 & Y2 & Y3 & L) q'. specialize (W3 (lone_read xf f A3 L)).
        change (text_in (text q') TRAILING (DX xa) ++ [63] ++ text_in (text q') BOTH (DX xd) ++ [58] ++ text_in (text q') LEADING (DX xf) =
          text_in (text q') TRAILING a ++ [63] ++ text_in (text q') BOTH d ++ [58] ++ text_in (text q') LEADING f).
        rewrite (worn_in sf q' TRAILING _ _ xa a W1), (worn_in sf q' BOTH _ _ xd d W2), (worn_in sf q' LEADING _ _ xf f W3); auto.
Qed.

(** ** Terms *)
Lemma word_pack x e : is_base e = true -> is_num e = false -> sticky e = false -> (forall q, text q e = x) ->
  (forall q h fl, ok q h fl e -> is_ident u x = true /\ x <> lit "for" /\ Q e (keyword x)) -> P e.
Proof.
  intros HB HN HS HT H. apply base_pack; [exact HB|]. intros q h fl HR. destruct (H q h fl HR) as (H1 & H2 & H3). rewrite HT. split; [now apply EatName.opens_word|].
  intros _ rest He _ Hc. rewrite HT, HS, orb_false_r. now apply (back_ident u b pf HU).
Qed.
Lemma P_null m : P (XNull m).
Proof. apply (word_pack (lit "null")); try reflexivity. intros. split; [now apply (EatName.ident_letters u HU)|]. split; [discriminate|now split]. Qed.
Lemma P_bool m v : P (XBool m v).
Proof.
  apply (word_pack (if v then lit "true" else lit "false")); try reflexivity. intros. destruct v; (split; [now apply (EatName.ident_letters u HU)|]); (split; [discriminate|now split]).
Qed.
Lemma variable_ok x : variable u x -> is_ident u x = true /\ x <> lit "for" /\ keyword x = XVar no_meta x.
Proof. intros (H & E). split; [exact H|]. split; [intros ->; discriminate|]. now apply EatName.keyword_var. Qed.
Lemma P_var m x : P (XVar m x).
Proof. apply (word_pack x); try reflexivity. intros q h fl HR. destruct (variable_ok x HR) as (H1 & H2 & H3). rewrite H3. split; [exact H1|]. split; [exact H2|now split]. Qed.
Lemma P_num m n r : P (XNum m n r).
Proof.
  apply base_pack; [reflexivity|]. intros q h fl HR. change (text q (XNum m n r)) with (num_repr sf n r).
  change (num_ok b pf (num_repr sf n r) n) in HR. unfold BaseOK. cbn [is_base is_num sticky]. rewrite orb_false_r. change (text q (XNum m n r)) with (num_repr sf n r).
  destruct HR as [H|(w & t' & n' & E & Hw & Ht & Hn)].
  - split.
    + destruct (number_text_head b pf _ n H) as (c & t' & -> & Hd). apply (opens_other u HU). rewrite Hd. apply orb_true_r.
    + intros _ rest He Hf _ k _. apply (start_number u b pf _ h _ n); auto; [now apply (numend_idc u HU)|]. split; [reflexivity|]. intros _ q'. apply raw_of_str_enc.
  - rewrite E. split; [now apply (opens_other u HU)|]. intros _ rest He Hf _. apply (back_negative u b pf h w t' n' n); auto; [now apply gap_spec|now apply (numend_idc u HU)|]. split; [reflexivity|]. intros _ q'. change (raw_enc (raw_of_str ([45] ++ w ++ t')) [] = num_repr sf n r). rewrite raw_of_str_enc. now symmetry.
Qed.
Lemma P_str m s : P (XStr m s).
Proof.
  apply base_pack; [reflexivity|]. intros q h fl HR. split; [now apply (opens_other u HU)|]. intros _ rest _ _ _. cbn [sticky]. rewrite orb_false_r. intros k _.
  apply (start_string u b pf _ h s); [now apply quoted_reads|now split].
Qed.
(** Expressions between brackets. *)
Definition inside (q h : bool) (e : xexpr) : Prop := opens (text q e) /\ ExprOK q h e.
Lemma P_sub q h e : P e -> sub (ok q) h e -> inside q h e.
Proof. intros HP H. destruct (HP q h _ H) as (H1 & _ & _ & _ & H5). split; [exact H1|]. now apply (H5 eq_refl). Qed.
Lemma text_in_eq q df e : text_in (text q) df e = pre df (x_meta e) ++ text q e ++ suf df (x_meta e).
Proof. reflexivity. Qed.
Lemma P_paren m e : P e -> P (XParen m e).
Proof.
  intros IH. apply base_pack; [reflexivity|]. intros q h fl (HT & HR). destruct (P_sub q true e IH HR) as (HO & HE). split; [now apply (opens_other u HU)|]. intros _ rest _ _ _. cbn [sticky]. rewrite orb_false_r.
  change (text q (XParen m e)) with ([40] ++ text_in (text q) NO e ++ [41]). rewrite text_in_eq. destruct df_ok as (D1 & _), HT as (T1 & T2).
  apply (back_paren u b pf HU h _ (text q e) _ (Q e)); auto using Q_stable.
  - now apply pre_gap.
  - now apply suf_gap.
  - apply HE. apply (ctx_close u HU _ _ true); [now apply suf_gap|now left].
  - intros mm x [HQ T] W. split; [change (XParen no_meta (bare (DX x)) = XParen no_meta (bare e)); now rewrite HQ|]. intros Y q'.
    change ([40] ++ text_in (text q') NO (DX x) ++ [41] = [40] ++ text_in (text q') NO e ++ [41]). now rewrite (worn_in sf q' NO _ _ x e W) by auto.
Qed.
Lemma P_unary m s o e : P e -> P (XUnary m s o e).
Proof.
  intros IH. apply term_pack; [reflexivity|]. intros q h fl (HT & HR & G1 & G2 & HD). destruct (IH q h _ HR) as (HO & _ & HE & _).
  split; [destruct o; now apply (opens_other u HU)|]. split; [discriminate|]. intros _ rest HC. cbn [sticky wide] in *. rewrite orb_false_r.
  change (text q (XUnary m s o e)) with (unop_str o ++ text_in (text q) NO e). rewrite text_in_eq, G2, app_nil_r. apply back_plain.
  - apply (back_unary u b pf HU h o _ (text q e) (h || sticky e) (Q e)); auto using Q_stable.
    + now apply gap_spec.
    + intros E. specialize (HD E). destruct (text q e); [exact I|exact HD].
    + intros mm s' x [HQ T] W. split; [change (XUnary no_meta None o (bare (DX x)) = XUnary no_meta None o (bare e)); now rewrite HQ|]. intros [Y L] q'.
      change (unop_str o ++ text_in (text q') NO (DX x) = unop_str o ++ text_in (text q') NO e). rewrite (worn_in sf q' NO _ _ x e (W (lone_read x e HQ L))); auto.
  - apply Q_stable.
  - exact (ctx_here u untrav (wide e) h rest HC).
Qed.

(** ** Sequences *)
Definition cell (q : bool) (e : xexpr) : Prop := tidy true (x_meta e) /\ inside q true e.
Lemma P_slots q l : Forall P l -> lall (elem_in (ok q) true) l -> Forall (cell q) l.
Proof. induction 1 as [|e l H _ IH]; [constructor|]. intros [[H1 H2] H3]. constructor; [|now apply IH]. split; [exact H1|]. now apply P_sub. Qed.
Definition held (df : str * str) (e : xexpr) : xexpr -> Prop := @slot inp (pre df (x_meta e)) (suf df (x_meta e)) (Q e).
Definition helds (l : list xexpr) : list (xexpr -> Prop) := match l with [] => [] | e :: l => held NO e :: map (held LEADING) l end.
Lemma held_in q df e x : held df e x -> settled e -> text_in (text q) df (DX x) = text_in (text q) df e.
Proof. intros H Y. apply (slot_in sf q df x e _ H). now apply H. Qed.
Lemma elems_ok q rest : (forall w g, Gap true g -> ctx quiet2 w true (g ++ rest)) -> forall es, Forall (cell q) es ->
  @MORE inp u b pf rest (flat_map (fun y => [44] ++ text_in (text q) LEADING y) es) (map (held LEADING) es) /\
  forall w g, Gap true g -> ctx quiet2 w true (g ++ flat_map (fun y => [44] ++ text_in (text q) LEADING y) es ++ rest).
Proof.
  intros Hr. destruct df_ok as (_ & D2 & _). induction 1 as [|e es ((T1 & T2) & HO & HE) _ (IH1 & IH2)]; cbn [flat_map map].
  - split; [constructor|exact Hr].
  - split.
    + rewrite <- app_assoc. rewrite text_in_eq. constructor; auto using Q_stable.
      * now apply pre_gap.
      * now apply suf_gap.
      * apply HE, IH2. now apply suf_gap.
    + intros w g Hg. apply (ctx_close u HU _ _ true); [exact Hg|cbn; auto].
Qed.
Lemma alls_Q df es xs : alls (map (held df) es) xs -> map bare (map DX xs) = map bare es /\
  (lall settled es -> forall q, flat_map (fun y => [44] ++ text_in (text q) df y) (map DX xs) = flat_map (fun y => [44] ++ text_in (text q) df y) es).
Proof.
  unfold alls. revert xs. induction es as [|e es IH]; intros xs H; cbn [map] in H; inversion H as [|? x ? xs' HA HX]; subst; [auto|]. cbn [map flat_map lall]. destruct (IH xs' HX) as [I1 I2]. split.
  - rewrite I1. f_equal. apply HA.
  - intros [Y1 Y2] q. now rewrite (I2 Y2), (held_in q df e x HA Y1).
Qed.
Lemma commas_Q l xs : alls (helds l) xs -> map bare (map DX xs) = map bare l /\ (lall settled l -> forall q, commas (text_in (text q)) (map DX xs) = commas (text_in (text q)) l).
Proof.
  destruct l as [|e l]; cbn [helds]; intros H; inversion H as [|? x ? xs' HA HX]; subst; [auto|]. cbn [map commas lall]. destruct (alls_Q LEADING l xs' HX) as [I1 I2]. split.
  - rewrite I1. f_equal. apply HA.
  - intros [Y1 Y2] q. now rewrite (I2 Y2), (held_in q NO e x HA Y1).
Qed.
Lemma none_Q {A} (xs l : list xexpr) (a c : A) : map bare (map DX xs) = map bare l -> match map DX xs with [] => a | _ => c end = match l with [] => a | _ => c end.
Proof. destruct xs, l; try discriminate; reflexivity. Qed.
Lemma P_arr m l c t : Forall P l -> P (XArr m l c t).
Proof.
  intros IH. apply base_pack; [reflexivity|]. intros q h fl (HR & (HT & HG) & HL). pose proof (P_slots q l IH HR) as HS. clear IH HR. split; [now apply (opens_other u HU)|].
  intros _ rest _ _ _. cbn [sticky]. rewrite orb_true_r. apply gap_spec in HG.
  change (text q (XArr m l c t)) with ([91] ++ commas (text_in (text q)) l ++ match l with [] => [] | _ => if c then [44] else [] end ++ raw_enc t [] ++ [93]).
  destruct l as [|e l].
  - cbn [commas app]. apply (back_array_nil u b pf); [exact HG|]. intros mm x Hx. rewrite HT in Hx. rewrite HL. split.
    + change (XArr no_meta [] false (D x) = XArr no_meta [] false t). now rewrite Hx.
    + intros _ q'. change ([91] ++ raw_enc (D x) [] ++ [93] = [91] ++ raw_enc t [] ++ [93]). now rewrite Hx.
  - cbn [commas]. set (tr := raw_enc t []) in *. assert (HE : c = false -> tr = []) by (intros E; unfold tr; now rewrite (HL E)).
    inversion HS as [|? ? ((T1 & T2) & HO & HX) HS']; subst. destruct df_ok as (D1 & _).
    assert (HC : forall w g, Gap true g -> ctx quiet2 w true (g ++ comma c ++ tr ++ [93] ++ rest)).
    { intros w g Hg. destruct c; [|rewrite (HE eq_refl)]; (apply (ctx_close u HU _ _ true); [exact Hg|cbn; auto]). }
    destruct (elems_ok q (comma c ++ tr ++ [93] ++ rest) HC l HS') as (M1 & M2).
    assert (GS : Gap true (suf NO (x_meta e))) by now apply suf_gap.
    replace ([91] ++ (text_in (text q) NO e ++ flat_map (fun y => [44] ++ text_in (text q) LEADING y) l) ++ (if c then [44] else []) ++ tr ++ [93])
      with ([91] ++ ((pre NO (x_meta e) ++ text q e ++ suf NO (x_meta e)) ++ flat_map (fun y => [44] ++ text_in (text q) LEADING y) l) ++ (comma c ++ tr) ++ [93])
      by (rewrite <- (app_assoc (comma c)); reflexivity).
    apply (back_array u b pf HU h _ (text q e) _ (Q e) _ (map (held LEADING) l) c tr); auto using Q_stable.
    + now apply pre_gap.
    + exact (proj1 (M2 false _ GS)).
    + intros mm xs x HA Hx. destruct (commas_Q (e :: l) xs HA) as [E1 E2]. unfold tr in Hx. rewrite HT in Hx. split.
      * change (XArr no_meta (map bare (map DX xs)) c (D x) = XArr no_meta (map bare (e :: l)) c t). now rewrite E1, Hx.
      * intros Y q'. change ([91] ++ commas (text_in (text q')) (map DX xs) ++ match map DX xs with [] => [] | _ => if c then [44] else [] end ++ raw_enc (D x) [] ++ [93] =
          [91] ++ commas (text_in (text q')) (e :: l) ++ match e :: l with [] => [] | _ => if c then [44] else [] end ++ raw_enc t [] ++ [93]).
        rewrite (E2 Y), Hx. now rewrite (none_Q xs (e :: l) _ _ E1).
Qed.

(** ** Calls *)
Definition gid_of (df : str * str) (i : did) : gid := (pre df (i_meta i), i_name i, suf df (i_meta i)).
Lemma gid_of_text df i : gid_text (gid_of df i) = did_text df i.
Proof. reflexivity. Qed.
Lemma bare_names a c : map i_name a = map i_name c -> map bare_did (map (did_map D) a) = map bare_did c.
Proof. revert c. induction a as [|x a IH]; intros [|y c]; cbn [map]; try discriminate; auto. intros [= E1 E2]. rewrite (IH c E2). f_equal. unfold bare_did, did_map. cbn. now rewrite E1. Qed.
Lemma names_join ns n i is : ns ++ [n] = i :: is -> flat_map (fun i => did_text NO i ++ lit "::") ns ++ did_text NO n = did_text NO i ++ back_comps (map (gid_of NO) is).
Proof.
  revert n i is. induction ns as [|x ns IH]; intros n i is E; cbn [app] in E.
  - injection E as <- <-. cbn. now rewrite !app_nil_r.
  - injection E as <- <-. cbn [flat_map]. rewrite <- !app_assoc. f_equal. destruct (ns ++ [n]) as [|j js] eqn:EN; [now destruct ns|]. rewrite (IH n j js EN). unfold back_comps. cbn [map flat_map].
    rewrite gid_of_text, <- app_assoc. reflexivity.
Qed.
Lemma names_text ns n i is : ns ++ [n] = i :: is -> pre NO (i_meta i) = [] ->
  flat_map (fun i => did_text NO i ++ lit "::") ns ++ did_text NO n = i_name i ++ suf NO (i_meta i) ++ back_comps (map (gid_of NO) is).
Proof.
  intros E HP. rewrite (names_join ns n i is E). unfold did_text, around. rewrite HP. cbn [app]. now rewrite <- app_assoc.
Qed.
Lemma comps_same is k : Forall2 (@gid_fits inp) (map (gid_of NO) is) k -> map i_name k = map i_name is /\ back_comps (map (gid_of NO) (map (did_map D) k)) = back_comps (map (gid_of NO) is).
Proof.
  revert k. induction is as [|i is IH]; intros k H; inversion H as [|? j ? k' HA HX]; subst; [auto|]. destruct (IH k' HX) as [I1 I2]. unfold back_comps in *. cbn [map flat_map]. split.
  - rewrite I1. f_equal. apply HA.
  - rewrite I2, !gid_of_text. now rewrite (gid_in NO i j HA).
Qed.
Lemma P_call m ns n am args ex co t : Forall P args -> P (XCall m ns n am args ex co t).
Proof.
  intros IH. apply base_pack; [reflexivity|]. intros q h fl (HN & HF & HA & HR & ((HT & HG) & HL) & HX). pose proof (P_slots q args IH HR) as HS. clear IH HR. destruct df_ok as (D1 & _).
  destruct (ns ++ [n]) as [|i is] eqn:EN; [now destruct ns|]. destruct HN as [[N1 N2] N3]. destruct HF as [F1 F2]. apply gap_spec in HG.
  assert (GI : Forall (gid_ok u h) (map (gid_of NO) is)).
  { clear -N3 D1. induction is as [|j is IH]; [constructor|]. destruct N3 as [[J1 [J2 J3]] N3]. constructor; [|now apply IH]. split; [now apply pre_gap|]. split; [exact J1|now apply suf_gap]. }
  assert (GS : Gap h (suf NO (i_meta i))) by (apply suf_gap; [exact D1|apply N2]).
  set (body := commas (text_in (text q)) args ++ match args with [] => [] | _ => if ex then lit "..." else if co then [44] else [] end ++ raw_enc t []).
  assert (ET : text q (XCall m ns n am args ex co t) = i_name i ++ suf NO (i_meta i) ++ back_comps (map (gid_of NO) is) ++ [40] ++ body ++ [41]).
  { change (text q (XCall m ns n am args ex co t)) with (flat_map (fun i => did_text NO i ++ lit "::") ns ++ did_text NO n ++ around NO am ([40] ++ commas (text_in (text q)) args ++
      match args with [] => [] | _ => if ex then lit "..." else if co then [44] else [] end ++ raw_enc t [] ++ [41])).
    unfold around. destruct HA as [-> ->]. rewrite app_nil_r. rewrite (app_assoc (flat_map _ _)), (names_text ns n i is EN F1). unfold body. cbn [app]. now rewrite <- !app_assoc. }
  assert (He : forall r, ends idc (suf NO (i_meta i) ++ back_comps (map (gid_of NO) is) ++ [40] ++ r)).
  { intros r. apply (@gap_idc inp u HU h); [exact GS|]. left. destruct (map (gid_of NO) is); now apply (not_cont u HU). }
  split; [rewrite ET; now apply opens_id|]. intros _ rest _ _ _. rewrite ET. cbn [sticky]. rewrite orb_true_r.
  assert (HQ : forall mm ns' name m' ys z, @call_fits inp (i_name i) (suf NO (i_meta i)) (map (gid_of NO) is) (ns' ++ [name]) -> wears None None m' -> alls (helds args) ys ->
    D z = raw_of_str (raw_enc t []) -> Q (XCall m ns n am args ex co t) (XCall mm ns' name m' ys ex co z)).
  { intros mm ns' name m' ys z (j & k & EJ & E1 & W1 & F) W2 HY HZ. destruct (comps_same is k F) as [E2 E3]. destruct (commas_Q args ys HY) as [Y1 Y2]. rewrite HT in HZ. split.
    - assert (E4 : map i_name (ns' ++ [name]) = map i_name (ns ++ [n])) by (rewrite EJ, EN; cbn [map]; now rewrite E1, E2).
      rewrite !map_app in E4. apply app_inj_tail in E4. destruct E4 as [E4 E5].
      change (XCall no_meta (map bare_did (map (did_map D) ns')) (bare_did (did_map D name)) no_meta (map bare (map DX ys)) ex co (D z) =
            XCall no_meta (map bare_did ns) (bare_did n) no_meta (map bare args) ex co t).
      rewrite (bare_names _ _ E4), Y1, HZ. f_equal. unfold bare_did, did_map. cbn. now rewrite E5.
    - intros Y q'.
      change (flat_map (fun i => did_text NO i ++ lit "::") (map (did_map D) ns') ++ did_text NO (did_map D name) ++ around NO (meta_map D m') ([40] ++ commas (text_in (text q')) (map DX ys) ++
          match map DX ys with [] => [] | _ => if ex then lit "..." else if co then [44] else [] end ++ raw_enc (D z) [] ++ [41]) =
        flat_map (fun i => did_text NO i ++ lit "::") ns ++ did_text NO n ++ around NO am ([40] ++ commas (text_in (text q')) args ++
          match args with [] => [] | _ => if ex then lit "..." else if co then [44] else [] end ++ raw_enc t [] ++ [41])).
      rewrite (Y2 Y), HZ, (none_Q ys args _ _ Y1), (wears_around inp NO _ _ _ _ W2). cbn [worn NO fst snd app]. rewrite app_nil_r. unfold around at 1. destruct HA as [-> ->]. rewrite app_nil_r. cbn [app].
      rewrite !app_assoc. f_equal. rewrite (names_join ns n i is EN), (names_join (map (did_map D) ns') (did_map D name) (did_map D j) (map (did_map D) k)), E3.
      + f_equal. unfold did_text. change (i_meta (did_map D j)) with (meta_map D (i_meta j)). rewrite (wears_around inp NO _ _ _ _ W1). cbn [worn NO fst snd app i_name did_map]. unfold around. now rewrite F1, E1.
      + change [did_map D name] with (map (did_map D) [name]). rewrite <- map_app, EJ. reflexivity. }
  apply (back_call u b pf HU h (i_name i) _ (map (gid_of NO) is) body (helds args) ex co (raw_enc t [])); auto.
  unfold body. destruct args as [|e args].
  - cbn [commas app helds]. apply orb_false_iff in HL. destruct HL as [-> ->]. now constructor.
  - cbn [commas helds]. inversion HS as [|? ? ((T1 & T2) & HO & HE) HS']; subst. set (tr := raw_enc t []) in *.
    assert (HM : mark ex co = [] -> tr = []). { intros E. unfold tr. rewrite HL; [reflexivity|]. now destruct ex, co. }
    assert (HC : forall w g, Gap true g -> ctx quiet2 w true (g ++ mark ex co ++ tr ++ [41] ++ rest)).
    { intros w g Hg. destruct ex; [now apply (ctx_dots u HU _ _ true)|]. destruct co; [|rewrite (HM eq_refl)]; (apply (ctx_close u HU _ _ true); [exact Hg|cbn; auto]). }
    destruct (elems_ok q (mark ex co ++ tr ++ [41] ++ rest) HC args HS') as (M1 & M2). change (if ex then lit "..." else if co then [44] else []) with (mark ex co). rewrite text_in_eq.
    apply ARGS_cons; auto using Q_stable.
    + now apply pre_gap.
    + now apply suf_gap.
    + apply HE, M2. now apply suf_gap.
Qed.

(** ** Traversals *)
Definition PO (o : xop) : Prop := match o with XIndex e => P e | _ => True end.
Definition PT (o : xtrop) : Prop := match o with XTrop _ o => PO o end.
Definition Qo (o x : xop) : Prop := bare_op (op_map D leave x) = bare_op o /\ (settled_op o -> forall q, op_text sf q (op_map D leave x) = op_text sf q o).
Definition Qs (ops l : list xtrop) : Prop := map bare_trop (map (trop_map D leave) l) = map bare_trop ops /\
  (lall settled_trop ops -> lall (fun o => match o with XTrop m _ => pre NO m = [] end) ops -> forall q, flat_map (trop_text sf q) (map (trop_map D leave) l) = flat_map (trop_text sf q) ops).
Notation op_ok := (op_ok u b pf sf).
Notation trop_ok := (trop_ok u b pf sf).
Notation op_text := (op_text sf).
Lemma op_reads q o rest : PO o -> op_ok q o -> ends idc rest -> op_head (op_text q o) /\ @OP inp u b pf (op_text q o) (Qo o) rest.
Proof.
  intros HP H He. destruct df_ok as (D1 & _). destruct o as [mm|mm|i|e|mm k].
  - destruct H as [G1 G2]. change (op_text q (XAttrSplat mm)) with ([46] ++ around NO mm [42]). unfold around. rewrite G2, app_nil_r. apply (pre_gap NO true) in G1; [|exact D1]. split.
    + do 2 eexists. split; [reflexivity|]. split; [now destruct (pre NO mm)|]. left. split; [reflexivity|]. destruct (pre NO mm) as [|c g]; [reflexivity|]. apply Gap_head in G1. cbn [app starts_with].
      destruct (N.eqb_spec 46 c) as [<-|_]; [|reflexivity]. destruct G1 as [G1|[G1|G1]]; discriminate.
    + apply (back_splat u b pf); [exact G1|]. intros m' W. split; [reflexivity|]. intros _ q'. change ([46] ++ around NO (meta_map D m') [42] = [46] ++ around NO mm [42]).
      rewrite (wears_around inp NO _ _ _ _ W). unfold around. now rewrite G2.
  - destruct H as [G1 G2]. change (op_text q (XFullSplat mm)) with ([91] ++ around NO mm [42] ++ [93]). unfold around. split.
    + do 2 eexists. split; [reflexivity|]. split; [now destruct (pre NO mm)|]. now right.
    + apply (back_full u b pf); [now apply pre_gap|now apply suf_gap|]. intros m' W. split; [reflexivity|]. intros _ q'. change ([91] ++ around NO (meta_map D m') [42] ++ [93] = [91] ++ around NO mm [42] ++ [93]).
      now rewrite (wears_around inp NO _ _ _ _ W).
  - destruct H as (HI & G1 & G2). change (op_text q (XGetAttr i)) with ([46] ++ around NO (i_meta i) (i_name i)). unfold around. rewrite G2, app_nil_r. apply (pre_gap NO true) in G1; [|exact D1]. split.
    + do 2 eexists. split; [reflexivity|]. split; [destruct (pre NO (i_meta i)); [now destruct (i_name i)|discriminate]|]. left. split; [reflexivity|]. destruct (pre NO (i_meta i)) as [|c g].
      * destruct (i_name i) as [|c s]; [discriminate|]. cbn [is_ident] in HI. apply andb_true_iff in HI. cbn [app starts_with]. rewrite N.eqb_sym, (id_start_not u HU c 46) by (try reflexivity; apply HI). reflexivity.
      * apply Gap_head in G1. cbn [app starts_with]. destruct (N.eqb_spec 46 c) as [<-|_]; [|reflexivity]. destruct G1 as [G1|[G1|G1]]; discriminate.
    + apply (back_attr u b pf HU); auto. intros m' W. split; [reflexivity|]. intros _ q'. change ([46] ++ around NO (meta_map D m') (i_name i) = [46] ++ around NO (i_meta i) (i_name i)).
      rewrite (wears_around inp NO _ _ _ _ W). unfold around. now rewrite G2.
  - destruct H as ((T1 & T2) & HS). destruct (P_sub q true e HP HS) as (HO & HE). change (op_text q (XIndex e)) with ([91] ++ text_in (text q) NO e ++ [93]). rewrite text_in_eq. split.
    + do 2 eexists. split; [reflexivity|]. split; [|now right]. destruct (pre NO (x_meta e)); [|discriminate]. now destruct (text q e ++ suf NO (x_meta e)).
    + apply (back_index u b pf HU _ (text q e) _ (Q e)); auto using Q_stable.
      * now apply pre_gap.
      * now apply suf_gap.
      * apply HE. apply (ctx_close u HU _ _ true); [now apply suf_gap|cbn; auto].
      * intros x [HQ T] W. split; [change (XIndex (bare (DX x)) = XIndex (bare e)); now rewrite HQ|]. intros Y q'.
        change ([91] ++ text_in (text q') NO (DX x) ++ [93] = [91] ++ text_in (text q') NO e ++ [93]). now rewrite (worn_in sf q' NO _ _ x e W) by auto.
  - destruct H as (HI & G1 & G2). change (op_text q (XLegacy mm k)) with ([46] ++ around NO mm (show_N k)). unfold around. rewrite G2, app_nil_r. apply (pre_gap NO true) in G1; [|exact D1]. destruct (show_N_head k) as (c0 & t & E & _ & Hd). split.
    + do 2 eexists. split; [reflexivity|]. rewrite E. split; [now destruct (pre NO mm)|]. left. split; [reflexivity|]. destruct (pre NO mm) as [|c g].
      * cbn [app starts_with]. destruct (N.eqb_spec 46 c0) as [<-|_]; [discriminate|reflexivity].
      * apply Gap_head in G1. cbn [app starts_with]. destruct (N.eqb_spec 46 c) as [<-|_]; [|reflexivity]. destruct G1 as [G1|[G1|G1]]; discriminate.
    + apply (back_legacy u b pf); auto; [now apply (ends_continue_digit u HU)|]. intros m' W. split; [reflexivity|]. intros _ q'. change ([46] ++ around NO (meta_map D m') (show_N k) = [46] ++ around NO mm (show_N k)).
      rewrite (wears_around inp NO _ _ _ _ W). unfold around. now rewrite G2.
Qed.
Lemma trop_split q k o : trop_ok q k o -> exists g t, trop_text sf q o = g ++ t /\ Gap k g /\ match o with XTrop om x => t = op_text q x /\ op_ok q x /\ g = pre NO om /\ suf NO om = [] end.
Proof.
  destruct o as [om o]. intros (G1 & G2 & H). exists (pre NO om), (op_text q o). change (trop_text sf q (XTrop om o)) with (around NO om (op_text q o)). unfold around. rewrite G2, app_nil_r.
  split; [reflexivity|]. split; [apply pre_gap; [apply df_ok|exact G1]|]. auto.
Qed.
Lemma op_head_idc k g t r : Gap k g -> op_head t -> ends idc (g ++ t ++ r).
Proof. intros Hg H. apply (@gap_idc inp u HU k); [exact Hg|]. left. destruct H as (c & t' & -> & _ & [[-> _]| ->]); now apply (not_cont u HU). Qed.
Lemma ops_idc q k ops rest : Forall PT ops -> lall (trop_ok q k) ops -> ends idc rest -> ends idc (flat_map (trop_text sf q) ops ++ rest).
Proof.
  intros HP HO He. induction HP as [|o ops Hp _ IH]; [exact He|]. destruct HO as [O1 O2]. cbn [flat_map]. rewrite <- app_assoc.
  destruct (trop_split q k o O1) as (g & t & -> & Hg & Ht). destruct o as [om o]. destruct Ht as (-> & Ho & _ & _).
  destruct (op_reads q o (flat_map (trop_text sf q) ops ++ rest) Hp Ho (IH O2)) as [H1 _]. rewrite <- app_assoc. now apply (op_head_idc k).
Qed.
Lemma trav_reads q k rest ops : Forall PT ops -> lall (trop_ok q k) ops -> ends idc rest -> follows untrav k rest -> @TRAV inp u b pf k rest (flat_map (trop_text sf q) ops) (Qs ops).
Proof.
  intros HP HO He HL. induction HP as [|o ops Hp HP IH]; cbn [flat_map].
  - apply TRAV_nil; [now split|exact HL].
  - destruct HO as [O1 O2]. destruct (trop_split q k o O1) as (g & t & -> & Hg & Ht). destruct o as [om o]. destruct Ht as (-> & Ho & Eg & Es).
    destruct (op_reads q o (flat_map (trop_text sf q) ops ++ rest) Hp Ho) as [H1 H2]; [now apply (ops_idc q k)|].
    apply (TRAV_cons u b pf k rest g _ _ (Qo o) (Qs ops)); auto.
    intros mm x l W [A1 B1] [A2 B2]. split.
    + change (XTrop no_meta (bare_op (op_map D leave x)) :: map bare_trop (map (trop_map D leave) l) = XTrop no_meta (bare_op o) :: map bare_trop ops). now rewrite A1, A2.
    + intros [Y1 Y2] [J1 J2] q'. change (around NO (meta_map leave mm) (op_text q' (op_map D leave x)) ++ flat_map (trop_text sf q') (map (trop_map D leave) l) = around NO om (op_text q' o) ++ flat_map (trop_text sf q') ops).
      rewrite (B1 Y1), (B2 Y2 J2), (left_around _ _ _ _ _ W), Eg, J1. unfold around. now rewrite J1, Es.
Qed.
Lemma P_trav m e ops : P e -> Forall PT ops -> P (XTrav m e ops).
Proof.
  intros IH IHo. apply term_pack; [reflexivity|]. intros q h fl (HB & HN & HR & HL & G1 & G2 & HO). set (k := h || sticky e) in *. destruct (IH q h _ HR) as (HOp & HBase & _).
  destruct ops as [|o ops]; [congruence|]. clear HL. destruct HO as [O1 O2]. inversion IHo as [|? ? Po Pos]; subst.
  destruct (trop_split q k o O1) as (g & t & Et & Hg & Ht). destruct o as [om o]. destruct Ht as (-> & Ho & Eg & Es).
  assert (HG : Gap k (suf NO (x_meta e) ++ g)) by (apply Gap_app; [apply suf_gap; [apply df_ok|exact G2]|exact Hg]).
  assert (ET : text q (XTrav m e (XTrop om o :: ops)) = text q e ++ ((suf NO (x_meta e) ++ g) ++ op_text q o) ++ flat_map (trop_text sf q) ops).
  { change (text q (XTrav m e (XTrop om o :: ops))) with (text_in (text q) NO e ++ flat_map (trop_text sf q) (XTrop om o :: ops)). cbn [flat_map]. rewrite Et, text_in_eq, G1. cbn [app]. now rewrite <- !app_assoc. }
  assert (OH : forall rest, ends idc rest -> op_head (op_text q o) /\ @OP inp u b pf (op_text q o) (Qo o) (flat_map (trop_text sf q) ops ++ rest)).
  { intros rest He. apply op_reads; auto. now apply (ops_idc q k). }
  rewrite ET. split; [|split; [discriminate|]].
  - apply opens_app; [exact HOp|]. rewrite <- app_assoc. apply (op_head_idc k); [exact HG|]. now apply (OH []).
  - intros _ rest HC. unfold TermOK. rewrite ET. cbn [sticky wide] in *. pose proof HC as (He & _ & _). destruct (OH rest He) as [H1 H2].
    destruct (op_head_gap true (op_text q o) (flat_map (trop_text sf q) ops ++ rest) H1) as (C1 & _ & _).
    apply (back_trav u b pf h (text q e) k (Q e) _ (op_text q o) _ (Qo o) (Qs ops)); auto using Q_stable.
    + apply HBase; [exact HB|rewrite <- app_assoc; now apply (op_head_idc k)|congruence|].
      rewrite <- app_assoc. apply (follows_gap uncall h k); auto.
      destruct H1 as (c & t & E & _ & [[-> _]| ->]); rewrite E; unfold uncall, call2; change (lit "::") with [58; 58]; rewrite l2_two; cbn [starts_with app N.eqb Pos.eqb andb orb];
        rewrite l2_head; try reflexivity; intros d r [= <- _]; reflexivity.
    + apply trav_reads; auto. exact (ctx_at u untrav (wide e) h (sticky e) rest (sticky_wide e) HC).
    + intros mm x m' y l [A1 B1] W1 W2 [A2 B2] [A3 B3]. split.
      * change (XTrav no_meta (bare (DX x)) (XTrop no_meta (bare_op (op_map D leave y)) :: map bare_trop (map (trop_map D leave) l)) = XTrav no_meta (bare e) (XTrop no_meta (bare_op o) :: map bare_trop ops)).
        now rewrite A1, A2, A3.
      * intros (Y1 & (Y2 & Y3) & J) q'.
        change (text_in (text q') NO (DX x) ++ around NO (meta_map leave m') (op_text q' (op_map D leave y)) ++ flat_map (trop_text sf q') (map (trop_map D leave) l) =
          text_in (text q') NO e ++ around NO om (op_text q' o) ++ flat_map (trop_text sf q') ops).
        unfold text_in. rewrite DX_meta, (wears_around inp NO _ _ _ _ W1), (left_around _ _ _ _ _ W2), (B1 Y1), (B2 Y2), (B3 Y3 J). unfold around. rewrite G1, Es, <- Eg. cbn [worn left_as NO fst snd app].
        rewrite !app_nil_r, <- !app_assoc. reflexivity.
Qed.

(** ** For expressions *)
Definition PC (c : xcond) : Prop := match c with XForCond _ e => P e end.
Definition Qc (f : option xcond) : xexpr -> Prop := match f with Some (XForCond _ e) => Q e | None => fun _ => True end.
Definition gcond_of (q : bool) (f : option xcond) : option gcond :=
  match f with Some (XForCond _ e) => Some (pre LEADING (x_meta e), text q e, suf LEADING (x_meta e)) | None => None end.
(** The gap before the word [if]. *)
Definition cgap (f : option xcond) : str := match f with Some (XForCond m _) => pre LEADING m | None => [] end.
Definition ctext (q : bool) (f : option xcond) : str := match f with Some c => cond_text sf q c | None => [] end.
Lemma cond_split q f : oallp (cond_ok u b pf sf q) f -> ctext q f = cgap f ++ back_cond_text (gcond_of q f).
Proof.
  destruct f as [[m e]|]; [|reflexivity]. intros (_ & G2 & _). change (ctext q (Some (XForCond m e))) with (around LEADING m (lit "if" ++ text_in (text q) LEADING e)).
  unfold around. rewrite (suf_no m LEADING) by reflexivity. rewrite G2, app_nil_r. reflexivity.
Qed.
Lemma cgap_ok q f : oallp (cond_ok u b pf sf q) f -> Gap true (cgap f).
Proof. destruct f as [[m e]|]; [|constructor]. intros (G1 & _). apply pre_gap; [apply df_ok|exact G1]. Qed.
Lemma cond_reads q f c rest : oall PC f -> oallp (cond_ok u b pf sf q) f -> In c [93; 125] -> @BCOND inp u b pf (gcond_of q f) (Qc f) ([c] ++ rest).
Proof.
  destruct f as [[m e]|]; [|exact (fun _ _ _ => I)]. intros HP (_ & _ & (T1 & T2) & HS) Hc. destruct (P_sub q true e HP HS) as (HO & HE). destruct df_ok as (_ & D2 & _).
  cbn [gcond_of BCOND Qc]. split; [now apply pre_gap|]. split; [now apply suf_gap|]. split; [exact HO|]. split; [apply Q_stable|]. apply HE. apply (ctx_close u HU _ _ true); [now apply suf_gap|]. cbn [In] in *. tauto.
Qed.
Lemma cond_Q q h f x : @back_cond_fits inp h (gcond_of q f) (Qc f) x -> option_map bare_cond (option_map (cond_map D leave) x) = option_map bare_cond f.
Proof.
  destruct f as [[m e]|], x as [[mm x]|]; cbn [gcond_of back_cond_fits Qc]; try (intros []; fail); [|reflexivity].
  intros [_ [[H _] _]]. change (Some (XForCond no_meta (bare (DX x))) = Some (XForCond no_meta (bare e))). now rewrite H.
Qed.
(** The condition, with [h] in place of the gap before it. *)
Lemma cond_same q0 h f x q : @back_cond_fits inp h (gcond_of q0 f) (Qc f) x -> oallp (cond_ok u b pf sf q0) f -> oallp settled_cond f ->
  exists R, ctext q f = cgap f ++ R /\ ctext q (option_map (cond_map D leave) x) = match f with Some _ => h | None => [] end ++ R.
Proof.
  destruct f as [[m e]|], x as [[mm x]|]; cbn [gcond_of back_cond_fits Qc]; try (intros []; fail); [|exists []; auto].
  intros [W [[_ T] W']] (_ & G2 & _) Y. exists (lit "if" ++ text_in (text q) LEADING e). split.
  - change (ctext q (Some (XForCond m e))) with (around LEADING m (lit "if" ++ text_in (text q) LEADING e)). unfold around. rewrite (suf_no m LEADING) by reflexivity. now rewrite G2, app_nil_r.
  - change (around LEADING (meta_map D mm) (lit "if" ++ text_in (text q) LEADING (DX x)) = h ++ lit "if" ++ text_in (text q) LEADING e).
    rewrite (wears_around inp LEADING _ _ _ _ W), (worn_in sf q LEADING _ _ x e W') by auto. cbn [worn LEADING snd]. now rewrite app_nil_r.
Qed.
Lemma after_val q w nl g f cl rest : oallp (cond_ok u b pf sf q) f -> Gap true g -> (f <> None -> g ++ cgap f <> []) -> In cl [93; 125] ->
  ctx quiet2 w nl ((g ++ cgap f) ++ back_cond_text (gcond_of q f) ++ [cl] ++ rest).
Proof.
  intros HF Hg HN Hc. assert (HG : Gap true (g ++ cgap f)) by (apply Gap_app; [exact Hg|now apply (cgap_ok q)]). destruct f as [[m e]|].
  - cbn [gcond_of back_cond_text]. rewrite <- (app_assoc (lit "if")). apply (ctx_if u HU _ _ true); [exact HG|]. now apply HN.
  - cbn [gcond_of back_cond_text app]. apply (ctx_close u HU _ _ true); [exact HG|]. cbn [In] in *. tauto.
Qed.
Lemma bare_for m im kv vv c k v g f : bare (x_map D leave (XFor m im kv vv c k v g f)) =
  XFor no_meta no_meta (option_map bare_did (option_map (did_map D) kv)) (bare_did (did_map D vv)) (bare (x_map D leave c))
    (option_map bare (option_map (x_map D leave) k)) (bare (x_map D leave v)) g (option_map bare_cond (option_map (cond_map D leave) f)).
Proof. reflexivity. Qed.
Lemma loop_bare df df' kv vv kv' vv' : @loop_fits inp (option_map (gid_of df) kv) (gid_of df' vv) kv' vv' ->
  option_map bare_did (option_map (did_map D) kv') = option_map bare_did kv /\ bare_did (did_map D vv') = bare_did vv.
Proof.
  intros (E1 & [E2 _]). split.
  - destruct kv as [k|], kv' as [k'|]; cbn in E1; try contradiction; [|reflexivity]. destruct E1 as [E1 _]. unfold bare_did, did_map. cbn in *. now rewrite E1.
  - unfold bare_did, did_map. cbn in *. now rewrite E2.
Qed.
Definition key_var (df : str * str) (kv : option did) : str := match kv with Some k => did_text df k ++ [44] | None => [] end.
Lemma loop_same df df' kv vv kv' vv' : @loop_fits inp (option_map (gid_of df) kv) (gid_of df' vv) kv' vv' ->
  key_var df (option_map (did_map D) kv') = key_var df kv /\ did_text df' (did_map D vv') = did_text df' vv.
Proof.
  intros (E1 & E2). split; [|now apply gid_in].
  destruct kv as [k|], kv' as [k'|]; cbn [option_map] in E1; try contradiction; [|reflexivity]. cbn [option_map key_var]. now rewrite (gid_in df k k' E1).
Qed.
Lemma loop_gids kv vv df : blanks_df df -> loop_ok u kv vv df -> opt_gid_ok u (option_map (gid_of df) kv) /\ gid_ok u true (gid_of df vv) /\ snd (gid_of df vv) <> [].
Proof.
  intros HD (H1 & H2 & (H3 & H4) & H5). split; [|split; [|exact H5]].
  - destruct kv as [k|]; [|exact I]. destruct H1 as (K1 & K2 & K3). split; [now apply pre_gap|]. split; [exact K1|now apply suf_gap].
  - split; [now apply pre_gap|]. split; [exact H2|now apply suf_gap].
Qed.
Lemma for_sep_next s r : for_sep s -> for_next (s ++ r).
Proof.
  destruct s as [|c s]; [intros []|]. cbn [for_sep]. intros H. exists c, (s ++ r). split; [reflexivity|]. unfold for_char. cbn [existsb] in H. rewrite orb_false_r, !orb_assoc in H. exact H.
Qed.
Lemma P_for m im kv vv coll key val g cond : P coll -> oall P key -> P val -> oall PC cond -> P (XFor m im kv vv coll key val g cond).
Proof.
  intros IHc IHk IHv IHf. apply base_pack; [reflexivity|]. intros q h fl (G1 & G2 & HL & HS & ((C1 & C2) & Rc) & HK & HF). destruct df_ok as (D1 & D2 & D3 & D4).
  destruct (P_sub q false coll IHc Rc) as (Oc & Ec). destruct (loop_gids kv vv LEADING D2 HL) as (L1 & L2 & L3). apply (pre_gap NO true) in G1; [|exact D1].
  assert (HF' : oallp (cond_ok u b pf sf q) cond) by (destruct cond; [apply HF|exact I]).
  assert (HFg : g = false -> cond <> None -> suf LEADING (x_meta val) ++ cgap cond <> []) by (destruct cond as [[]|]; [intros Eg _; now apply HF|congruence]). clear HF.
  pose proof (cgap_ok q cond HF') as GC. pose proof (cond_split q cond HF') as ES.
  set (k := option_map (gid_of LEADING) kv) in *. set (v := gid_of LEADING vv) in *.
  set (gc := pre BOTH (x_meta coll)). set (gc' := suf BOTH (x_meta coll)).
  assert (X1 : Gap true gc) by now apply pre_gap. assert (X2 : Gap true gc') by now apply suf_gap.
  assert (HN : for_next (loop_text k v (gc ++ text q coll ++ gc'))).
  { unfold loop_text, k, v. destruct kv as [i|]; cbn [option_map opt_gid app]; unfold gid_text, gid_of; cbn [fst snd]; rewrite <- !app_assoc; now apply for_sep_next. }
  assert (CC : forall w nl r, starts_with [58] r = false -> ctx quiet2 w nl (gc' ++ [58] ++ r)).
  { intros w nl r Hr. apply (ctx_sign u HU quiet2 w nl true); auto using lax_quiet2. }
  assert (NC : forall df e t r, gap true (pre NO (x_meta e)) = true -> blanks_df df -> opens t -> starts_with [58] ((pre df (x_meta e) ++ t) ++ r) = false).
  { intros df e t r He Hd Ho. pose proof (pre_gap df true _ Hd He) as Hg. destruct (pre df (x_meta e)) as [|c s].
    - destruct Ho as (c & t' & -> & Hc & _). cbn [app starts_with]. rewrite N.eqb_sym, (first_char_not u HU c 58) by (try exact Hc; reflexivity). reflexivity.
    - apply Gap_head in Hg. cbn [app starts_with]. destruct (N.eqb_spec 58 c) as [<-|_]; [|reflexivity]. destruct Hg as [Hg|[Hg|Hg]]; discriminate. }
  assert (EI : forall r, around NO im (lit "for" ++ match kv with Some k => did_text LEADING k ++ [44] | None => [] end ++ did_text LEADING vv ++ lit "in" ++ text_in (text q) BOTH coll ++ [58]) ++ r =
    pre NO im ++ lit "for" ++ (loop_text k v (gc ++ text q coll ++ gc') ++ [58]) ++ r).
  { intros r. unfold around. rewrite G2, app_nil_r. rewrite <- !app_assoc. do 2 f_equal. unfold loop_text, k, v. rewrite text_in_eq. destruct kv; cbn [option_map opt_gid]; rewrite ?gid_of_text; now rewrite <- ?app_assoc. }
  destruct key as [ky|].
  - destruct HK as (((K1 & K2) & Rk) & ((V1 & V2) & Rv)). destruct (P_sub q false ky IHk Rk) as (Ok & Ek), (P_sub q false val IHv Rv) as (Ov & Ev).
    split; [now apply (opens_other u HU)|]. intros _ rest _ _ _. cbn [sticky]. rewrite orb_true_r.
    assert (X3 : Gap true (pre BOTH (x_meta ky))) by now apply pre_gap. assert (X4 : Gap true (suf BOTH (x_meta ky))) by now apply suf_gap.
    assert (X5 : Gap true (pre LEADING (x_meta val))) by now apply pre_gap. assert (X6 : Gap true (suf LEADING (x_meta val))) by now apply suf_gap.
    set (g4 := suf LEADING (x_meta val) ++ (if g then [] else cgap cond)). set (g5 := if g then cgap cond else []).
    assert (X7 : Gap true g4) by (unfold g4; destruct g; apply Gap_app; auto; constructor). assert (X8 : Gap true g5) by (unfold g5; destruct g; auto; constructor).
    assert (ET : text q (XFor m im kv vv coll (Some ky) val g cond) = [123] ++ (pre NO im ++ lit "for" ++ (loop_text k v (gc ++ text q coll ++ gc') ++ [58]) ++
      (pre BOTH (x_meta ky) ++ text q ky ++ suf BOTH (x_meta ky)) ++ lit "=>" ++ (pre LEADING (x_meta val) ++ text q val ++ g4) ++ (group_text g ++ g5) ++ back_cond_text (gcond_of q cond)) ++ [125]).
    { change (text q (XFor m im kv vv coll (Some ky) val g cond)) with ([123] ++ around NO im (lit "for" ++ match kv with Some k => did_text LEADING k ++ [44] | None => [] end ++
        did_text LEADING vv ++ lit "in" ++ text_in (text q) BOTH coll ++ [58]) ++ text_in (text q) BOTH ky ++ lit "=>" ++ text_in (text q) LEADING val ++ (if g then lit "..." else []) ++
        ctext q cond ++ [125]).
      rewrite EI, ES, !text_in_eq. unfold g4, g5, group_text. destruct g; rewrite <- !app_assoc; cbn [app]; now rewrite <- ?app_assoc. }
    rewrite ET. apply (back_for_object u b pf HU h _ k v gc (text q coll) gc' (Q coll) _ (text q ky) _ (Q ky) _ (text q val) _ (Q val) g g5 (gcond_of q cond) (Qc cond)); auto using Q_stable.
    + unfold g5. now intros ->.
    + apply Ec. apply CC. replace ((pre BOTH (x_meta ky) ++ text q ky ++ suf BOTH (x_meta ky))) with ((pre BOTH (x_meta ky) ++ text q ky) ++ suf BOTH (x_meta ky)) by (now rewrite <- app_assoc).
      rewrite <- (app_assoc (pre BOTH (x_meta ky) ++ text q ky)). now apply NC.
    + apply Ek. apply (ctx_sign u HU quiet2 _ _ true); auto using lax_quiet2.
    + apply Ev. unfold g4, g5. destruct g; cbn [group_text].
      * rewrite app_nil_r. now apply (ctx_dots u HU _ _ true).
      * cbn [app]. apply after_val; auto. cbn; auto.
    + apply cond_reads; auto. cbn; auto.
    + intros mm im' kv' vv' xc xk xv f W E1 A1 A2 A3 A4. split.
      * destruct (loop_bare LEADING LEADING kv vv kv' vv' E1) as (B1 & B2). destruct A1 as [[A1 _] _], A2 as [[A2 _] _], A3 as [[A3 _] _]. rewrite bare_for.
        rewrite B1, B2, A1, A3, (cond_Q q _ cond f A4). cbn [option_map]. now rewrite A2.
      * intros (Y1 & Y2 & Y3 & Y4) q'. destruct (loop_same LEADING LEADING kv vv kv' vv' E1) as (B1 & B2). destruct (cond_same q g5 cond f q' A4 HF' Y4) as (R & C3 & C4).
        change ([123] ++ around NO (meta_map D im') (lit "for" ++ key_var LEADING (option_map (did_map D) kv') ++ did_text LEADING (did_map D vv') ++ lit "in" ++ text_in (text q') BOTH (DX xc) ++ [58]) ++
          text_in (text q') BOTH (DX xk) ++ lit "=>" ++ text_in (text q') LEADING (DX xv) ++ (if g then lit "..." else []) ++ ctext q' (option_map (cond_map D leave) f) ++ [125] =
          [123] ++ around NO im (lit "for" ++ key_var LEADING kv ++ did_text LEADING vv ++ lit "in" ++ text_in (text q') BOTH coll ++ [58]) ++
          text_in (text q') BOTH ky ++ lit "=>" ++ text_in (text q') LEADING val ++ (if g then lit "..." else []) ++ ctext q' cond ++ [125]).
        rewrite B1, B2, (held_in q' BOTH coll xc A1 Y1), (held_in q' BOTH ky xk A2 Y2), (wears_around inp NO _ _ _ _ W). unfold around at 1. rewrite G2. cbn [worn NO fst snd]. f_equal. f_equal. f_equal. f_equal.
        rewrite C3, C4. destruct A3 as [[_ A3] W3]. unfold text_in. rewrite DX_meta, (wears_around inp LEADING _ _ _ _ W3), (A3 Y3). unfold around. cbn [worn]. unfold g4, g5. destruct g, cond as [[]|]; cbn [cgap app]; rewrite <- ?app_assoc; cbn [app]; rewrite ?app_nil_r; reflexivity.
  - destruct HK as (-> & ((V1 & V2) & Rv)). destruct (P_sub q true val IHv Rv) as (Ov & Ev).
    split; [now apply (opens_other u HU)|]. intros _ rest _ _ _. cbn [sticky]. rewrite orb_true_r.
    assert (X5 : Gap true (pre LEADING (x_meta val))) by now apply pre_gap. assert (X6 : Gap true (suf LEADING (x_meta val))) by now apply suf_gap.
    set (g2 := suf LEADING (x_meta val) ++ cgap cond). assert (X7 : Gap true g2) by (unfold g2; now apply Gap_app).
    assert (ET : text q (XFor m im kv vv coll None val false cond) = [91] ++ (pre NO im ++ lit "for" ++ (loop_text k v (gc ++ text q coll ++ gc') ++ [58]) ++
      (pre LEADING (x_meta val) ++ text q val ++ g2) ++ back_cond_text (gcond_of q cond)) ++ [93]).
    { change (text q (XFor m im kv vv coll None val false cond)) with ([91] ++ around NO im (lit "for" ++ match kv with Some k => did_text LEADING k ++ [44] | None => [] end ++
        did_text LEADING vv ++ lit "in" ++ text_in (text q) BOTH coll ++ [58]) ++ text_in (text q) LEADING val ++ ctext q cond ++ [93]).
      rewrite EI, ES, !text_in_eq. unfold g2. rewrite <- !app_assoc. cbn [app]. now rewrite <- ?app_assoc. }
    rewrite ET. apply (back_for_list u b pf HU h _ k v gc (text q coll) gc' (Q coll) _ (text q val) _ (Q val) (gcond_of q cond) (Qc cond)); auto using Q_stable.
    + apply Ec. apply CC. replace ((pre LEADING (x_meta val) ++ text q val ++ g2)) with ((pre LEADING (x_meta val) ++ text q val) ++ g2) by (now rewrite <- app_assoc).
      rewrite <- (app_assoc (pre LEADING (x_meta val) ++ text q val)). now apply NC.
    + apply Ev. unfold g2. apply after_val; auto. cbn; auto.
    + apply cond_reads; auto. cbn; auto.
    + intros mm im' kv' vv' xc xv f W E1 A1 A3 A4. split.
      * destruct (loop_bare LEADING LEADING kv vv kv' vv' E1) as (B1 & B2). destruct A1 as [[A1 _] _], A3 as [[A3 _] _]. rewrite bare_for.
        rewrite B1, B2, A1, A3, (cond_Q q _ cond f A4). reflexivity.
      * intros (Y1 & _ & Y3 & Y4) q'. destruct (loop_same LEADING LEADING kv vv kv' vv' E1) as (B1 & B2). destruct (cond_same q [] cond f q' A4 HF' Y4) as (R & C3 & C4).
        change ([91] ++ around NO (meta_map D im') (lit "for" ++ key_var LEADING (option_map (did_map D) kv') ++ did_text LEADING (did_map D vv') ++ lit "in" ++ text_in (text q') BOTH (DX xc) ++ [58]) ++
          text_in (text q') LEADING (DX xv) ++ ctext q' (option_map (cond_map D leave) f) ++ [93] =
          [91] ++ around NO im (lit "for" ++ key_var LEADING kv ++ did_text LEADING vv ++ lit "in" ++ text_in (text q') BOTH coll ++ [58]) ++
          text_in (text q') LEADING val ++ ctext q' cond ++ [93]).
        rewrite B1, B2, (held_in q' BOTH coll xc A1 Y1), (wears_around inp NO _ _ _ _ W). unfold around at 1. rewrite G2. cbn [worn NO fst snd]. f_equal. f_equal.
        rewrite C3, C4. destruct A3 as [[_ A3] W3]. unfold text_in. rewrite DX_meta, (wears_around inp LEADING _ _ _ _ W3), (A3 Y3). unfold around. cbn [worn]. unfold g2. destruct cond as [[]|]; cbn [cgap app]; rewrite <- ?app_assoc; cbn [app]; rewrite ?app_nil_r; reflexivity.
Qed.

(** ** Objects *)
Definition PK (k : xkey) : Prop := match k with XKExpr e => P e | XKId _ => True end.
Definition PI (i : xitem) : Prop := match i with XItem k _ v _ => PK k /\ P v end.
Notation key_ok := (key_ok u b pf sf).
Notation item_ok := (item_ok u b pf sf).
(** A key between its decor. *)
Definition kmeta (k : xkey) : meta := match k with XKId i => i_meta i | XKExpr e => x_meta e end.
Definition kcore (q : bool) (k : xkey) : str := match k with XKId i => i_name i | XKExpr e => text q e end.
Lemma key_text_eq q k : key_text sf q k = pre TRAILING (kmeta k) ++ kcore q k ++ suf TRAILING (kmeta k).
Proof. destruct k; reflexivity. Qed.
Definition Qk (k x : xkey) : Prop := bare_key (key_map D leave x) = bare_key k /\ (settled_key k -> forall q, kcore q (key_map D leave x) = kcore q k).
Lemma Qk_stable k : key_stable (Qk k).
Proof.
  intros h x [H T]. split.
  - rewrite <- H. destruct x as [i|e]; [reflexivity|]. now destruct e.
  - intros Y q. rewrite <- (T Y q). destruct x as [i|e]; [reflexivity|]. now destruct e.
Qed.
Lemma key_reads q k : PK k -> key_ok q k ->
  Gap true (pre TRAILING (kmeta k)) /\ Gap false (suf TRAILING (kmeta k)) /\ opens (kcore q k) /\ plain_key k /\
  forall rest, (forall w, ctx quiet2 w false rest) -> @KEY inp u b pf (kcore q k) (Qk k) rest.
Proof.
  intros HP H. destruct df_ok as (_ & _ & D3 & _). destruct k as [i|e]; cbn [kmeta kcore plain_key].
  - destruct H as (HV & G1 & G2). destruct (variable_ok _ HV) as (V1 & V2 & V3). split; [now apply pre_gap|]. split; [now apply suf_gap|]. split; [now apply EatName.opens_word|]. split; [exact I|].
    intros rest HC. assert (HX : P (XVar no_meta (i_name i))) by apply P_var. destruct (HX q false false HV) as (_ & _ & _ & _ & HX'). destruct (HX' eq_refl) as [_ HE].
    exists (Q (XVar no_meta (i_name i))). split; [exact (HE rest (HC _))|]. intros x [Hx _]. destruct x; try discriminate. cbn in Hx. injection Hx as ->. now split.
  - destruct H as (HV & HPl & HS & G1 & G2). destruct (P_sub q false e HP HS) as (HO & HE). split; [now apply pre_gap|]. split; [now apply suf_gap|]. split; [exact HO|]. split; [exact HPl|].
    intros rest HC. exists (Q e). split; [apply HE, HC|]. intros x [Hx T]. assert (EK : key_of_expr x = XKExpr x).
    { destruct x; try reflexivity. destruct e; discriminate. }
    rewrite EK. split; [change (XKExpr (bare (DX x)) = XKExpr (bare e)); now rewrite Hx|exact T].
Qed.
Definition kheld (k : xkey) : xkey -> Prop := @kslot inp (pre TRAILING (kmeta k)) (suf TRAILING (kmeta k)) (Qk k).
Definition oitem_of (i : xitem) : oitem := match i with XItem k a v t => OItem (kheld k) a (held LEADING v) t end.
Lemma assign_ctx w k g a r : Gap k g -> (match r with c :: _ => c <> 58 /\ c <> 61 | [] => True end) -> ctx quiet2 w false (g ++ assign_str a ++ r).
Proof.
  intros Hg Hr. destruct a; cbn [assign_str app]; apply (ctx_sign u HU quiet2 _ _ k); auto using lax_quiet2; try discriminate; try reflexivity.
  - intros _. destruct r as [|c r]; [reflexivity|]. cbn [starts_with]. destruct (N.eqb_spec 58 c) as [<-|_]; [tauto|reflexivity].
  - destruct r as [|c r]; [reflexivity|]. assert (E : (61 =? c) = false) by (apply N.eqb_neq; intros <-; now destruct Hr). cbv -[N.eqb]. rewrite E. reflexivity.
Qed.
Lemma slot_head k g t r : Gap k g -> opens t -> match (g ++ t) ++ r with c :: _ => c <> 58 /\ c <> 61 | [] => True end.
Proof.
  intros Hg (c & t' & -> & Hc & _). destruct g as [|x g]; cbn [app].
  - split; intros ->; [pose proof (first_char_not u HU 58 58 Hc) as E|pose proof (first_char_not u HU 61 61 Hc) as E]; specialize (E eq_refl eq_refl); discriminate.
  - apply Gap_head in Hg. split; intros ->; destruct Hg as [Hg|[Hg|Hg]]; try discriminate; now destruct k.
Qed.
Notation items_text q := (flat_map (item_text sf q)).
Lemma item_text_eq q k a v t : item_text sf q (XItem k a v t) =
  pre TRAILING (kmeta k) ++ kcore q k ++ suf TRAILING (kmeta k) ++ assign_str a ++ pre LEADING (x_meta v) ++ text q v ++ suf LEADING (x_meta v) ++ end_text t.
Proof.
  change (item_text sf q (XItem k a v t)) with (key_text sf q k ++ assign_str a ++ text_in (text q) LEADING v ++ end_text t). rewrite key_text_eq, text_in_eq. now rewrite <- !app_assoc.
Qed.
(** The text after an item begins with a gap and a key, or with the closing brace. *)
Lemma items_next q l t rest : Forall PI l -> lall (item_ok q) l -> raw_gap t ->
  exists v r, (items_text q l ++ raw_enc t []) ++ [125] ++ rest = v ++ r /\ Gap true v /\ clear true r /\
    ((match l with XItem k _ _ _ :: _ => soft (kcore q k) = true | [] => True end) -> uncall r = true /\ quiet2 r = true).
Proof.
  intros HP HO (_ & HT). destruct l as [|[k a v tm] l].
  - exists (raw_enc t []), ([125] ++ rest). split; [reflexivity|]. split; [now apply gap_spec|]. split; [now apply (sign_clear u HU)|]. intros _. split; [now destruct rest|reflexivity].
  - pose proof (Forall_inv HP) as [P1 P2]. destruct HO as [(K1 & _) _]. destruct (key_reads q k P1 K1) as (G1 & _ & O1 & _). cbn [flat_map]. rewrite item_text_eq, <- !app_assoc.
    eexists _, (kcore q k ++ _). split; [reflexivity|]. split; [exact G1|]. split; [now apply (opens_clear u HU)|]. intros HS. now apply (soft_quiet u HU).
Qed.
Lemma items_ok q t rest l : Forall PI l -> lall (item_ok q) l -> raw_gap t -> seps sf q l t ->
  exists tr, @OBJ inp u b pf rest (items_text q l ++ raw_enc t []) (map oitem_of l) tr /\ raw_of_str tr = t.
Proof.
  intros HP HO HT. destruct df_ok as (_ & D2 & _). induction HP as [|[k a v tm] l [P1 P2] HP IH]; intros HS.
  - exists (raw_enc t []). split; [constructor; apply gap_spec, HT|apply HT].
  - destruct HO as [(K1 & V1 & V2 & V3) HO].
    destruct (key_reads q k P1 K1) as (G1 & G2 & O1 & _ & HK). destruct (P_sub q false v P2 V1) as (O2 & E2).
    assert (G3 : Gap false (pre LEADING (x_meta v))) by now apply pre_gap.
    assert (HKEY : forall r, @KEY inp u b pf (kcore q k) (Qk k) (suf TRAILING (kmeta k) ++ assign_str a ++ pre LEADING (x_meta v) ++ text q v ++ r)).
    { intros r. apply HK. intros w. apply (assign_ctx w false); [exact G2|]. rewrite app_assoc. now apply (slot_head false). }
    cbn [flat_map map oitem_of]. rewrite item_text_eq.
    assert (HM : tm <> TNone -> seps sf q l t -> (tm = TNewline -> wide v = true -> match l with XItem k _ _ _ :: _ => soft (kcore q k) = true | [] => True end) ->
      exists tr, @OBJ inp u b pf rest (((pre TRAILING (kmeta k) ++ kcore q k ++ suf TRAILING (kmeta k) ++ assign_str a ++ pre LEADING (x_meta v) ++ text q v ++ suf LEADING (x_meta v) ++ end_text tm) ++ items_text q l) ++ raw_enc t [])
        (OItem (kheld k) a (held LEADING v) tm :: map oitem_of l) tr /\ raw_of_str tr = t).
    { intros HN HS' HW. destruct (IH HO HS') as (tr & H1 & H2). exists tr. split; [|exact H2]. rewrite <- (app_assoc _ (items_text q l)).
      destruct (items_next q l t rest HP HO HT) as (vv & r & ER & Gv & Cr & Hr).
      assert (HST : exists g3 z te, suf LEADING (x_meta v) ++ end_text tm = g3 ++ te /\ Gap false g3 /\ item_stop tm z te /\ g3 ++ z = suf LEADING (x_meta v) /\
        EXPR false (text q v) (Q v) (g3 ++ te ++ (items_text q l ++ raw_enc t []) ++ [125] ++ rest)).
      { destruct tm; [congruence| |].
        - apply (suf_last false _ LEADING eq_refl) in V3. destruct V3 as (w & z & -> & Gw & Oz). exists w, z, (z ++ [10]). split; [cbn [end_text]; now rewrite <- app_assoc|]. split; [exact Gw|]. split; [split; auto|]. split; [reflexivity|].
          apply E2. rewrite ER. apply (ctx_line u HU); auto. intros Hw. apply Hr. now apply HW.
        - exists (suf LEADING (x_meta v)), [], [44]. split; [reflexivity|]. assert (Gs : Gap false (suf LEADING (x_meta v))) by now apply suf_gap. split; [exact Gs|]. split; [split; reflexivity|]. split; [apply app_nil_r|].
          apply E2. apply (ctx_close u HU _ _ false); [exact Gs|cbn; auto]. }
      destruct HST as (g3 & z & te & -> & Gg & St & ES & HE). unfold kheld, held. rewrite <- ES.
      apply (OBJ_more u b pf rest _ _ _ a _ (text q v) g3 z te tm (Qk k) (Q v)); auto using Q_stable, Qk_stable. }
    destruct tm.
    + destruct l as [|[k' a' v' t'] l]; [|now destruct HS]. cbn [seps] in HS. specialize (HS eq_refl). subst t. exists []. split; [|reflexivity].
      cbn [flat_map end_text map]. rewrite !app_nil_r. assert (Gs : Gap false (suf LEADING (x_meta v))) by now apply suf_gap.
      apply OBJ_last; auto using Q_stable, Qk_stable. apply E2. apply (ctx_close u HU _ _ false); [exact Gs|cbn; auto].
    + apply HM; [discriminate| |].
      * destruct l as [|[k' a' v' t'] l]; [exact I|apply HS].
      * destruct l as [|[k' a' v' t'] l]; [intros _ _; exact I|]. exact (proj1 (proj2 HS)).
    + apply HM; [discriminate| |discriminate]. destruct l as [|[k' a' v' t'] l]; [exact I|apply HS].
Qed.
Lemma items_apart q l : Forall PI l -> lall (item_ok q) l -> distinct_keys l -> ForallOrdPairs back_apart (map oitem_of l).
Proof.
  induction 1 as [|[k a v tm] l [P1 P2] HP IH]; intros HO HD; cbn [map oitem_of]; constructor.
  - destruct HO as [(K1 & _) HO], HD as [HD _]. destruct (key_reads q k P1 K1) as (_ & _ & _ & PL & _). clear -HD PL.
    induction l as [|[k' a' v' t'] l IH]; cbn [map oitem_of]; constructor; [|now apply IH; apply HD]. destruct HD as [HD _]. cbn [item_key] in HD.
    intros x y Hx Hy. cbn [oi_key] in *. apply (keys_apart D leave k k'); auto; [apply Hx|apply Hy].
  - apply IH; [apply HO|apply HD].
Qed.
Lemma items_Q l is : Forall2 back_fits (map oitem_of l) is -> map bare_item (map (item_map D leave) is) = map bare_item l /\
  (lall settled_item l -> forall q, items_text q (map (item_map D leave) is) = items_text q l).
Proof.
  revert is. induction l as [|[k a v t] l IH]; intros is H; cbn [map] in H; inversion H as [|? i ? is' Hi His]; subst; [auto|]. cbn [map flat_map]. destruct (IH is' His) as [I1 I2]. destruct i as [k' a' v' t'].
  destruct Hi as (A1 & A2 & A3 & A4). cbn [oitem_of oi_key oi_assign oi_val oi_end] in *. subst. destruct A1 as [[A1 B1] W1]. split.
  - rewrite I1. f_equal. change (XItem (bare_key (key_map D leave k')) a (bare (DX v')) t = XItem (bare_key k) a (bare v) t). rewrite A1. destruct A3 as [[A3 _] _]. now rewrite A3.
  - intros [[Y1 Y2] Y3] q. rewrite (I2 Y3). f_equal.
    change (key_text sf q (key_map D leave k') ++ assign_str a ++ text_in (text q) LEADING (DX v') ++ end_text t = key_text sf q k ++ assign_str a ++ text_in (text q) LEADING v ++ end_text t).
    rewrite (held_in q LEADING v v' A3 Y2). f_equal. rewrite !key_text_eq, (B1 Y1).
    assert (EM : kmeta (key_map D leave k') = meta_map D (key_meta k')) by (destruct k'; [reflexivity|apply DX_meta]).
    now rewrite EM, (wears_pre inp TRAILING _ _ _ W1), (wears_suf inp TRAILING _ _ _ W1).
Qed.
Lemma P_obj m l t : Forall PI l -> P (XObj m l t).
Proof.
  intros IH. apply base_pack; [reflexivity|]. intros q h fl (HO & HD & HT & HS). split; [now apply (opens_other u HU)|]. intros _ rest _ _ _. cbn [sticky]. rewrite orb_false_r.
  destruct (items_ok q t rest l IH HO HT HS) as (tr & H1 & H2).
  change (text q (XObj m l t)) with ([123] ++ items_text q l ++ raw_enc t [] ++ [125]). replace ([123] ++ items_text q l ++ raw_enc t [] ++ [125]) with ([123] ++ (items_text q l ++ raw_enc t []) ++ [125]) by (now rewrite <- !app_assoc).
  apply (back_object u b pf HU h _ (map oitem_of l) tr); auto.
  - destruct l as [|[k a v tm] l].
    + cbn [flat_map app]. apply (back_miss_close (raw_enc t []) 125); [apply gap_spec, HT|auto].
    + pose proof (Forall_inv IH) as [P1 P2]. destruct HO as [(K1 & V1 & V2 & V3) _]. destruct (key_reads q k P1 K1) as (G1 & G2 & O1 & _ & HK). destruct (P_sub q false v P2 V1) as (O2 & _).
      cbn [flat_map]. rewrite item_text_eq, <- !app_assoc. apply (back_miss_for u HU); [exact G1|exact O1|].
      apply (@gap_idc inp u HU false); [exact G2|]. left. destruct a; now apply (not_cont u HU).
  - now apply (items_apart q).
  - intros mm is x HF Hx. destruct (items_Q l is HF) as [I1 I2]. rewrite H2 in Hx. split.
    + change (XObj no_meta (map bare_item (map (item_map D leave) is)) (D x) = XObj no_meta (map bare_item l) t). now rewrite I1, Hx.
    + intros Y q'. change ([123] ++ items_text q' (map (item_map D leave) is) ++ raw_enc (D x) [] ++ [125] = [123] ++ items_text q' l ++ raw_enc t [] ++ [125]). now rewrite (I2 Y), Hx.
Qed.
End Back.

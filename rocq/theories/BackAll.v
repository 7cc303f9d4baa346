(** * Printed templates are read back: proofs *)
From Coq Require Import NArith ZArith Arith Bool String List Lia.
From Verif Require Import Res Str Dec NumberModel PrimModel PrimProofs EAst EAstInd EncModel EqSpec EqProofs PrattSpec.
From Verif Require Import ParseBase ParseModel ParseSpec ParseLemmas Eat StrSpec StrProofs EatLeaf EatExpr EatColl ReadProofs.
From Verif Require Import BackSpec SameSpec BackEq BackLex BackWear BackExpr BackColl BackSame BackStr BackTpl BackProofs.
Import ListNotations.
Open Scope N_scope.

Lemma raw_enc_clean r df : clean r -> raw_enc r df = raw_enc r [].
Proof. intros H. destruct r; try reflexivity. discriminate H. Qed.
Lemma raw_gap_gap r df : raw_gap r -> Gap true (raw_enc r df) /\ raw_of_str (raw_enc r df) = r.
Proof. intros (H1 & H2). rewrite raw_enc_clean by exact H1. split; [now apply gap_spec|exact H1]. Qed.
Lemma enc_nil s : encode_escaped s = [] -> s = [].
Proof.
  unfold encode_escaped. destruct s as [|c s]; [reflexivity|]. cbn [flat_map]. intros H. apply app_eq_nil in H. destruct H as [H _]. exfalso. revert H.
  unfold escape_char. repeat match goal with |- context [if ?x then _ else _] => destruct x end; discriminate.
Qed.

Section All.
Context {inp : str} (u : unicode) (b : build) (pf : str -> f64) (sf : f64 -> str).
Context (HU : ascii_exact u).
Notation idc := (is_id_continue u).
Notation START := (@START inp u b pf).
Notation EXPR := (@EXPR inp u b pf).
Notation CTRL := (@CTRL inp u b pf).
Notation TPL := (@TPL inp u b pf).
Notation opens := (opens u).
Notation ctx := (@ctx inp u).
Notation text := (x_text sf).
Notation etext := (elem_text sf).
Notation ok := (ok u b pf sf).
Notation eok := (elem_ok u b pf sf).
Notation D := (raw_despan inp).
Notation P := (@P inp u b pf sf).
Notation Q := (@Q inp sf).
Notation DX := (x_map D leave).
Notation DE := (elem_map D leave).
Notation readable := (@readable inp u b pf).

(** ** Elements *)
Definition Qel (e x : xelem) : Prop := bare_elem (DE x) = bare_elem e /\ (settled_elem e -> forall q, etext q (DE x) = etext q e).
Definition Qes (es xs : list xelem) : Prop := map bare_elem (map DE xs) = map bare_elem es /\ (lall settled_elem es -> forall q, flat_map (etext q) (map DE xs) = flat_map (etext q) es).
Definition PE (e : xelem) : Prop := forall q, eok q e -> is_lit e = false -> live_marker (etext q e) = true /\ hd 0 (etext q e) = next_char 0 [e] /\ forall rest, CTRL (etext q e) (Qel e) rest.
Definition elems (t : xtpl) : list xelem := match t with XTempl es _ => es end.
Definition PTp (t : xtpl) : Prop := forall q, tpl_ok u b pf sf q t -> forall rest, enders rest -> TPL (tpl_text sf q t) (Qes (elems t)) rest.
Definition PEl (e : xelse) : Prop := match e with XElse _ _ t _ => PTp t end.
Definition spec_of (q : bool) (e : xelem) : spec := match e with XLit _ s => SLit (literal_text q s) s | e => SCtl (etext q e) (Qel e) end.
Lemma stexts_of q es : stexts (map (spec_of q) es) = flat_map (etext q) es.
Proof. unfold stexts. induction es as [|e es IH]; [reflexivity|]. cbn [map flat_map]. rewrite IH. now destruct e. Qed.
Lemma Qel_span e sp y : Qel e y -> Qel e (elem_set_span sp y).
Proof. intros [H T]. split; [rewrite <- H; now destruct y|]. intros Y q. rewrite <- (T Y q). now destruct y. Qed.
Lemma fits_Qel q e x : fits (spec_of q e) x -> Qel e x.
Proof. destruct e; cbn [spec_of fits]; [intros (sp0 & ->); now split| | |]; intros (sp0 & y & -> & H); now apply Qel_span. Qed.
Lemma Qes_cons e es x xs : Qel e x -> Qes es xs -> Qes (e :: es) (x :: xs).
Proof. intros [H T] [H' T']. split; cbn [map flat_map lall]; [now rewrite H, H'|]. intros [Y Y'] q. now rewrite (T Y), (T' Y'). Qed.
Lemma Qes_app es xs es' xs' : Qes es xs -> Qes es' xs' -> Qes (es ++ es') (xs ++ xs').
Proof.
  intros [H T] [H' T']. split; [now rewrite !map_app, H, H'|]. intros Y q. rewrite !map_app, !flat_map_app. apply lall_Forall, Forall_app in Y. destruct Y as [Y Y']. apply lall_Forall in Y, Y'. now rewrite (T Y), (T' Y').
Qed.
Lemma Qes_lit sp sp' s : Qes [XLit sp s] [XLit sp' s]. Proof. now split. Qed.
Lemma fits_Qes q es xs : Forall2 fits (map (spec_of q) es) xs -> Qes es xs.
Proof.
  revert xs. induction es as [|e es IH]; intros xs H; inversion H; subst; [now split|]. apply Qes_cons; [now apply (fits_Qel q)|now apply IH].
Qed.
Definition follower (k : N) (rest : str) (c : N) (r : str) : Prop := c = k /\ r = rest \/ live_marker r = true /\ hd 0 r = c.
Lemma readable_elems q L F k es rest : Forall PE es -> lall (eok q) es -> apart es = true -> lits F k es ->
  (forall s c r, s <> [] -> escape_ok s = true -> (c = 36 \/ c = 37 -> last s 0 <> c) -> F s c -> follower k rest c r -> literal_text q s <> [] /\ eat inp L (literal_text q s) (eq s) r) ->
  readable L (map (spec_of q) es) rest.
Proof.
  intros HP HO HA HL HR. induction es as [|e es IH]; [exact I|]. cbn [map BackTpl.readable]. inversion HP as [|? ? P1 P2]; subst. destruct HO as [O1 O2].
  assert (A2 : apart es = true) by (destruct es; [reflexivity|]; cbn [apart] in HA; now apply andb_true_iff in HA).
  assert (L2 : lits F k es) by (destruct e; [apply HL|exact HL|exact HL|exact HL]). split; [|now apply IH].
  destruct (is_lit e) eqn:El.
  - destruct e as [sp s| | |]; try discriminate. cbn [spec_of]. destruct HL as (L3 & L4 & L5 & L6 & _). apply (HR s (next_char k es)); auto.
    rewrite stexts_of. destruct es as [|e es]; [left; auto|]. right. cbn [apart] in HA. apply andb_true_iff in HA. destruct HA as [HA _]. cbn [is_lit andb] in HA. apply negb_true_iff in HA.
    inversion P2 as [|? ? P3 P4]; subst. destruct O2 as [O2 _]. destruct (P3 q O2 HA) as (E1 & E2 & _). cbn [flat_map]. rewrite <- app_assoc. split; [now apply live_app|].
    destruct (etext q e); [discriminate|]. cbn [hd app] in *. rewrite E2. now destruct e.
  - destruct (P1 q O1 El) as (E1 & _ & E3). destruct e; try discriminate; cbn [spec_of]; auto.
Qed.

(** ** The readers of literals *)
Lemma quoted_literal rest s c r : s <> [] -> escape_ok s = true -> (c = 36 \/ c = 37 -> last s 0 <> c) -> follower 34 (34 :: rest) c r ->
  literal_text true s <> [] /\ eat inp (build_string quoted_string_fragment) (literal_text true s) (eq s) r.
Proof.
  intros H1 H2 H3 H4. change (literal_text true s) with (encode_escaped (escape_markers s)).
  assert (NE : encode_escaped (escape_markers s) <> []) by (intros E; apply enc_nil in E; now apply (escape_last s 0) in E).
  split; [exact NE|]. apply (eat_build_string r _ s); auto.
  - apply quoted_lit_reads; [exact H2|]. destruct H4 as [[-> ->]|[H4 H5]]; [split; [discriminate|intros [E|E]; discriminate]|].
    destruct (live_marker_at r H4) as (m & x & Hm & ->). cbn [hd] in H5. subst c. split; [destruct Hm as [->| ->]; discriminate|auto].
  - destruct H4 as [[-> ->]|[H4 _]]; [apply quiet_quote|now apply live_quiet].
Qed.
Lemma plain_literal q k rest s c r : (rest = [] \/ live_marker rest = true /\ hd 0 rest = k) -> s <> [] -> escape_ok s = true -> (c = 36 \/ c = 37 -> last s 0 <> c) -> (q = true -> unescaped s) -> follower k rest c r ->
  literal_text q s <> [] /\ eat inp (build_string (template_string_fragment marker_start)) (literal_text q s) (eq s) r.
Proof.
  intros HR H1 H2 H3 HQ H4. assert (E : literal_text q s = escape_markers s) by (destruct q; [exact (HQ eq_refl)|reflexivity]). rewrite E.
  assert (NE : escape_markers s <> []) by (intros Em; now apply (escape_last s 0) in Em).
  assert (H5 : r = [] \/ live_marker r = true /\ hd 0 r = c).
  { destruct H4 as [[-> ->]|H4]; [|now right]. destruct HR as [HR|[HR HR']]; [now left|right; auto]. }
  split; [exact NE|]. apply (eat_tpl_string marker_start live_marker marker_eat marker_miss eq_refl _ _ s); auto.
  - apply tpl_lit_reads; auto.
    + destruct H5 as [->|[H5 H6]]; [exact I|]. destruct (live_marker_at r H5) as (m & x & Hm & ->). cbn [hd] in H6. subst c. split; [destruct Hm as [->| ->]; discriminate|auto].
    + apply endless_marker.
  - destruct H5 as [->|[H5 _]]; [apply nil_tquiet|now apply live_tquiet].
Qed.
Lemma escape_enders r : enders r -> live_marker r = true /\ hd 0 r = 37.
Proof. intros [H|[H|H]]; (split; [exact (ender_live _ _ H)|]); destruct H as (s & g & r' & _ & ->); reflexivity. Qed.

(** ** Template sequences *)
Lemma PE_lit sp s : PE (XLit sp s). Proof. intros q _ H. discriminate H. Qed.
Lemma shutter_ctx s w nl g r : Gap true g -> ctx quiet2 w nl (g ++ shutter s ++ r).
Proof. intros Hg. unfold shutter. destruct (strip_end s); cbn [app]; apply (ctx_close u HU _ _ true); auto; cbn; auto 6. Qed.
Lemma strip_head k s t : live_marker (k ++ [0]) = true -> length k = 2%nat -> live_marker (strip_text k s t) = true /\ hd 0 (strip_text k s t) = hd 0 k.
Proof.
  intros H HL. rewrite strip_text_eq. destruct k as [|a [|c [|]]]; try discriminate. split; [|reflexivity]. destruct (live_marker_at _ H) as (m & x & Hm & E). injection E as -> -> _.
  destruct Hm as [->| ->]; reflexivity.
Qed.
Lemma PE_interp sp e s : P e -> PE (XInterp sp e s).
Proof.
  intros IH q HO _. destruct HO as ((T1 & T2) & HR). destruct (P_sub u b pf sf q true e IH HR) as (Oe & Ee). destruct df_ok as (_ & _ & _ & D4).
  change (etext q (XInterp sp e s)) with (strip_text (lit "${") s (text_in (text q) BOTH e)). destruct (strip_head (lit "${") s (text_in (text q) BOTH e) eq_refl eq_refl) as (E1 & E2).
  split; [exact E1|]. split; [exact E2|]. intros rest. rewrite text_in_eq. apply (back_interp u b pf HU s _ (text q e) _ (Q e)); auto using Q_stable.
  - now apply pre_gap.
  - now apply suf_gap.
  - apply Ee. apply shutter_ctx. now apply suf_gap.
  - intros sp' x Hx. split; [change (XInterp None (bare (DX x)) s = XInterp None (bare e) s); destruct Hx as [[Hx _] _]; now rewrite Hx|]. intros Y q'.
    change (strip_text (lit "${") s (text_in (text q') BOTH (DX x)) = strip_text (lit "${") s (text_in (text q') BOTH e)). now rewrite (held_in sf q' BOTH e x Hx Y).
Qed.
Lemma app_live a r : live_marker a = true /\ hd 0 a = 37 -> live_marker (a ++ r) = true /\ hd 0 (a ++ r) = 37.
Proof. intros [H1 H2]. split; [now apply live_app|]. now destruct a. Qed.
Definition gelse_of (q : bool) (e : xelse) : gelse := match e with XElse p tr t s => (s, raw_enc p SP, raw_enc tr SP, tpl_text sf q t) end.
Definition Qelse (el : option xelse) : list xelem -> Prop := match el with Some (XElse _ _ t _) => Qes (elems t) | None => fun _ => False end.
Definition elses (q : bool) (el : option xelse) : str := match el with Some e => else_text sf q e | None => [] end.
Lemma PE_if sp p c t s el ep et es : P c -> PTp t -> oall PEl el -> PE (XIfD sp p c t s el ep et es).
Proof.
  intros IHc IHt IHe q HO _. destruct HO as (G1 & ((T1 & T2) & HR) & HT & HE & G2 & G3). destruct (P_sub u b pf sf q false c IHc HR) as (Oc & Ec). destruct df_ok as (_ & _ & D3 & _).
  assert (EX : etext q (XIfD sp p c t s el ep et es) = strip_text (lit "%{") s (raw_enc p SP ++ lit "if" ++ pre TRAILING (x_meta c) ++ text q c ++ suf TRAILING (x_meta c)) ++ tpl_text sf q t ++
     gelse_text (option_map (gelse_of q) el) ++ word_text es (raw_enc ep SP) (lit "endif") (raw_enc et SP)) by (destruct el as [[]|]; reflexivity).
  destruct (strip_head (lit "%{") s (raw_enc p SP ++ lit "if" ++ pre TRAILING (x_meta c) ++ text q c ++ suf TRAILING (x_meta c)) eq_refl eq_refl) as (E1 & E2).
  rewrite EX. pose proof (app_live _ (tpl_text sf q t ++ gelse_text (option_map (gelse_of q) el) ++ word_text es (raw_enc ep SP) (lit "endif") (raw_enc et SP)) (conj E1 E2)) as (E3 & E4).
  split; [exact E3|]. split; [exact E4|]. intros rest.
  destruct (raw_gap_gap p SP G1) as (X1 & Y1), (raw_gap_gap ep SP G2) as (X2 & Y2), (raw_gap_gap et SP G3) as (X3 & Y3).
  apply (back_if u b pf HU s _ _ (text q c) _ (Q c) _ (Qes (elems t)) _ (Qelse el)); auto using Q_stable.
  - now apply pre_gap.
  - now apply suf_gap.
  - intros r. apply Ec, shutter_ctx. now apply suf_gap.
  - destruct el as [[p' tr t' s']|]; [|exact I]. destruct HE as (H1 & H2 & H3). cbn. split; [now apply raw_gap_gap|]. split; [now apply raw_gap_gap|]. intros r Hr. now apply IHe.
  - intros rp x ts sp' el' ra rz A1 A2 [A3 T3] A4 A5 A6. rewrite Y1 in A1. rewrite Y2 in A5. rewrite Y3 in A6.
    assert (HX : option_map bare_else (option_map (else_map D leave) el') = option_map bare_else el /\ (oallp settled_else el -> forall q, elses q (option_map (else_map D leave) el') = elses q el)).
    { destruct el as [[p' tr t' s']|], el' as [[ra' rz' t'' s'']|]; cbn in A4; try contradiction; [|now split]. destruct A4 as (B1 & B2 & -> & (es1 & sp1 & -> & [B3 B4])), HE as (H1 & H2 & _).
      destruct (raw_gap_gap p' SP H1) as (_ & Y4), (raw_gap_gap tr SP H2) as (_ & Y5). rewrite Y4 in B1. rewrite Y5 in B2. split.
      - change (Some (XElse (D ra') (D rz') (XTempl (map bare_elem (map DE es1)) None) s') = Some (XElse p' tr (bare_tpl t') s')). rewrite B1, B2, B3. now destruct t'.
      - intros Y q'. change (strip_text (lit "%{") s' (raw_enc (D ra') SP ++ lit "else" ++ raw_enc (D rz') SP) ++ flat_map (etext q') (map DE es1) =
          strip_text (lit "%{") s' (raw_enc p' SP ++ lit "else" ++ raw_enc tr SP) ++ tpl_text sf q' t'). destruct t' as [es' sp0]. now rewrite B1, B2, (B4 Y). }
    destruct HX as [X4 T4]. split.
    + change (XIfD None (D rp) (bare (DX x)) (XTempl (map bare_elem (map DE ts)) None) s (option_map bare_else (option_map (else_map D leave) el')) (D ra) (D rz) es =
        XIfD None p (bare c) (bare_tpl t) s (option_map bare_else el) ep et es).
      rewrite A1, A3, A5, A6, X4. destruct A2 as [[A2 _] _]. rewrite A2. now destruct t.
    + intros (S1 & S2 & S3) q'. destruct t as [ts0 sp0].
      change (strip_text (lit "%{") s (raw_enc (D rp) SP ++ lit "if" ++ text_in (text q') TRAILING (DX x)) ++ flat_map (etext q') (map DE ts) ++ elses q' (option_map (else_map D leave) el') ++
          strip_text (lit "%{") es (raw_enc (D ra) SP ++ lit "endif" ++ raw_enc (D rz) SP) =
        strip_text (lit "%{") s (raw_enc p SP ++ lit "if" ++ text_in (text q') TRAILING c) ++ flat_map (etext q') ts0 ++ elses q' el ++ strip_text (lit "%{") es (raw_enc ep SP ++ lit "endif" ++ raw_enc et SP)).
      now rewrite A1, A5, A6, (held_in sf q' TRAILING c x A2 S1), (T3 S2), (T4 S3).
Qed.
Lemma loop_gids2 kv vv : loop_ok u kv vv BOTH -> opt_gid_ok u (option_map (gid_of LEADING) kv) /\ gid_ok u true (gid_of BOTH vv) /\ snd (gid_of BOTH vv) <> [].
Proof.
  intros (H1 & H2 & (H3 & H4) & H5). destruct df_ok as (D1 & D2 & D3 & D4). split; [|split; [|exact H5]].
  - destruct kv as [k|]; [|exact I]. destruct H1 as (K1 & K2 & K3). split; [now apply pre_gap|]. split; [exact K1|now apply suf_gap].
  - split; [now apply pre_gap|]. split; [exact H2|now apply suf_gap].
Qed.
Lemma PE_ford sp p kv vv c t s ep et es : P c -> PTp t -> PE (XForD sp p kv vv c t s ep et es).
Proof.
  intros IHc IHt q HO _. destruct HO as (G1 & HL & ((T1 & T2) & HR) & HT & G2 & G3). destruct (P_sub u b pf sf q false c IHc HR) as (Oc & Ec). destruct df_ok as (_ & _ & _ & D4).
  destruct (loop_gids2 kv vv HL) as (L1 & L2 & L3). set (k := option_map (gid_of LEADING) kv) in *. set (v := gid_of BOTH vv) in *.
  assert (EX : etext q (XForD sp p kv vv c t s ep et es) = strip_text (lit "%{") s (raw_enc p SP ++ lit "for" ++ loop_text k v (pre BOTH (x_meta c) ++ text q c ++ suf BOTH (x_meta c))) ++ tpl_text sf q t ++
     word_text es (raw_enc ep SP) (lit "endfor") (raw_enc et SP)).
  { unfold loop_text, k, v. destruct kv; reflexivity. }
  destruct (strip_head (lit "%{") s (raw_enc p SP ++ lit "for" ++ loop_text k v (pre BOTH (x_meta c) ++ text q c ++ suf BOTH (x_meta c))) eq_refl eq_refl) as (E1 & E2).
  rewrite EX. pose proof (app_live _ (tpl_text sf q t ++ word_text es (raw_enc ep SP) (lit "endfor") (raw_enc et SP)) (conj E1 E2)) as (E3 & E4).
  split; [exact E3|]. split; [exact E4|]. intros rest.
  destruct (raw_gap_gap p SP G1) as (X1 & Y1), (raw_gap_gap ep SP G2) as (X2 & Y2), (raw_gap_gap et SP G3) as (X3 & Y3).
  apply (back_ford u b pf HU s _ k v _ (text q c) _ (Q c) _ (Qes (elems t))); auto using Q_stable.
  - now apply pre_gap.
  - now apply suf_gap.
  - intros r. apply Ec, shutter_ctx. now apply suf_gap.
  - intros rp kv' vv' x ts sp' ra rz A1 A2 A3 [A4 T4] A5 A6. rewrite Y1 in A1. rewrite Y2 in A5. rewrite Y3 in A6. split.
    + destruct (loop_bare LEADING BOTH kv vv kv' vv' A2) as (F1 & F2).
      change (XForD None (D rp) (option_map bare_did (option_map (did_map D) kv')) (bare_did (did_map D vv')) (bare (DX x)) (XTempl (map bare_elem (map DE ts)) None) s (D ra) (D rz) es =
        XForD None p (option_map bare_did kv) (bare_did vv) (bare c) (bare_tpl t) s ep et es).
      rewrite A1, A4, A5, A6, F1, F2. destruct A3 as [[A3 _] _]. rewrite A3. now destruct t.
    + intros (S1 & S2) q'. destruct (loop_same LEADING BOTH kv vv kv' vv' A2) as (F1 & F2). destruct t as [ts0 sp0].
      change (strip_text (lit "%{") s (raw_enc (D rp) SP ++ lit "for" ++ key_var LEADING (option_map (did_map D) kv') ++ did_text BOTH (did_map D vv') ++ lit "in" ++ text_in (text q') BOTH (DX x)) ++
          flat_map (etext q') (map DE ts) ++ strip_text (lit "%{") es (raw_enc (D ra) SP ++ lit "endfor" ++ raw_enc (D rz) SP) =
        strip_text (lit "%{") s (raw_enc p SP ++ lit "for" ++ key_var LEADING kv ++ did_text BOTH vv ++ lit "in" ++ text_in (text q') BOTH c) ++
          flat_map (etext q') ts0 ++ strip_text (lit "%{") es (raw_enc ep SP ++ lit "endfor" ++ raw_enc et SP)).
      now rewrite A1, A5, A6, F1, F2, (held_in sf q' BOTH c x A3 S1), (T4 S2).
Qed.

(** ** Templates *)
Lemma template_readable q es rest : Forall PE es -> lall (eok q) es -> apart es = true -> lits (fun s _ => q = true -> unescaped s) 37 es -> rest = [] \/ live_marker rest = true /\ hd 0 rest = 37 ->
  readable (build_string (template_string_fragment marker_start)) (map (spec_of q) es) rest.
Proof. intros H1 H2 H3 H4 H5. apply (readable_elems q _ _ 37 es rest H1 H2 H3 H4). intros s c r A1 A2 A3 A4 A5. now apply (plain_literal q 37 rest s c). Qed.
Lemma PTp_all es sp : Forall PE es -> PTp (XTempl es sp).
Proof.
  intros H q (H1 & H2 & H3) rest Hr. change (tpl_text sf q (XTempl es sp)) with (flat_map (etext q) es). rewrite <- stexts_of. apply back_template; [now left| |].
  - apply template_readable; auto. right. now apply escape_enders.
  - intros xs. apply fits_Qes.
Qed.
Lemma quoted_start h es (K : xexpr -> Prop) rest : Forall PE es -> lall (eok true) es -> apart es = true -> lits (fun _ _ => True) 34 es -> forallb is_lit es = false ->
  (forall xs, Qes es xs -> K (XTpl no_meta xs)) -> START h ([34] ++ flat_map (etext true) es ++ [34]) h K rest.
Proof.
  intros IH H1 H2 H3 H4 HK. rewrite <- (stexts_of true).
  assert (HR : readable (build_string quoted_string_fragment) (map (spec_of true) es) (34 :: rest)).
  { apply (readable_elems true _ _ 34 es (34 :: rest) IH H1 H2 H3). intros s c r A1 A2 A3 A4 A5. now apply (quoted_literal rest s c). }
  apply back_string_template; auto.
  - destruct es as [|e es]; [discriminate|]. destruct e; try exact I. destruct es as [|e es]; [discriminate|]. cbn [apart is_lit andb] in H2. destruct e; try exact I. discriminate.
  - intros xs Hxs. apply HK. exact (fits_Qes _ _ _ Hxs).
Qed.
Lemma P_tpl m es : Forall PE es -> P (XTpl m es).
Proof.
  intros IH. apply base_pack; [reflexivity|]. intros q h fl (H1 & H2 & H3 & H4 & _). split; [now apply (opens_other u HU)|]. intros _ rest _ _ _. cbn [sticky]. rewrite orb_false_r.
  change (text q (XTpl m es)) with ([34] ++ flat_map (etext true) es ++ [34]). apply quoted_start; auto.
  intros xs [E1 E2]. split; [change (XTpl no_meta (map bare_elem (map DE xs)) = XTpl no_meta (map bare_elem es)); now rewrite E1|]. intros Y q'.
  change ([34] ++ flat_map (etext true) (map DE xs) ++ [34] = [34] ++ flat_map (etext true) es ++ [34]). now rewrite (E2 Y).
Qed.

(** ** Heredocs *)
Lemma escape_loop_break le : break le -> forall k s, (length s <= k)%nat -> escape_loop (s ++ le) = escape_loop s ++ le.
Proof.
  intros Hle. induction k as [|k IH]; intros s Hl.
  { destruct s; [|cbn in Hl; lia]. destruct Hle as [->| ->]; reflexivity. }
  destruct s as [|c s]; [destruct Hle as [->| ->]; reflexivity|]. cbn [app escape_loop length] in *. destruct (is_mark c).
  - destruct s as [|c2 s]; [destruct Hle as [->| ->]; reflexivity|]. cbn [app length] in *. rewrite IH by lia. now destruct (c2 =? 123).
  - rewrite IH by lia. reflexivity.
Qed.
Lemma escape_break le s : break le -> escape_markers (s ++ le) = escape_markers s ++ le.
Proof.
  intros Hle. induction s as [|c s IH]; [destruct Hle as [->| ->]; reflexivity|]. cbn [app escape_markers]. destruct s as [|c2 s].
  - destruct Hle as [->| ->]; cbn; now rewrite andb_false_r.
  - cbn [app]. destruct (is_mark c && (c2 =? 123)).
    + exact (escape_loop_break le Hle _ (c :: c2 :: s) (le_n _)).
    + cbn [app]. f_equal. exact IH.
Qed.
Definition tail_lit (sp : option bspan) (s : str) : list xelem := match s with [] => [] | _ => [XLit sp s] end.
Lemma lits_last (F F' : str -> N -> Prop) k es0 sp sp' s x : apart (es0 ++ [XLit sp' x]) = true -> (F s k -> F' s k) -> (forall s c, c = 36 \/ c = 37 -> F s c -> F' s c) ->
  lits F k (es0 ++ tail_lit sp s) -> lits F' k (es0 ++ tail_lit sp s).
Proof.
  intros HA H1 H2. induction es0 as [|e es0 IH]; cbn [app]; intros H.
  - destruct s; [exact I|]. cbn [tail_lit lits] in *. intuition.
  - assert (HA' : apart (es0 ++ [XLit sp' x]) = true) by (cbn [app apart] in HA; destruct (es0 ++ [XLit sp' x]); [reflexivity|]; now apply andb_true_iff in HA).
    specialize (IH HA'). destruct e; cbn [lits] in *; auto. destruct H as (L1 & L2 & L3 & L4 & L5). repeat split; auto. apply H2; [|exact L4].
    destruct es0 as [|e es0]; [discriminate HA|]. cbn [app next_char]. destruct e; auto.
Qed.
Lemma lit_other k : k = 36 \/ k = 37 \/ k = 10 \/ k = 13 -> other u k.
Proof.
  intros H. assert (K : k < 128) by lia. destruct (HU k K) as [H1 H2].
  assert (E : is_space k = false /\ is_ascii_letter k = false /\ is_digit k = false /\ (k =? 95) = false /\ (k =? 45) = false) by (destruct H as [->|[->|[->| ->]]]; repeat split; reflexivity).
  destruct E as (E1 & E2 & E3 & E4 & E5). repeat split; [exact E1| |].
  - unfold is_id_start. rewrite H1, E2, E4. reflexivity.
  - unfold is_id_continue. rewrite H2, E2, E3, E4, E5. reflexivity.
Qed.
Notation hend d := (alt (tag (lit "${")) (alt (tag (lit "%{")) (heredoc_end u d))).
Lemma heredoc_literal d le w rest s c r : is_ident u d = true -> break le -> forallb is_space w = true -> ends idc rest ->
  s <> [] -> escape_ok s = true -> (c = 36 \/ c = 37 -> last s 0 <> c) -> calm u d (escape_markers s) c = true -> (c = 10 -> last s 0 <> 13) -> follower (hd 0 le) (le ++ w ++ d ++ rest) c r ->
  literal_text false s <> [] /\ eat inp (build_string (template_string_fragment (hend d))) (literal_text false s) (eq s) r.
Proof.
  intros Hd Hle Hw Hr H1 H2 H3 H4 H5 H6. change (literal_text false s) with (escape_markers s).
  assert (NE : escape_markers s <> []) by (intros Em; now apply (escape_last s 0) in Em). split; [exact NE|].
  pose proof (closes_delim u HU d le w rest Hd Hle Hw Hr) as HC.
  assert (KC : c = 36 \/ c = 37 \/ c = 10 \/ c = 13).
  { destruct H6 as [[-> _]|[H6 <-]]; [destruct Hle as [->| ->]; cbn; auto|]. destruct (live_marker_at r H6) as (m & x & Hm & ->). cbn. tauto. }
  assert (HR : exists r', r = c :: r').
  { destruct H6 as [[-> ->]|[H6 <-]]; [destruct Hle as [->| ->]; cbn; eauto|]. destruct (live_marker_at r H6) as (m & x & Hm & ->). cbn. eauto. }
  apply (eat_tpl_string (hend d) (hstop u d) (fun s => @hstop_eat inp u d s) (fun s => @hstop_miss inp u d s) eq_refl _ _ s); auto.
  - destruct HR as (r' & ->). apply tpl_lit_reads; auto.
    + split; [intuition congruence|auto].
    + apply calm_endless; auto; [now apply lit_other|]. intros E. rewrite (proj2 (escape_last s 0)). auto.
  - destruct H6 as [[-> ->]|[H6 _]]; [now apply close_tquiet|]. apply live_tquiet; [|exact H6]. intros x Hx. unfold hstop. now rewrite Hx.
Qed.
Lemma apart_snoc es e : apart (es ++ [e]) = true -> apart es = true /\ (is_lit e = true -> match rev es with x :: _ => is_lit x = false | [] => True end).
Proof.
  induction es as [|a es IH]; [now split|]. cbn [app]. intros H. assert (H' : apart (es ++ [e]) = true) by (cbn [apart] in H; destruct (es ++ [e]); [reflexivity|]; now apply andb_true_iff in H).
  destruct (IH H') as [I1 I2]. split.
  - destruct es as [|c es]; [reflexivity|]. cbn [app apart] in *. apply andb_true_iff in H. destruct H as [H _]. now rewrite H.
  - intros He. cbn [rev]. destruct es as [|c es].
    + cbn in *. rewrite He, andb_true_r in H. rewrite andb_true_r in H. now apply negb_true_iff in H.
    + specialize (I2 He). destruct (rev (c :: es)) eqn:E; [apply (f_equal (@length _)) in E; rewrite rev_length in E; discriminate|]. exact I2.
Qed.
Lemma fits_snoc l s xs : Forall2 fits (l ++ [s]) xs -> exists ys y, xs = ys ++ [y] /\ Forall2 fits l ys /\ fits s y.
Proof.
  intros H. apply Forall2_app_inv_l in H. destruct H as (ys & z & H1 & H2 & ->). inversion H2 as [|? y ? l' F1 F2]; subst. inversion F2; subst. eauto.
Qed.
Lemma push_fits es0 sp s le sp' xs : apart (es0 ++ [XLit sp (s ++ le)]) = true -> Forall2 fits (map (spec_of false) (es0 ++ tail_lit sp s)) xs -> Qes (es0 ++ [XLit sp (s ++ le)]) (push_line_ending le sp' xs).
Proof.
  intros HA HF. destruct (apart_snoc _ _ HA) as [_ HL]. specialize (HL eq_refl). unfold push_line_ending. destruct s as [|c s].
  - cbn [tail_lit] in HF. rewrite app_nil_r in HF. pose proof (fits_Qes _ _ _ HF) as HQ.
    assert (X : match rev xs with XLit (Some s) t :: r => rev (XLit (Some (fst s, snd sp')) (t ++ le) :: r) | _ => xs ++ [XLit (Some sp') le] end = xs ++ [XLit (Some sp') le]).
    { destruct (rev es0) as [|e r] eqn:E.
      - assert (es0 = []) by (rewrite <- (rev_involutive es0), E; reflexivity). subst. inversion HF. reflexivity.
      - assert (E' : es0 = rev r ++ [e]) by (rewrite <- (rev_involutive es0), E; reflexivity). rewrite E', map_app in HF. apply fits_snoc in HF. destruct HF as (ys & y & -> & _ & F).
        rewrite rev_unit. apply fits_Qel in F. destruct F as [F _]. destruct y; try reflexivity. destruct e; try discriminate. }
    rewrite X. apply Qes_app; [exact HQ|apply Qes_lit].
  - cbn [tail_lit] in HF. rewrite map_app in HF. apply fits_snoc in HF. destruct HF as (ys & y & -> & F1 & (sp1 & ->)). rewrite rev_unit. cbn [rev]. rewrite rev_involutive.
    apply Qes_app; [exact (fits_Qes _ _ _ F1)|apply Qes_lit].
Qed.
Lemma Forall_PE_lit es sp s : Forall PE es -> Forall PE (es ++ tail_lit sp s).
Proof. intros H. apply Forall_app. split; [exact H|]. destruct s; constructor; [apply PE_lit|constructor]. Qed.
Lemma heredoc_start (ind : bool) m d es sp i tr q h fl (K : xexpr -> Prop) rest : Forall PE es -> ok q h fl (XHeredoc m d (XTempl es sp) i tr) -> ends idc rest ->
  (forall xs sp' tr', Qes es xs -> D tr' = tr ->
     K (let '(xs, n) := if ind then tpl_dedent xs else (xs, None) in XHeredoc no_meta d (XTempl xs sp') n tr')) ->
  START h (lit "<<" ++ dash ind ++ d ++ [10] ++ flat_map (etext false) es ++ raw_enc tr [] ++ d) h K rest.
Proof.
  intros IH (-> & -> & Hd & C1 & C2 & HO & HA & (es0 & sp0 & s & le & -> & HB & HL)) Hr HK.
  assert (Hle : break le) by (destruct HB as [[-> _]| ->]; [now left|now right]).
  assert (ET : flat_map (etext false) (es0 ++ [XLit sp0 (s ++ le)]) = stexts (map (spec_of false) (es0 ++ tail_lit sp0 s)) ++ le).
  { rewrite stexts_of, !flat_map_app, <- app_assoc. f_equal. cbn [flat_map]. rewrite app_nil_r. change (etext false (XLit sp0 (s ++ le))) with (escape_markers (s ++ le)). rewrite escape_break by exact Hle.
    f_equal. destruct s; [reflexivity|]. cbn [tail_lit flat_map]. now rewrite app_nil_r. }
  rewrite ET. apply Forall_app in IH. destruct IH as [IH _]. apply (back_heredoc u b pf HU ind h d); auto.
  - apply (readable_elems false _ (fun s c => calm u d (escape_markers s) c = true /\ (c = 10 -> last s 0 <> 13)) (hd 0 le)).
    + now apply Forall_PE_lit.
    + apply lall_Forall in HO. apply lall_Forall. apply Forall_app in HO. destruct HO as [HO _]. apply Forall_app. split; [exact HO|]. destruct s; constructor; [exact I|constructor].
    + destruct s; [cbn [tail_lit]; rewrite app_nil_r; now apply apart_snoc in HA|]. cbn [tail_lit].
      clear -HA. induction es0 as [|e es0 IH]; [reflexivity|]. cbn [app] in *. destruct es0 as [|e' es0]; cbn [app apart] in *; [exact HA|]. apply andb_true_iff in HA. destruct HA as [-> HA]. now apply IH.
    + eapply lits_last; [exact HA| | |exact HL].
      * intros Hc. split; [exact Hc|]. intros E. destruct HB as [[_ HB]| ->]; [exact HB|discriminate E].
      * intros s' c [-> | ->] Hc; (split; [exact Hc|discriminate]).
    + intros s' c r A1 A2 A3 (A4 & A4') A5. now apply (heredoc_literal d le (raw_enc tr []) rest s' c).
  - intros xs sp1 sp2 tr' HF Htr. rewrite C1 in Htr. apply HK; [|exact Htr]. now apply push_fits.
Qed.
Lemma P_heredoc m d es sp i tr : Forall PE es -> P (XHeredoc m d (XTempl es sp) i tr).
Proof.
  intros IH. apply base_pack; [reflexivity|]. intros q h fl HO. split; [now apply (opens_other u HU)|]. intros _ rest Hr _ _. cbn [sticky]. rewrite orb_false_r.
  pose proof HO as (-> & -> & _). refine (heredoc_start false m d es sp None tr false h fl _ rest IH HO Hr _). intros xs sp' tr' [E1 E2] Htr. split.
  - change (XHeredoc no_meta d (XTempl (map bare_elem (map DE xs)) None) None (D tr') = XHeredoc no_meta d (XTempl (map bare_elem es) None) None tr).
    now rewrite E1, Htr.
  - intros Y q'. change (lit "<<" ++ [] ++ d ++ [10] ++ flat_map (etext q') (map DE xs) ++ raw_enc (D tr') [] ++ d =
      lit "<<" ++ [] ++ d ++ [10] ++ flat_map (etext q') es ++ raw_enc tr [] ++ d). now rewrite (E2 Y), Htr.
Qed.

(** ** All expressions *)
Lemma tpl_of t : Forall PE (elems t) -> PTp t.
Proof. destruct t. apply PTp_all. Qed.
Lemma everything : (forall e, P e) /\ (forall c, @PC inp u b pf sf c) /\ (forall i, @PI inp u b pf sf i) /\ (forall k, @PK inp u b pf sf k) /\ (forall o, @PT inp u b pf sf o) /\
  (forall o, @PO inp u b pf sf o) /\ (forall t, Forall PE (elems t)) /\ (forall e, PE e) /\ (forall e, PEl e).
Proof.
  apply xexpr_all.
  - intros m. now apply P_null.
  - intros m x. now apply P_bool.
  - intros m n r. now apply P_num.
  - intros m s. now apply P_str.
  - intros m l c t H. now apply P_arr.
  - intros m l t H. now apply P_obj.
  - intros m l H. now apply P_tpl.
  - intros m d t i r H. destruct t. now apply P_heredoc.
  - intros m e H. now apply P_paren.
  - intros m x. now apply P_var.
  - intros m c t f H1 H2 H3. now apply P_cond.
  - intros m ns n am l ex co t H. now apply P_call.
  - intros m e o H1 H2. now apply P_trav.
  - intros m s o e H. now apply P_unary.
  - intros m l om o r H1 H2. now apply P_binary.
  - intros m im k v c key val g cond H1 H2 H3 H4. now apply P_for.
  - intros m e H. exact H.
  - intros k a v t H1 H2. exact (conj H1 H2).
  - intros i. exact I.
  - intros e H. exact H.
  - intros m o H. exact H.
  - intros m. exact I.
  - intros m. exact I.
  - intros i. exact I.
  - intros e H. exact H.
  - intros m n. exact I.
  - intros es sp H. exact H.
  - intros sp s. apply PE_lit.
  - intros sp e s H. now apply PE_interp.
  - intros sp p c t s el ep et es H1 H2 H3. apply PE_if; auto. now apply tpl_of.
  - intros sp p k v c t s ep et es H1 H2. apply PE_ford; auto. now apply tpl_of.
  - intros p tr t s H. now apply tpl_of.
Qed.
Lemma all_P e : P e. Proof. apply everything. Qed.
Lemma all_PE es : Forall PE es. Proof. apply Forall_forall. intros e _. apply everything. Qed.
(** An expression in a place, a template on its own. *)
Lemma back_expr e h rest : ok false h (h || sticky e) e -> ctx quiet2 (wide e) h rest -> EXPR h (text false e) (Q e) rest /\ opens (text false e).
Proof. intros H HC. destruct (all_P e false h _ H) as (H1 & _ & _ & _ & H5). split; [|exact H1]. now apply (H5 eq_refl). Qed.
Lemma back_tpl es : lall (eok false) es -> apart es = true -> lits (fun _ _ => True) 0 es -> TPL (flat_map (etext false) es) (Qes es) [].
Proof.
  intros H1 H2 H3. rewrite <- stexts_of. apply back_template; [now right| |intros xs; apply fits_Qes].
  apply (readable_elems false _ _ 0 es [] (all_PE es) H1 H2 H3). intros s c r A1 A2 A3 _ A4. apply (plain_literal false 0 [] s c); auto. discriminate.
Qed.
End All.

(** * Parsed trees meet the conditions under which trees are read back: structures and documents *)
From Coq Require Import NArith ZArith Arith Bool String List Lia.
From Verif Require Import Res Str Dec NumberModel PrimModel PrimProofs DedentModel EAst EncModel EqSpec EqProofs PrattSpec PrattProofs.
From Verif Require Import ParseBase ParseModel ParseSpec ParseLemmas Grammar ParseTop Eat EatLeaf ParseSound ParseSoundRec BackSpec BackLex BackBodySpec AgainSpec AgainBase AgainProofs.
Import ListNotations.
Open Scope N_scope.

Section Input.
Context (inp : str).
Notation rd := (raw_despan inp).
Notation D := (x_map rd leave).
Notation Ds := (struct_map rd leave).
Notation Dm := (meta_map rd).
Notation Di := (did_map rd).
Notation here := (here inp).
Ltac tos := lazymatch goal with
  | |- to ?s ?s => apply to_refl
  | |- to ?s ?s' => match goal with
      | H : to s s' |- _ => exact H
      | H : adv s _ s' |- _ => exact (adv_to _ _ _ H)
      | H : to s ?s1 |- _ => apply (to_trans s s1 s' H); clear H; tos
      | H : adv s ?t ?s1 |- _ => apply (to_trans s s1 s' (adv_to _ _ _ H)); clear H; tos
      end
  end.
Ltac hr := match goal with H : here ?s0 |- here ?s => apply (here_to inp s0 s H); tos end.
Ltac ne := match goal with
  | |- snd ?s <> [] => first [assumption | match goal with
      | H : adv s (_ :: _) _ |- _ => exact (adv_ne _ _ _ _ H)
      | H : snd ?s' <> [] |- _ => apply (to_ne s s'); [tos|exact H]
      | H : adv ?s1 (_ :: _) _ |- _ => apply (to_ne s s1); [tos|exact (adv_ne _ _ _ _ H)]
      end]
  end.
Ltac bnd H a s1 H1 := apply bind_inv in H; destruct H as (a & s1 & H1 & H).
Ltac rtn H := apply ret_inv in H; destruct H as [-> ->].

Section Grammar.
Context (u : unicode) (b : build) (pf : str -> f64) (sf : f64 -> str).
Context (HU : ascii_exact u).
Context (R : recs) (G : good inp u b pf sf R).
Notation struct_ok := (struct_ok u b pf sf).
Notation struct_regular := (struct_regular u sf).
Definition St (x : xstruct) : Prop := struct_regular (Ds x) -> struct_ok (Ds x).
Record body_good (x : xbody) (s' : st) : Prop := BG {
  bg_one : match x with XBody _ _ one _ => one = false end;
  bg_pre : match x with XBody m _ _ _ => d_prefix (m_decor m) = None end;
  bg_suf : match x with XBody m _ _ _ => last_gap true (suf NO (Dm m)) = true end;
  bg_last : snd s' <> [] -> match x with XBody m _ _ omit => gap true (suf NO (Dm m)) = true /\ omit = false end;
  bg_lines : match x with XBody _ l _ _ => Forall St l /\ NoDup (attr_names l) end;
  bg_omit : match x with XBody m l _ omit => omit = true -> l <> [] /\ suf NO (Dm m) = [] end
}.
Context (GB : forall s x s', here s -> r_body R s = POk x s' -> to s s' /\ body_good x s').

(** [= value] *)
Lemma attribute_expr_E s v s' : here s -> attribute_expr R s = POk v s' -> to s s' /\ E inp u b pf sf false v /\ gap false (pre NO (x_meta (D v))) = true /\
  (shut (D v) -> suf NO (x_meta (D v)) = []).
Proof.
  intros Hs H. unfold attribute_expr in H. bnd H c s1 H1. apply cut_inv, char_inv in H1. destruct H1 as [H1 _]. assert (h1 : here s1) by hr.
  apply prefixed_inv in H. destruct H as (a & s2 & x & H2 & H & ->). destruct (sp_Gr inp _ _ _ h1 H2) as (T2 & G2). assert (h2 : here s2) by hr.
  destruct (g_expr inp u b pf sf R G _ _ _ _ h2 H) as (T3 & _ & Hb & HE). split; [tos|]. split; [now do 2 apply E_upd|]. rewrite D_meta, meta_upd.
  split; [rewrite pre_set; now apply Gr_gap|]. intros Sh. rewrite suf_set', <- D_meta. apply bare_suf; [now apply bare_span|].
  revert Sh. generalize (x_upd (set_span (fst s2, fst s')) x). clear. intros y. rewrite D_upd. unfold shut. destruct y; auto.
Qed.
Lemma attr_of nl k v : is_ident u (i_name k) = true -> pre NO (i_meta (Di k)) = [] -> gap false (suf NO (i_meta (Di k))) = true ->
  E inp u b pf sf false v -> gap false (pre NO (x_meta (D v))) = true -> (shut (D v) -> suf NO (x_meta (D v)) = []) ->
  regular u sf false (D v) /\ shut (D v) -> attr_ok u b pf sf nl (Di k) (D v).
Proof.
  intros H1 H2 H3 H4 H5 H6 [R1 R2]. split; [exact H1|]. split; [now rewrite H2|]. split; [exact H3|]. split; [|exact (H4 _ R1)].
  split; [exact H5|]. now rewrite H6.
Qed.

(** Labels. *)
Definition Lb (l : xlabel) : Prop := label_regular (label_map rd l) -> label_ok u (label_map rd l).
Lemma block_label_E s l s' : here s -> suffix_decorated label_upd (block_label u) sp s = POk l s' -> to s s' /\ Lb l.
Proof.
  intros Hs H. apply suffixed_inv in H. destruct H as (x & s1 & z & H1 & H2 & ->).
  assert (K : to s s1 /\ match x with XLId (Did m n) => m = no_meta /\ is_ident u n = true | XLStr m _ => m = no_meta end).
  { unfold block_label in H1. apply alt_inv in H1. destruct H1 as [H1|[_ H1]]; apply pmap_inv in H1; destruct H1 as (t & H1 & ->).
    - apply sat_adv with (bad := fun _ => True) (P := fun t _ => gquoted t) in H1; [|intros; apply pstring_ok; auto]. destruct H1 as (y & A & _). split; [tos|reflexivity].
    - unfold ident in H1. apply pmap_inv in H1. destruct H1 as (n & H1 & ->). apply ident_inv in H1. destruct H1 as (A & I1 & _). split; [tos|auto]. }
  destruct K as [T1 K]. assert (h1 : here s1) by hr. destruct (sp_Gr inp _ _ _ h1 H2) as (T2 & G2). split; [tos|].
  assert (W := Gr_gap inp _ _ [] G2). destruct x as [[m n]|m t].
  - destruct K as [-> K]. intros _. split; [split; [reflexivity|exact W]|exact K].
  - subst m. intros Hr. split; [split; [reflexivity|exact W]|exact Hr].
Qed.
Lemma block_labels_E s l s' : here s -> block_labels u s = POk l s' -> to s s' /\ (lall label_regular (map (label_map rd) l) -> lall (label_ok u) (map (label_map rd) l)).
Proof.
  intros Hs H. unfold block_labels in H. apply many0_inv in H. induction H as [|s a s1 l s2 H _ _ IH]; [split; [apply to_refl|auto]|].
  destruct (block_label_E _ _ _ Hs H) as [T1 X1]. assert (h1 : here s1) by hr. destruct (IH h1) as [T2 X2]. split; [tos|]. cbn [map lall]. intros [K1 K2]. auto.
Qed.

(** The body of a block. *)
Definition block_ok_body (bd : xbody) : Prop :=
  match bd with
  | XBody bm l true omit =>
      omit = false /\ tidy false bm /\
      match l with [] => True | [XAttr am k v] => tidy false am /\ attr_ok u b pf sf false k v | _ => False end
  | XBody bm l false omit =>
      omit = false /\ last_gap false (pre NO bm) = true /\ gap true (suf NO bm) = true /\
      lall struct_ok l /\ NoDup (attr_names l)
  end.
Lemma names_map l : attr_names (map Ds l) = attr_names l.
Proof. unfold attr_names. induction l as [|[m [im k] v|m i ls bd] l IH]; cbn [map flat_map struct_map app]; [reflexivity| |exact IH]. now rewrite IH. Qed.
Lemma lall_St l : Forall St l -> lall struct_regular (map Ds l) -> lall struct_ok (map Ds l).
Proof. induction 1 as [|x l H _ IH]; cbn [map lall]; auto. intros [H1 H2]. split; auto. Qed.
Notation Db := (body_map rd leave).
Lemma oneline_attr_E s x s' : here s -> oneline_attr u R s = POk x s' -> to s s' /\ exists m k v, x = XAttr m k v /\ tidy false (Dm m) /\
  (regular u sf false (D v) /\ shut (D v) -> attr_ok u b pf sf false (Di k) (D v)).
Proof.
  intros Hs H. unfold oneline_attr in H. apply decorated_inv in H. destruct H as (a & s1 & x0 & s2 & z & H1 & H2 & H3 & ->).
  destruct (sp_Gr inp _ _ _ Hs H1) as (T1 & G1). assert (h1 : here s1) by hr. bnd H2 k s3 H4. bnd H2 v s4 H5. rtn H2.
  apply suffixed_inv in H4. destruct H4 as (i & s5 & ? & H6 & H7 & ->). unfold ident in H6. apply pmap_inv in H6. destruct H6 as (n & H6 & ->).
  apply ident_inv in H6. destruct H6 as (A6 & I6 & _). assert (h5 : here s5) by hr. destruct (sp_Gr inp _ _ _ h5 H7) as (T7 & G7). assert (h3 : here s3) by hr.
  destruct (attribute_expr_E _ _ _ h3 H5) as (T5 & X1 & X2 & X3). assert (h4 : here s4) by hr. destruct (sp_Gr inp _ _ _ h4 H3) as (T3 & G3). split; [tos|].
  do 3 eexists. split; [reflexivity|]. split.
  - split; [rewrite pre_set', pre_set|rewrite suf_set]; now apply Gr_gap.
  - apply attr_of; auto. apply (Gr_gap inp _ _ [] G7).
Qed.
Lemma block_body_E s bd s' : here s -> block_body u R s = POk bd s' -> to s s' /\ (body_regular u sf (Db bd) -> block_ok_body (Db bd)).
Proof.
  intros Hs H. unfold block_body in H. bnd H c s1 H1. apply cut_inv, char_inv in H1. destruct H1 as [H1 _]. assert (h1 : here s1) by hr. bnd H x s2 H2. bnd H c' s3 H3. rtn H.
  apply cut_inv, char_inv in H3. destruct H3 as [H3 _]. assert (N2 : snd s2 <> []) by ne. apply alt_inv in H2. destruct H2 as [H2|[_ H2]].
  - apply prefixed_inv in H2. destruct H2 as (a & s4 & y & H4 & H5 & ->). destruct (sp_comment_Lr inp _ _ _ h1 H4) as (T4 & L4). assert (h4 : here s4) by hr.
    bnd H5 le0 s5 H6. apply line_ending_to in H6. assert (h5 : here s5) by hr. destruct y as [m l one omit]. destruct (GB _ _ _ h5 H5) as (T5 & [B1 B2 B3 B4 [B5 B5'] B6]). split; [tos|].
    subst one. destruct (B4 N2) as [B7 B8]. intros Hr. split; [exact B8|]. split; [exact (Lr_gap inp _ _ [] L4)|]. split; [exact B7|].
    split; [exact (lall_St l B5 Hr)|]. rewrite names_map. exact B5'.
  - bnd H2 o s4 H4. bnd H2 tr s5 H5. rtn H2. apply raw_string_inv in H5. destruct H5 as (? & H5 & ->). apply opt_inv in H4.
    assert (K : to s1 s4 /\ match o with None => True | Some x => exists m k v, x = XAttr m k v /\ tidy false (Dm m) /\
      (regular u sf false (D v) /\ shut (D v) -> attr_ok u b pf sf false (Di k) (D v)) end).
    { destruct H4 as [(xa & -> & H4)|(-> & -> & _)]; [now apply oneline_attr_E|split; [apply to_refl|exact I]]. }
    destruct K as [T4 K]. assert (h4 : here s4) by hr. destruct (sp_Gr inp _ _ _ h4 H5) as (T5 & G5). split; [tos|]. intros Hr. split; [reflexivity|].
    split; [split; [reflexivity|exact (Gr_gap inp _ _ [] G5)]|]. destruct o as [xa|]; [|exact I]. destruct K as (m & k & v & -> & K1 & K2). destruct Hr as [Hr _].
    split; [exact K1|exact (K2 Hr)].
Qed.

(** Structures. *)
Definition struct_meta (x : xstruct) : meta := match x with XAttr m _ _ => m | XBlock m _ _ _ => m end.
Definition Sx (x : xstruct) : Prop := forall f, line_ok (Dm (f (struct_meta x))) -> St (struct_upd f x).
Lemma structure_E keys s x keys' s' : here s -> structure u R keys s = POk (x, keys') s' -> to s s' /\ snd s <> [] /\ Sx x /\
  match x with XAttr _ k _ => keys' = i_name k :: keys /\ ~ In (i_name k) keys | XBlock _ _ _ _ => keys' = keys end.
Proof.
  intros Hs H. unfold structure in H. bnd H st0 s0 H0. apply pos_inv in H0. destruct H0 as [-> ->]. bnd H y s1 H1. apply peek_inv in H1. destruct H1 as (-> & sx & H1).
  apply one_inv in H1. destruct H1 as [H1 _]. assert (N0 : snd s <> []) by ne. clear H1 sx. bnd H y2 s1 H1. destruct y2 as [x0 xs]. apply span_inv in H1. destruct H1 as (x1 & H1 & F). injection F as <- ->.
  apply cut_inv, ident_inv in H1. destruct H1 as (A1 & I1 & _). assert (h1 : here s1) by hr. bnd H sf0 s2 H2. apply raw_string_inv in H2. destruct H2 as (? & H2 & ->).
  destruct (sp_Gr inp _ _ _ h1 H2) as (T2 & G2). assert (h2 : here s2) by hr. bnd H c s3 H3. apply peek_any_inv in H3. destruct H3 as (-> & r & _).
  assert (Gi := Gr_gap inp _ _ [] G2). set (i := Did (set_span (fst s, fst s1) (set_suffix (raw_of_span (fst s1, fst s2)) no_meta)) x0) in *.
  assert (K : forall ls bd m, (lall label_regular (map (label_map rd) ls) -> lall (label_ok u) (map (label_map rd) ls)) ->
    (body_regular u sf (Db bd) -> block_ok_body (Db bd)) -> Sx (XBlock m i ls bd)).
  { intros ls bd m Hl Hb f Hf (R1 & R2 & R3). split; [exact Hf|]. split; [exact I1|]. split; [reflexivity|]. split; [exact Gi|]. split; [exact (Hl R1)|]. split; [exact R2|]. exact (Hb R3). }
  destruct (c =? 61); [|destruct (c =? 123); [|destruct ((c =? 34) || is_id_start u c); [|discriminate]]].
  - destruct (existsb (seqb x0) keys) eqn:Ek; [discriminate|]. bnd H v s4 H4. bnd H e s5 H5. apply pos_inv in H5. destruct H5 as [-> ->]. apply ret_inv in H. destruct H as [F ->]. injection F as -> ->.
    destruct (attribute_expr_E _ _ _ h2 H4) as (T4 & X1 & X2 & X3). split; [tos|]. split; [exact N0|]. split.
    + intros f Hf Hr. split; [exact Hf|]. refine (attr_of true i v _ _ _ _ _ _ Hr); auto.
    + split; [reflexivity|]. intros Hi. assert (Ek' : existsb (seqb x0) keys = true) by (apply existsb_exists; exists x0; split; [exact Hi|apply seqb_refl]). congruence.
  - bnd H bd s4 H4. bnd H e s5 H5. apply pos_inv in H5. destruct H5 as [-> ->]. apply ret_inv in H. destruct H as [F ->]. injection F as -> ->.
    destruct (block_body_E _ _ _ h2 H4) as [T4 X4]. split; [tos|]. split; [exact N0|]. split; [|reflexivity]. apply K; auto.
  - bnd H ls s4 H4. bnd H bd s5 H5. bnd H e s6 H6. apply pos_inv in H6. destruct H6 as [-> ->]. apply ret_inv in H. destruct H as [F ->]. injection F as -> ->.
    destruct (block_labels_E _ _ _ h2 H4) as [T4 X4]. assert (h4 : here s4) by hr. destruct (block_body_E _ _ _ h4 H5) as [T5 X5]. split; [tos|]. split; [exact N0|]. split; [|reflexivity]. apply K; auto.
Qed.
Lemma body_item_E keys s x keys' e s' : here s -> body_item u R keys s = POk (x, keys', e) s' -> to s s' /\ St x /\
  match x with XAttr _ k _ => keys' = i_name k :: keys /\ ~ In (i_name k) keys | XBlock _ _ _ _ => keys' = keys end /\ (e = true -> snd s' = []).
Proof.
  intros Hs H. unfold body_item in H. bnd H a s1 H1. apply pspan_inv in H1. destruct H1 as (u1 & H1 & ->). destruct (ws_Gr inp _ _ _ Hs H1) as (T1 & G1 & _). assert (h1 : here s1) by hr.
  bnd H y s2 H2. destruct y as [x0 k0]. destruct (structure_E _ _ _ _ _ h1 H2) as (T2 & N1 & X2 & X3). assert (h2 : here s2) by hr. bnd H z s3 H3. apply pspan_inv in H3. destruct H3 as (u3 & H3 & ->).
  destruct (sp_comment_Lr inp _ _ _ h2 H3) as (T3 & L3). bnd H e0 s4 H4. apply ret_inv in H. destruct H as [F ->]. injection F as -> -> ->. apply cut_inv, alt_inv in H4.
  assert (K : to s3 s4 /\ (e0 = true -> snd s4 = [])).
  { destruct H4 as [H4|[_ H4]]; bnd H4 y s5 H5.
    - apply line_ending_to in H5. rtn H4. split; [tos|discriminate].
    - apply eof_inv in H5. destruct H5 as [-> H5]. rtn H4. split; [apply to_refl|auto]. }
  destruct K as [T4 K]. split; [tos|]. split; [|split; [|exact K]].
  - apply X2. split; [rewrite pre_set', pre_set; now apply Gr_gap, G1|rewrite suf_set; now apply Lr_gap].
  - destruct x0; exact X3.
Qed.
Lemma body_loop_E n : forall keys omit s l o s', here s -> body_loop u R n keys omit s = POk (l, o) s' -> to s s' /\ Forall St l /\ NoDup (attr_names l) /\
  (forall k, In k (attr_names l) -> ~ In k keys) /\ (o = true -> omit = true \/ l <> [] /\ snd s' = []).
Proof.
  induction n as [|n IH]; intros keys omit s l o s' Hs H; [discriminate|]. cbn [body_loop] in H. destruct (body_item u R keys s) as [[[x k] e] s1|[|] s1| |] eqn:Ei; try discriminate.
  - destruct (Nat.eqb _ _); [discriminate|]. destruct (body_loop u R n k (omit || e) s1) as [[l0 o0] s2| | |] eqn:El; try discriminate. injection H as <- <- <-.
    destruct (body_item_E _ _ _ _ _ _ Hs Ei) as (T1 & X1 & X2 & X3). assert (h1 : here s1) by hr. destruct (IH _ _ _ _ _ _ h1 El) as (T2 & Y1 & Y2 & Y3 & Y4).
    split; [tos|]. split; [now constructor|]. assert (W : o0 = true -> omit = true \/ x :: l0 <> [] /\ snd s2 = []).
    { intros Ho. destruct (Y4 Ho) as [Z|Z]; [|right; split; [discriminate|tauto]]. apply orb_true_iff in Z. destruct Z as [Z|Z]; [now left|right]. split; [discriminate|].
      specialize (X3 Z). destruct T2 as [t [T2 _]]. rewrite X3 in T2. symmetry in T2. now apply app_eq_nil in T2. }
    destruct x as [m kk v|m i ls bd].
    + destruct X2 as [-> X2]. change (attr_names (XAttr m kk v :: l0)) with (i_name kk :: attr_names l0). split; [|split; [|exact W]].
      * constructor; [|exact Y2]. intros Hi. apply (Y3 _ Hi). now left.
      * intros j [<-|Hj]; [exact X2|]. intros F. apply (Y3 _ Hj). now right.
    + subst k. change (attr_names (XBlock m i ls bd :: l0)) with (attr_names l0). auto.
  - injection H as <- <- <-. split; [apply to_refl|]. split; [constructor|]. split; [constructor|]. split; [intros k []|]. auto.
Qed.
Lemma pbody_E s x s' : here s -> pbody u R s = POk x s' -> to s s' /\ body_good x s'.
Proof.
  intros Hs H. unfold pbody in H. bnd H y s1 H1. destruct y as [[l omit] sp0]. apply span_inv in H1. destruct H1 as (y & H1 & F). injection F as <- ->.
  destruct (body_loop_E _ _ _ _ _ _ _ Hs H1) as (T1 & X1 & X2 & _ & X4). assert (h1 : here s1) by hr. bnd H tr s2 H2. rtn H. apply raw_string_inv in H2. destruct H2 as (? & H2 & ->).
  destruct (ws_Gr inp _ _ _ h1 H2) as (T2 & G2 & L2). split; [tos|].
  assert (W : omit = true -> l <> [] /\ snd s1 = []) by (intros Ho; destruct (X4 Ho) as [Z|Z]; [discriminate|exact Z]).
  constructor; [reflexivity|reflexivity|exact (Lr_gap inp _ _ [] L2)| |split; assumption|].
  - intros Ne. split; [exact (Gr_gap inp _ _ [] (G2 Ne))|]. destruct omit; [|reflexivity]. destruct (W eq_refl) as [_ Z]. exfalso. apply Ne. destruct T2 as [t [T2 _]].
    rewrite Z in T2. symmetry in T2. now apply app_eq_nil in T2.
  - intros Ho. destruct (W Ho) as [Z1 Z2]. split; [exact Z1|]. rewrite suf_set. apply ws_inv in H2. destruct H2 as (w & z & A & _). rewrite (span_text inp _ _ _ h1 A), enc_str.
    destruct A as [A _]. rewrite Z2 in A. symmetry in A. now apply app_eq_nil in A.
Qed.
End Grammar.

Lemma body_at u b pf sf (HU : ascii_exact u) n : forall s x s', here s -> r_body (recs_at u b pf pratt_group items_insert n) s = POk x s' ->
  to s s' /\ body_good u b pf sf x s'.
Proof.
  induction n as [|n IH]; [discriminate|]. intros s x s' Hs H. cbn [recs_at unroll r_body] in H.
  exact (pbody_E u b pf sf _ (good_at inp u b pf sf HU n) IH s x s' Hs H).
Qed.
End Input.

Lemma parse_inv {A} (p : parser A) s a : parse p s = Parsed a -> exists s', p (0, s) = POk a s' /\ snd s' = [].
Proof.
  unfold parse. destruct ((x <- p ;; eof ;; ret x) (0, s)) as [x s1| | |] eqn:E; try discriminate. intros [= ->]. apply bind_inv in E. destruct E as (y & s2 & E1 & E).
  apply bind_inv in E. destruct E as (z & s3 & E2 & E). apply ret_inv in E. destruct E as [-> ->]. apply eof_inv in E2. destruct E2 as [-> E2]. eauto.
Qed.
Lemma here_start s : here s (0, s).
Proof. exists []. auto. Qed.

(** ** The results: parsed trees, unless excluded by [regular], meet the conditions of C46. *)
Lemma parsed_body_ok u b pf sf s x : ascii_exact u -> parse_body u b pf s = Parsed x -> body_regular u sf x -> body_ok u b pf sf x.
Proof.
  intros HU H. unfold parse_body, parse_body_with, finish in H. destruct (parse_body_raw u b pf pratt_group items_insert s) as [y| | |] eqn:E; try discriminate.
  destruct (body_despan s y) as [x0|] eqn:Ed; [|discriminate]. injection H as ->. unfold body_despan in Ed. destruct (forallb _ _); [|discriminate]. injection Ed as <-.
  apply parse_inv in E. destruct E as (s' & E & Hs'). destruct y as [m l one omit]. destruct (body_at s u b pf sf HU _ _ _ _ (here_start s) E) as (_ & [B1 B2 B3 _ [B4 B5] B6]).
  subst one. intros Hr. split; [reflexivity|].
  change (body_map (raw_despan s) (fun r => r) (XBody m l false omit)) with (XBody (meta_map (raw_despan s) m) (map (struct_map (raw_despan s) leave) l) false omit) in *.
  split; [|split; [exact B3|split; [exact (lall_St s u b pf sf l B4 Hr)|split; [rewrite <- (names_map s l) in B5; exact B5|]]]].
  - unfold pre, enc_prefix, meta_map. cbn [m_decor]. destruct m as [[p0 s0] sp0]. cbn in *. now subst p0.
  - intros Ho. destruct (B6 Ho) as [Z1 Z2]. split; [now destruct l|exact Z2].
Qed.
Lemma parsed_expr_ok u b pf sf s e : ascii_exact u -> parse_expr u b pf s = Parsed e -> regular u sf false e -> shut e -> sub (ok u b pf sf false) false e /\ snug (x_meta e).
Proof.
  intros HU H. unfold parse_expr, parse_expr_with, finish in H. destruct (parse_expr_raw u b pf pratt_group items_insert s) as [y| | |] eqn:E; try discriminate.
  destruct (x_despan s y) as [x0|] eqn:Ed; [|discriminate]. injection H as ->. unfold x_despan in Ed. destruct (forallb _ _); [|discriminate]. injection Ed as <-.
  apply parse_inv in E. destruct E as (s' & E & Hs'). destruct (g_expr s u b pf sf _ (good_at s u b pf sf HU _) _ _ _ _ (here_start s) E) as (_ & _ & Hb & HE).
  intros Hr Sh. split; [exact (HE false Hr)|]. split; [exact (bare_pre s y Hb)|exact (bare_suf s y Hb Sh)].
Qed.
Lemma parsed_tpl_ok u b pf sf s es sp : ascii_exact u -> parse_template u b pf s = Parsed (XTempl es sp) -> lall (elem_regular u sf false) es -> lall (elem_ok u b pf sf false) es.
Proof.
  intros HU H. unfold parse_template, parse_tpl_with, finish in H. destruct (parse_tpl_raw u b pf pratt_group items_insert s) as [y| | |] eqn:E; try discriminate.
  destruct (tpl_despan s y) as [x0|] eqn:Ed; [|discriminate]. injection H as ->. unfold tpl_despan in Ed. destruct (forallb _ _); [|discriminate].
  apply parse_inv in E. destruct E as (s' & E & Hs'). apply pmap_inv in E. destruct E as (es0 & E & ->). injection Ed as <- <-.
  destruct (g_tpl s u b pf sf _ (good_at s u b pf sf HU _) _ _ _ (here_start s) E) as (_ & X). exact (lall_El s u b pf sf false es0 X).
Qed.

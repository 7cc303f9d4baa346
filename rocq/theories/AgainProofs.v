(** * Parsed trees meet the conditions under which trees are read back: expressions *)
From Coq Require Import NArith ZArith Arith Bool String List Lia.
From Verif Require Import Res Str Dec NumberModel PrimModel PrimProofs DedentModel EAst EncModel EqSpec EqProofs PrattSpec PrattProofs.
From Verif Require Import ParseBase ParseModel ParseSpec ParseLemmas Grammar ParseTop Eat EatLeaf ParseSound ParseSoundRec BackSpec BackLex AgainSpec AgainBase.
Import ListNotations.
Open Scope N_scope.

Definition to (s s' : st) : Prop := exists t, adv s t s'.
Lemma to_refl s : to s s.
Proof. exists []. apply adv_refl. Qed.
Lemma to_trans s s1 s2 : to s s1 -> to s1 s2 -> to s s2.
Proof. intros [t H] [t' H']. exists (t ++ t'). eapply adv_trans; eassumption. Qed.
Lemma adv_to s t s' : adv s t s' -> to s s'.
Proof. exists t. assumption. Qed.
Lemma to_ne s s' : to s s' -> snd s' <> [] -> snd s <> [].
Proof. intros [t [E _]] H F. rewrite E in F. apply app_eq_nil in F. tauto. Qed.
Lemma adv_ne s c t s' : adv s (c :: t) s' -> snd s <> [].
Proof. intros [E _]. rewrite E. discriminate. Qed.
Global Hint Resolve to_refl to_trans adv_to : core.

Section Input.
Context (inp : str).
Notation rd := (raw_despan inp).
Notation D := (x_map rd leave).
Definition here (s : st) : Prop := exists p, inp = p ++ snd s /\ blen p = fst s.
Lemma here_to s s' : here s -> to s s' -> here s'.
Proof.
  intros (p & E & F) (t & E' & F'). exists (p ++ t). rewrite E, E', <- app_assoc. split; [reflexivity|]. rewrite blen_app. lia.
Qed.
Lemma span_text s t s' : here s -> adv s t s' -> rd (raw_of_span (fst s, fst s')) = raw_of_str t.
Proof.
  intros (p & E & F) [E' F']. rewrite F'. change (raw_of_span (fst s, fst s + blen t)) with (rw (fst s) t). apply despan_rw.
  exists p, (snd s'). rewrite E, E'. auto.
Qed.

(** Raw strings which are gaps. *)
Definition Gr (nl : bool) (r : raw) : Prop := exists t, rd r = raw_of_str t /\ gap nl t = true.
Definition Lr (nl : bool) (r : raw) : Prop := exists t, rd r = raw_of_str t /\ last_gap nl t = true.
Lemma enc_str t d : raw_enc (raw_of_str t) d = t.
Proof. now destruct t. Qed.
Lemma Gr_gap nl r d : Gr nl r -> gap nl (raw_enc (rd r) d) = true.
Proof. intros (t & -> & H). now rewrite enc_str. Qed.
Lemma Lr_gap nl r d : Lr nl r -> last_gap nl (raw_enc (rd r) d) = true.
Proof. intros (t & -> & H). now rewrite enc_str. Qed.
Lemma Gr_raw r : Gr true r -> raw_gap (rd r).
Proof. intros (t & -> & H). unfold raw_gap, clean. rewrite enc_str. auto. Qed.
Lemma Gr_empty nl : Gr nl REmpty.
Proof. exists []. auto. Qed.
Lemma gap_last nl t : gap nl t = true -> last_gap nl t = true.
Proof. intros H. apply (proj1 (gaps_spec nl false _ t (le_n _))) in H. destruct H as (w & z & -> & G & O & F). rewrite F by reflexivity. apply Gap_last; auto. now left. Qed.
Lemma ws_Gr s a s' : here s -> ws s = POk a s' -> to s s' /\ (snd s' <> [] -> Gr true (raw_of_span (fst s, fst s'))) /\ Lr true (raw_of_span (fst s, fst s')).
Proof.
  intros Hs H. apply ws_inv in H. destruct H as (w & z & H & G & O & Z). split; [eauto|]. split.
  - intros Ne. rewrite (Z Ne), app_nil_r in H. exists w. split; [now apply span_text|now apply Gap_gap].
  - exists (w ++ z). split; [now apply span_text|now apply Gap_last].
Qed.
Lemma sp_Gr s a s' : here s -> sp s = POk a s' -> to s s' /\ Gr false (raw_of_span (fst s, fst s')).
Proof.
  intros Hs H. apply sp_inv in H. destruct H as (w & H & G). split; [eauto|]. exists w. split; [now apply span_text|now apply Gap_gap].
Qed.
Lemma ws_or_sp_Gr nl s a s' : here s -> ws_or_sp nl s = POk a s' -> to s s' /\ (snd s' <> [] -> Gr nl (raw_of_span (fst s, fst s'))).
Proof.
  destruct nl; intros Hs H; [apply ws_Gr in H|apply sp_Gr in H]; auto; tauto.
Qed.
Lemma sp_comment_Lr s a s' : here s -> sp_comment s = POk a s' -> to s s' /\ Lr false (raw_of_span (fst s, fst s')).
Proof.
  intros Hs H. apply sp_comment_inv in H. destruct H as (w & z & H & G & O). split; [eauto|]. exists (w ++ z). split; [now apply span_text|now apply Gap_last].
Qed.
Lemma raw_string_inv p s r s' : raw_string p s = POk r s' -> exists a, p s = POk a s' /\ r = raw_of_span (fst s, fst s').
Proof. unfold raw_string. intros H. apply pmap_inv in H. destruct H as (x & H & ->). apply pspan_inv in H. destruct H as (a & H & ->). eauto. Qed.

(** ** Decor *)
Notation Dm := (meta_map rd).
Lemma pre_set df r m : pre df (Dm (set_prefix r m)) = raw_enc (rd r) (fst df).
Proof. reflexivity. Qed.
Lemma suf_set df r m : suf df (Dm (set_suffix r m)) = raw_enc (rd r) (snd df).
Proof. reflexivity. Qed.
Lemma pre_set' df r m : pre df (Dm (set_suffix r m)) = pre df (Dm m).
Proof. reflexivity. Qed.
Lemma suf_set' df r m : suf df (Dm (set_prefix r m)) = suf df (Dm m).
Proof. reflexivity. Qed.
Lemma D_meta e : x_meta (D e) = Dm (x_meta e).
Proof. now destruct e. Qed.
Lemma D_upd f e : D (x_upd f e) = x_upd (fun _ => Dm (f (x_meta e))) (D e).
Proof. now destruct e. Qed.
Lemma meta_upd f e : x_meta (x_upd f e) = f (x_meta e).
Proof. now destruct e. Qed.
Lemma cond_D e : is_cond (D e) = is_cond e. Proof. now destruct e. Qed.
Lemma term_D e : is_term (D e) = is_term e. Proof. now destruct e. Qed.
Lemma sticky_D e : sticky (D e) = sticky e.
Proof. induction e; try reflexivity; cbn; auto. Qed.
Lemma sticky_upd f e : sticky (x_upd f e) = sticky e. Proof. now destruct e. Qed.
Lemma is_term_upd f e : is_term (x_upd f e) = is_term e. Proof. now destruct e. Qed.
Lemma is_cond_upd f e : is_cond (x_upd f e) = is_cond e. Proof. now destruct e. Qed.

Section Deco.
  Context {A : Type} (upd : (meta -> meta) -> A -> A).
  (** The node [x'] is [x] with decor. *)
  Lemma spanned_inv (p : parser A) s x' s' : spanned upd p s = POk x' s' -> exists x, p s = POk x s' /\ x' = upd (set_span (fst s, fst s')) x.
  Proof.
    unfold spanned. intros H. apply bind_inv in H. destruct H as ([x sp] & s1 & H & E). apply span_inv in H. destruct H as (y & H & F).
    injection F as -> ->. apply ret_inv in E. destruct E as [-> ->]. eauto.
  Qed.
  Lemma decorated_inv p q r s x' s' : decorated upd p q r s = POk x' s' -> exists a s1 x s2 z, p s = POk a s1 /\ q s1 = POk x s2 /\ r s2 = POk z s' /\
    x' = upd (fun m => set_suffix (raw_of_span (fst s2, fst s')) (set_prefix (raw_of_span (fst s, fst s1)) m)) (upd (set_span (fst s1, fst s2)) x).
  Proof.
    unfold decorated. intros H. apply bind_inv in H. destruct H as (sa & s1 & H1 & H). apply bind_inv in H. destruct H as (x & s2 & H2 & H).
    apply bind_inv in H. destruct H as (sz & s3 & H3 & H). apply ret_inv in H. destruct H as [-> ->]. apply pspan_inv in H1, H3.
    destruct H1 as (a & H1 & ->), H3 as (z & H3 & ->). apply spanned_inv in H2. destruct H2 as (y & H2 & ->). eauto 10.
  Qed.
  Lemma prefixed_inv p q s x' s' : prefix_decorated upd p q s = POk x' s' -> exists a s1 x, p s = POk a s1 /\ q s1 = POk x s' /\
    x' = upd (set_prefix (raw_of_span (fst s, fst s1))) (upd (set_span (fst s1, fst s')) x).
  Proof.
    unfold prefix_decorated. intros H. apply bind_inv in H. destruct H as (sa & s1 & H1 & H). apply bind_inv in H. destruct H as (x & s2 & H2 & H).
    apply ret_inv in H. destruct H as [-> ->]. apply pspan_inv in H1. destruct H1 as (a & H1 & ->). apply spanned_inv in H2. destruct H2 as (y & H2 & ->). eauto 10.
  Qed.
  Lemma suffixed_inv q r s x' s' : suffix_decorated upd q r s = POk x' s' -> exists x s1 z, q s = POk x s1 /\ r s1 = POk z s' /\
    x' = upd (set_suffix (raw_of_span (fst s1, fst s'))) (upd (set_span (fst s, fst s1)) x).
  Proof.
    unfold suffix_decorated. intros H. apply bind_inv in H. destruct H as (x & s2 & H2 & H). apply bind_inv in H. destruct H as (sz & s3 & H3 & H).
    apply ret_inv in H. destruct H as [-> ->]. apply pspan_inv in H3. destruct H3 as (z & H3 & ->). apply spanned_inv in H2. destruct H2 as (y & H2 & ->). eauto 10.
  Qed.
End Deco.

Section Grammar.
Context (u : unicode) (b : build) (pf : str -> f64) (sf : f64 -> str).
Context (HU : ascii_exact u).
Notation ok := (ok u b pf sf).
Notation regular := (regular u sf).
Lemma ok_upd q h fl f e : ok q h fl (x_upd f e) = ok q h fl e. Proof. now destruct e. Qed.
Lemma regular_upd q f e : regular q (x_upd f e) = regular q e. Proof. now destruct e. Qed.
Lemma ok_term q h fl fl' e : is_term e = true -> ok q h fl e -> ok q h fl' e.
Proof. destruct e; try discriminate; intros _ H; exact H. Qed.

(** What is shown of parsed expressions. *)
Definition E (nl : bool) (e : xexpr) : Prop := forall q, regular q (D e) -> sub (ok q) nl (D e).
Lemma E_upd nl f e : E nl e -> E nl (x_upd f e).
Proof. intros H q. rewrite D_upd, regular_upd. unfold sub. rewrite ok_upd, sticky_upd. apply H. Qed.
Lemma regular_D_upd q f e : regular q (D (x_upd f e)) = regular q (D e).
Proof. rewrite D_upd. apply regular_upd. Qed.
(** No decor but the exception of [shut]. *)
Definition bare (e : xexpr) : Prop :=
  d_prefix (m_decor (x_meta e)) = None /\
  (d_suffix (m_decor (x_meta e)) = None \/ match e with XFor _ _ _ _ _ _ _ true None => True | _ => False end).
Lemma bare_pre e : bare e -> pre NO (x_meta (D e)) = [].
Proof. intros [H _]. rewrite D_meta. unfold pre, enc_prefix. destruct (x_meta e) as [[p s] sp]. cbn in *. now subst p. Qed.
Lemma bare_suf e : bare e -> shut (D e) -> suf NO (x_meta (D e)) = [].
Proof.
  intros [_ [H|H]] K.
  - rewrite D_meta. unfold suf, enc_suffix. destruct (x_meta e) as [[p s] sp]. cbn in *. now subst s.
  - destruct e; try contradiction. destruct grouping; try contradiction. destruct cond; try contradiction. exact K.
Qed.
Lemma bare_span s e : bare e -> bare (x_upd (set_span s) e).
Proof. destruct e; intros H; exact H. Qed.

Definition El (e : xelem) : Prop := forall q, elem_regular u sf q (elem_map rd leave e) -> elem_ok u b pf sf q (elem_map rd leave e).
Record good (R : recs) : Prop := Good {
  g_expr nl s e s' : here s -> r_expr R nl s = POk e s' -> to s s' /\ snd s <> [] /\ bare e /\ E nl e;
  g_term nl s e s' : here s -> r_term R nl s = POk e s' -> to s s' /\ snd s <> [] /\ bare e /\ E nl e /\ is_term e = true;
  g_tpl s es s' : here s -> r_tpl R s = POk es s' -> to s s' /\ Forall El es
}.
Context (R : recs) (G : good R).

Ltac tos := lazymatch goal with
  | |- to ?s ?s => apply to_refl
  | |- to ?s ?s' => match goal with
      | H : to s s' |- _ => exact H
      | H : adv s _ s' |- _ => exact (adv_to _ _ _ H)
      | H : to s ?s1 |- _ => apply (to_trans s s1 s' H); clear H; tos
      | H : adv s ?t ?s1 |- _ => apply (to_trans s s1 s' (adv_to _ _ _ H)); clear H; tos
      end
  end.
Ltac hr := match goal with H : here ?s0 |- here ?s => apply (here_to s0 s H); tos end.
Ltac ne := match goal with
  | |- snd ?s <> [] => first [assumption | match goal with
      | H : adv s (_ :: _) _ |- _ => exact (adv_ne _ _ _ _ H)
      | H : adv s (lit _) _ |- _ => exact (adv_ne _ _ _ _ H)
      | H : snd ?s' <> [] |- _ => apply (to_ne s s'); [tos|exact H]
      | H : adv ?s1 (_ :: _) _ |- _ => apply (to_ne s s1); [tos|exact (adv_ne _ _ _ _ H)]
      | H : adv ?s1 (lit _) _ |- _ => apply (to_ne s s1); [tos|exact (adv_ne _ _ _ _ H)]
      end]
  end.

Lemma decorated_E nl p s x s' : here s -> snd s' <> [] ->
  (forall s1 e s2, here s1 -> p s1 = POk e s2 -> to s1 s2 /\ snd s1 <> [] /\ E nl e) ->
  decorated_expr p s = POk x s' -> to s s' /\ E nl x /\ tidy true (x_meta (D x)) /\ snd s <> [].
Proof.
  intros Hs Ne Hp H. apply decorated_inv in H. destruct H as (a & s1 & e & s2 & z & H1 & H2 & H3 & ->).
  apply ws_Gr in H1; auto. destruct H1 as (T1 & G1 & _). assert (h1 : here s1) by hr.
  destruct (Hp _ _ _ h1 H2) as (T2 & N2 & HE). assert (h2 : here s2) by hr.
  apply ws_Gr in H3; auto. destruct H3 as (T3 & G3 & _).
  split; [tos|]. split; [now do 2 apply E_upd|]. split; [|ne].
  rewrite D_meta, meta_upd. split; [rewrite pre_set', pre_set|rewrite suf_set]; now apply Gr_gap; auto.
Qed.
Lemma decorated_to p s x s' : here s ->
  (forall s1 (e : xexpr) s2, here s1 -> p s1 = POk e s2 -> to s1 s2 /\ snd s1 <> []) ->
  decorated_expr p s = POk x s' -> to s s' /\ ws s' = POk tt s'.
Proof.
  intros Hs Hp H. apply decorated_inv in H. destruct H as (a & s1 & e & s2 & z & H1 & H2 & H3 & ->).
  apply ws_Gr in H1; auto. destruct H1 as (T1 & G1 & _). assert (h1 : here s1) by hr.
  destruct (Hp _ _ _ h1 H2) as (T2 & N2). assert (h2 : here s2) by hr. split; [|now apply ws_again in H3].
  apply ws_Gr in H3; auto. destruct H3 as (T3 & G3 & _). tos.
Qed.
Definition EE (nl : bool) (x : xexpr) : Prop := E nl x /\ tidy true (x_meta (D x)).
Lemma EE_ok nl q x : EE nl x -> regular q (D x) -> elem_in (ok q) nl (D x).
Proof. intros [H T] Hr. split; auto. Qed.
Lemma expr_EE nl s x s' : here s -> snd s' <> [] -> decorated_expr (r_expr R nl) s = POk x s' -> to s s' /\ EE nl x /\ snd s <> [].
Proof.
  intros Hs Ne H. apply decorated_E with (nl := nl) in H; auto; [unfold EE; tauto|]. intros s1 e s2 h He.
  apply (g_expr R G) in He; auto. tauto.
Qed.
Lemma expr_to nl s x s' : here s -> decorated_expr (r_expr R nl) s = POk x s' -> to s s' /\ ws s' = POk tt s'.
Proof. intros Hs H. apply decorated_to in H; auto. intros s1 e s2 h He. apply (g_expr R G) in He; auto. tauto. Qed.

(** Lists of expressions. *)
Section Elems.
  Context (nl : bool) (p : parser xexpr).
  Context (Hp : forall s1 e s2, here s1 -> p s1 = POk e s2 -> to s1 s2 /\ snd s1 <> [] /\ E nl e).
  Notation item := (decorated_expr p).
  Lemma item_to s x s' : here s -> item s = POk x s' -> to s s' /\ ws s' = POk tt s'.
  Proof. intros Hs. apply decorated_to; auto. intros s1 e s2 h He. apply Hp in He; auto. tauto. Qed.
  Lemma rest_to s l s' : runs (char 44 ;; item) s l s' -> here s -> ws s = POk tt s -> to s s' /\ ws s' = POk tt s'.
  Proof.
    induction 1 as [|s x s1 l s2 H _ _ IH]; intros Hs W; [auto|]. apply bind_inv in H. destruct H as (c & s0 & H0 & H).
    apply char_inv in H0. destruct H0 as [H0 _]. assert (h0 : here s0) by hr. apply item_to in H; auto. destruct H as [T W1].
    destruct IH as [T2 W2]; auto; [hr|]. split; [tos|auto].
  Qed.
  Lemma rest_EE s l s' : runs (char 44 ;; item) s l s' -> here s -> ws s = POk tt s -> snd s' <> [] -> Forall (EE nl) l.
  Proof.
    induction 1 as [|s x s1 l s2 H _ Rn IH]; intros Hs W Ne; [auto|]. apply bind_inv in H. destruct H as (c & s0 & H0 & H).
    apply char_inv in H0. destruct H0 as [H0 _]. assert (h0 : here s0) by hr. destruct (item_to _ _ _ h0 H) as [T W1].
    assert (h1 : here s1) by hr. destruct (rest_to _ _ _ Rn h1 W1) as [T2 W2].
    assert (N1 : snd s1 <> []) by ne. destruct (decorated_E nl p s0 x s1 h0 N1 Hp H) as (_ & HE & Ht & _).
    constructor; [split; auto|auto].
  Qed.
  Lemma sep_inv s l s' : separated1 item (char 44) s = POk l s' -> here s -> to s s' /\ ws s' = POk tt s' /\ l <> [] /\ (snd s' <> [] -> Forall (EE nl) l).
  Proof.
    unfold separated1. intros H Hs. apply bind_inv in H. destruct H as (x & s1 & H1 & H). apply bind_inv in H. destruct H as (l' & s2 & H2 & H).
    apply ret_inv in H. destruct H as [-> ->]. apply many0_inv in H2. destruct (item_to _ _ _ Hs H1) as [T1 W1]. assert (h1 : here s1) by hr.
    destruct (rest_to _ _ _ H2 h1 W1) as [T2 W2]. split; [tos|]. split; [auto|]. split; [discriminate|]. intros Ne.
    assert (N1 : snd s1 <> []) by ne. destruct (decorated_E nl p s x s1 Hs N1 Hp H1) as (_ & HE & Ht & _). constructor; [split; auto|].
    eapply rest_EE; eauto.
  Qed.
End Elems.
Lemma lall_EE nl q l : Forall (EE nl) l -> lall (regular q) (map D l) -> lall (elem_in (ok q) nl) (map D l).
Proof. induction 1 as [|x l H _ IH]; cbn [map lall]; auto. intros [H1 H2]. split; [now apply EE_ok|auto]. Qed.
Lemma ws_nothing s a s' : ws s = POk tt s -> ws s = POk a s' -> s' = s.
Proof. intros H F. rewrite H in F. now injection F. Qed.
Lemma span_here (s : st) : raw_of_span (fst s, fst s) = REmpty.
Proof. unfold raw_of_span. cbn [fst snd]. now rewrite N.ltb_irrefl. Qed.

(** Arrays. *)
Definition arr_end (l : list xexpr) (c : bool) (t : raw) : Prop := Gr true t /\ (l <> [] -> c = false -> t = REmpty).
Lemma array_items_E nl s e s' : here s -> array_items R nl s = POk e s' -> to s s' /\ (snd s' <> [] ->
  exists l c t, e = XArr no_meta l c t /\ Forall (EE nl) l /\ arr_end l c t).
Proof.
  intros Hs H. unfold array_items in H. apply bind_inv in H. destruct H as (l & s1 & H1 & H). apply bind_inv in H. destruct H as (c & s2 & H2 & H).
  apply bind_inv in H. destruct H as (t & s3 & H3 & H). apply ret_inv in H. destruct H as [-> ->].
  assert (Hp : forall s1 e s2, here s1 -> (pnot (char 93) ;; r_expr R nl) s1 = POk e s2 -> to s1 s2 /\ snd s1 <> [] /\ E nl e).
  { intros a e d h K. apply bind_inv in K. destruct K as (? & a1 & K1 & K). apply pnot_inv in K1. destruct K1 as [-> _]. apply (g_expr R G) in K; auto. tauto. }
  unfold separated0 in H1. apply pmap_inv in H1. destruct H1 as (o & H1 & ->).
  assert (K : to s s1 /\ (snd s1 <> [] -> Forall (EE nl) match o with Some l => l | None => [] end) /\
              (match o with Some l => l | None => [] end <> [] -> ws s1 = POk tt s1)).
  { apply opt_inv in H1. destruct H1 as [(l & -> & H1)|(-> & -> & _)]; [|split; [apply to_refl|split; [constructor|congruence]]].
    apply (sep_inv nl _ Hp) in H1; auto. tauto. }
  destruct K as (T1 & K1 & K2). assert (T2 : to s1 s2).
  { apply opt_inv in H2. destruct H2 as [(a & _ & H2)|(_ & -> & _)]; [|apply to_refl]. apply char_inv in H2. destruct H2. tos. }
  apply raw_string_inv in H3. destruct H3 as (a & H3 & ->). assert (h2 : here s2) by hr. destruct (ws_Gr _ _ _ h2 H3) as (T3 & G3 & _).
  split; [tos|]. intros Ne. do 3 eexists. split; [reflexivity|]. split; [apply K1; ne|]. split; [auto|].
  intros Hl Hc. apply opt_inv in H2. destruct H2 as [(k & -> & H2)|(-> & -> & _)]; [discriminate|].
  rewrite (ws_nothing _ _ _ (K2 Hl) H3). apply span_here.
Qed.
Lemma lits_nil {X Y} (f : X -> Y) l : map f l <> [] -> l <> [].
Proof. destruct l; cbn; congruence. Qed.
Lemma closing_ok (l : list xexpr) c t : arr_end l c t -> (map D l = [] -> c = false) -> closing (map D l) c (rd t).
Proof.
  intros [H1 H2] H3. split; [now apply Gr_raw|]. destruct l as [|x l]; cbn [map] in *; [auto|]. intros Hc. rewrite H2; auto. discriminate.
Qed.

(** Identifiers. *)
Lemma sat_adv bad {A} (p : parser A) s a s' (P : str -> A -> Prop) : (forall n o, sat bad n o p P) -> p s = POk a s' -> exists t, adv s t s' /\ P t a.
Proof.
  intros H E1. destruct s as [o r]. pose proof (H (List.length r) o r (le_n _)) as K. rewrite E1 in K. destruct K as (t & A1 & A2 & A3).
  exists t. split; [split; auto|auto].
Qed.
Lemma ident_inv s x s' : str_ident u s = POk x s' -> adv s x s' /\ is_ident u x = true /\ ends (is_id_continue u) (snd s').
Proof.
  unfold str_ident. intros H. apply taken_inv in H. destruct H as (y & H & T). apply bind_inv in H. destruct H as (c & s1 & H1 & H).
  apply one_inv in H1. destruct H1 as [H1 C]. apply while_inv in H. destruct H as (H & F & N1).
  assert (A1 := adv_trans _ _ _ _ _ H1 H). rewrite (T _ A1). split; [exact A1|]. split; [|exact N1]. cbn. now rewrite C, F.
Qed.
Lemma is_ident_ne x : is_ident u x = true -> exists c r, x = c :: r /\ is_id_start u c = true.
Proof. destruct x as [|c r]; [discriminate|]. cbn. intros H. apply andb_true_iff in H. destruct H. eauto. Qed.
Notation Di := (did_map rd).
Lemma decorated_ident_ok s i s' : here s -> decorated_ident u s = POk i s' -> to s s' /\ snd s <> [] /\ is_ident u (i_name i) = true /\
  (snd s' <> [] -> tidy true (i_meta (Di i))) /\
  (starts_with (lit "in") (snd s') = true -> forall df, suf df (i_meta (Di i)) <> []) /\
  (forall c r, snd s = c :: r -> existsb (N.eqb c) [32; 9; 35; 47; 10] = true -> snd s' <> [] -> forall df, for_sep (pre df (i_meta (Di i)))).
Proof.
  intros Hs H. apply decorated_inv in H. destruct H as (a & s1 & x & s2 & z & H1 & H2 & H3 & ->). apply cut_inv in H2.
  unfold ident in H2. apply pmap_inv in H2. destruct H2 as (n & H2 & ->). apply ident_inv in H2. destruct H2 as (A2 & I2 & N2).
  destruct (ws_Gr _ _ _ Hs H1) as (T1 & G1 & _). assert (h2 : here s2) by hr. destruct (ws_Gr _ _ _ h2 H3) as (T3 & G3 & _).
  destruct (is_ident_ne n I2) as (c0 & r0 & -> & C0).
  split; [tos|]. split; [ne|]. split; [exact I2|]. split; [|split].
  - intros Ne. unfold did_map, did_upd. cbn [i_meta]. split; [rewrite pre_set', pre_set|rewrite suf_set]; apply Gr_gap; auto. apply G1. ne.
  - intros St df. unfold did_map, did_upd. cbn [i_meta]. rewrite suf_set. apply ws_inv in H3. destruct H3 as (w & y & A3 & _).
    rewrite (span_text _ _ _ h2 A3), enc_str. intros F. rewrite F in A3. destruct A3 as [A3 _]. cbn [app] in A3. rewrite A3 in N2.
    apply starts_with_spec in St. destruct St as [r St]. rewrite St in N2. change (is_id_continue u 105 = false) in N2.
    unfold is_id_continue in N2. destruct (HU 105 ltac:(reflexivity)) as [_ X]. rewrite X in N2. discriminate.
  - intros c r Ec Hc Ne df. unfold did_map, did_upd. cbn [i_meta]. rewrite pre_set', pre_set. apply ws_inv in H1. destruct H1 as (w & y & A1 & _).
    rewrite (span_text _ _ _ Hs A1), enc_str. destruct A1 as [A1 _]. rewrite Ec in A1. destruct (w ++ y) as [|k r'] eqn:Ew.
    + exfalso. cbn [app] in A1. destruct A2 as [A2 _]. rewrite A2 in A1. cbn [app] in A1. injection A1 as <- _.
      assert (forall k, k < 128 -> is_ascii_letter k || (k =? 95) = false -> (c =? k) = false) as L by (intros k; now apply (id_start_not u HU)).
      cbn [existsb] in Hc. rewrite !L in Hc by (lia || reflexivity). discriminate.
    + cbn [app] in A1. injection A1 as <- _. exact Hc.
Qed.
Ltac bnd H a s1 H1 := apply bind_inv in H; destruct H as (a & s1 & H1 & H).
Ltac rtn H := apply ret_inv in H; destruct H as [-> ->].
Lemma peek_any_inv s c s' : peek any s = POk c s' -> s' = s /\ exists r, snd s = c :: r.
Proof. intros H. apply peek_inv in H. destruct H as (-> & s1 & H). apply any_inv in H. destruct H as [H _]. split; [reflexivity|]. eauto. Qed.
Lemma no_bad : forall t s : str, True -> True. Proof. auto. Qed.

(** Numbers. *)
Lemma number_inv s n s' : number b pf s = POk n s' -> exists t, adv s t s' /\ number_text b pf t n.
Proof.
  intros H. apply sat_adv with (bad := fun _ => True) (P := fun t x => gnum b pf t x) in H; [|intros; now apply number_ok]. destruct H as (t & A & Hn). exists t. split; [exact A|].
  destruct Hn as [d H1 H2 H3|d r n H1 H2 H3 H4]; [left; auto|right]. split; [|exact H4]. exists d, r. auto.
Qed.
Lemma number_expr_E nl s e s' : here s -> number_expr b pf s = POk e s' -> to s s' /\ bare e /\ E nl e.
Proof.
  intros Hs H. unfold number_expr in H. bnd H x s1 H1. destruct x as [n t]. rtn H.
  assert (K : exists x, number b pf s = POk x s1) by (unfold with_taken in H1; destruct (number b pf s) as [x s2| | |]; try discriminate; injection H1 as _ _ ->; eauto).
  destruct K as [x K]. destruct (number_inv _ _ _ K) as (t0 & A & Ht). apply wtaken_inv with (t := t0) in H1; [|auto]. destruct H1 as (x' & K' & F).
  rewrite K in K'. injection K' as <-. injection F as -> ->. split; [tos|]. split; [now split; [|left]|].
  intros q _. cbn. left. now rewrite enc_str.
Qed.
Lemma neg_number_E nl s e s' : here s -> neg_number b pf s = POk e s' -> to s s' /\ bare e /\ E nl e.
Proof.
  intros Hs H. unfold neg_number in H. bnd H x s1 H1. destruct x as [n t]. bnd H m s2 H2. rtn H. apply lift_inv in H2. destruct H2 as [H2 ->].
  set (p := (char 45 ;; sp ;; number b pf)) in *.
  assert (K : exists x, p s = POk x s1) by (unfold with_taken in H1; destruct (p s) as [x s2| | |]; try discriminate; injection H1 as _ _ ->; eauto).
  destruct K as [x K]. assert (K' := K). unfold p in K. bnd K c s3 K1. bnd K y s4 K2. apply char_inv in K1. destruct K1 as [K1 _].
  apply sp_inv in K2. destruct K2 as (w & K2 & Gw). destruct (number_inv _ _ _ K) as (t0 & A & Ht).
  assert (A' := adv_trans _ _ _ _ _ K1 (adv_trans _ _ _ _ _ K2 A)).
  apply wtaken_inv with (t := [45] ++ w ++ t0) in H1; [|auto]. destruct H1 as (x' & K3 & F). rewrite K' in K3. injection K3 as <-. injection F as -> ->.
  split; [tos|]. split; [now split; [|left]|]. intros q _. right. cbn. exists w, t0, x. repeat split; auto. now apply Gap_gap.
Qed.

(** Operators which are prefixes. *)
Lemma unary_E nl s e s' : here s -> unary_op R nl s = POk e s' -> to s s' /\ bare e /\ E nl e.
Proof.
  intros Hs H. unfold unary_op in H. bnd H x s1 H1. destruct x as [o sp0]. bnd H e0 s2 H2. rtn H. apply span_inv in H1. destruct H1 as (o' & H1 & F).
  injection F as <- ->. assert (T1 : to s s1).
  { unfold unary_operator in H1. bnd H1 c s3 H3. apply any_inv in H3.
    destruct (c =? 45); [rtn H1; tos|]. destruct (c =? 33); [rtn H1; tos|discriminate]. }
  apply prefixed_inv in H2. destruct H2 as (a & s3 & x & H2 & H3 & ->). assert (h1 : here s1) by hr. destruct (sp_Gr _ _ _ h1 H2) as (T3 & G3).
  assert (h3 : here s3) by hr. destruct (g_term R G _ _ _ _ h3 H3) as (T4 & _ & Hb & HE & Ht).
  split; [tos|]. split; [now split; [|left]|]. intros q. cbn [x_map AgainSpec.regular]. intros (K1 & K2 & K3). cbn [sub BackSpec.ok].
  rewrite term_D, !is_term_upd. split; [exact Ht|]. split; [exact (E_upd _ _ _ (E_upd _ _ _ HE) q K1)|]. rewrite D_meta, meta_upd. split; [rewrite pre_set; now apply Gr_gap|].
  split; [|exact K3]. rewrite suf_set'. rewrite <- D_meta. apply bare_suf; [now apply bare_span|]. revert K2. rewrite D_upd. generalize (x_upd (set_span (fst s3, fst s2)) x).
  intros y. unfold shut. clear. destruct y; auto.
Qed.

(** Traversals. *)
Lemma dec_uint_inv s n s' : dec_uint s = POk n s' -> to s s' /\ (Z.of_N n <= u64_max)%Z.
Proof.
  intros H. apply sat_adv with (bad := bad b pf) (P := fun d x => x = digits_val d /\ forallb is_digit d = true /\
    (exists c r, d = c :: r /\ (c <> 48 \/ r = [])) /\ (Z.of_N (digits_val d) <= u64_max)%Z) in H; [|intros; apply dec_uint_ok].
  destruct H as (t & A & -> & _ & _ & H). split; [tos|exact H].
Qed.
Notation Do := (op_map rd leave).
Definition Op (o : xop) : Prop := forall q, op_regular u sf q (Do o) -> op_ok u b pf sf q (Do o).
Lemma span_enc_NO (s : bspan) : raw_enc (raw_of_span s) [] = [].
Proof. unfold raw_of_span. destruct (_ <? _); reflexivity. Qed.
Lemma traversal_operator_E s o s' : here s -> traversal_operator u R s = POk o s' -> to s s' /\ snd s <> [] /\ Op o.
Proof.
  intros Hs H. unfold traversal_operator in H. bnd H c s1 H1. apply any_inv in H1. assert (h1 : here s1) by hr.
  assert (N0 : snd s <> []) by ne. destruct (c =? 46).
  - apply prefixed_inv in H. destruct H as (a & s2 & x & H2 & H & ->). destruct (ws_Gr _ _ _ h1 H2) as (T2 & G2 & _). bnd H d s3 H3.
    apply peek_any_inv in H3. destruct H3 as (-> & r & H3). assert (N2 : snd s2 <> []) by (rewrite H3; discriminate). apply Gr_gap with (d := []) in G2; auto.
    destruct (d =? 42).
    + bnd H k s4 H4. rtn H. apply char_inv in H4. destruct H4 as [H4 _]. split; [tos|]. split; [exact N0|]. intros q _. cbn. split; [exact G2|reflexivity].
    + destruct (is_digit d).
      * apply pmap_inv in H. destruct H as (n & H & ->). apply dec_uint_inv in H. destruct H as [T3 Hn]. split; [tos|]. split; [exact N0|].
        intros q _. cbn. split; [exact Hn|]. split; [exact G2|reflexivity].
      * destruct (is_id_start u d); [|discriminate]. apply pmap_inv in H. destruct H as (i & H & ->). unfold ident in H.
        apply pmap_inv in H. destruct H as (n & H & ->). apply ident_inv in H. destruct H as (A3 & I3 & _). split; [tos|]. split; [exact N0|].
        intros q _. cbn. split; [exact I3|]. split; [exact G2|reflexivity].
  - destruct (c =? 91); [|discriminate]. bnd H x s2 H2. bnd H k s3 H3. rtn H. apply cut_inv, char_inv in H3. destruct H3 as [H3 _].
    apply decorated_inv in H2. destruct H2 as (a & s4 & y & s5 & z & H4 & H5 & H6 & ->). destruct (ws_Gr _ _ _ h1 H4) as (T4 & G4 & _).
    assert (h4 : here s4) by hr. bnd H5 d s6 H7. apply peek_any_inv in H7. destruct H7 as (-> & r & H7). assert (N4 : snd s4 <> []) by (rewrite H7; discriminate).
    destruct (d =? 42).
    + bnd H5 k' s7 H8. rtn H5. apply char_inv in H8. destruct H8 as [H8 _]. assert (h7 : here s7) by hr. destruct (ws_Gr _ _ _ h7 H6) as (T6 & G6 & _).
      split; [tos|]. split; [exact N0|]. intros q _. cbn. split; apply (Gr_gap true); [now apply G4|apply G6; ne].
    + apply pmap_inv in H5. destruct H5 as (e & H5 & ->). destruct (g_expr R G _ _ _ _ h4 H5) as (T5 & _ & _ & HE). assert (h5 : here s5) by hr.
      destruct (ws_Gr _ _ _ h5 H6) as (T6 & G6 & _). split; [tos|]. split; [exact N0|]. intros q Hr. cbn [op_upd op_map] in *. split.
      * rewrite D_meta, meta_upd. split; [rewrite pre_set', pre_set|rewrite suf_set]; apply Gr_gap; [now apply G4|apply G6; ne].
      * exact (E_upd _ _ _ (E_upd _ _ _ HE) q Hr).
Qed.
Definition Tr (m : bool) (o : xtrop) : Prop := forall q, trop_regular u sf q (trop_map rd leave o) -> trop_ok u b pf sf q m (trop_map rd leave o).
Lemma trop_E nl s o s' : here s -> prefix_decorated trop_upd (ws_or_sp nl) (pnot (tag (lit "..")) ;; pmap (XTrop no_meta) (traversal_operator u R)) s = POk o s' ->
  to s s' /\ Tr nl o.
Proof.
  intros Hs H. apply prefixed_inv in H. destruct H as (a & s1 & x & H1 & H & ->). destruct (ws_or_sp_Gr _ _ _ _ Hs H1) as (T1 & G1). assert (h1 : here s1) by hr.
  bnd H y s2 H2. apply pnot_inv in H2. destruct H2 as (-> & _). apply pmap_inv in H. destruct H as (o & H & ->).
  destruct (traversal_operator_E _ _ _ h1 H) as (T2 & N1 & HO). split; [tos|]. intros q Hr. cbn [trop_upd trop_map] in *.
  split; [|split; [reflexivity|exact (HO q Hr)]].
  unfold pre, enc_prefix. cbn. unfold leave. now rewrite span_enc_NO.
Qed.
Lemma lall_tr q m l : Forall (Tr m) l -> lall (trop_regular u sf q) (map (trop_map rd leave) l) -> lall (trop_ok u b pf sf q m) (map (trop_map rd leave) l).
Proof. induction 1 as [|x l H _ IH]; cbn [map lall]; auto. intros [H1 H2]. split; auto. Qed.
Lemma traversal_E nl s l s' : here s -> traversal u R nl s = POk l s' -> to s s' /\ l <> [] /\ Forall (Tr nl) l.
Proof.
  intros Hs H. unfold traversal in H. apply many1_inv in H. destruct H as (Hl & x & s1 & l' & -> & H1 & H). destruct (trop_E _ _ _ _ Hs H1) as [T1 X1].
  assert (h1 : here s1) by hr. assert (K : to s1 s' /\ Forall (Tr nl) l').
  { clear - H h1 HU G. induction H as [|s a s1 l s2 H _ _ IH]; [split; [apply to_refl|constructor]|]. destruct (trop_E _ _ _ _ h1 H) as [T1 X1].
    assert (h2 : here s1) by hr. destruct (IH h2). split; [tos|constructor; auto]. }
  destruct K as [T2 X2]. split; [tos|]. split; [exact Hl|]. constructor; auto.
Qed.

(** Templates. *)
Notation De := (elem_map rd leave).
Lemma opt_to {A} (p : parser A) s o s' : (forall a, p s = POk a s' -> to s s') -> opt p s = POk o s' -> to s s'.
Proof. intros Hp H. apply opt_inv in H. destruct H as [(a & _ & H)|(_ & -> & _)]; [eauto|apply to_refl]. Qed.
Lemma control_inv {A} (intro : str) (p : parser A) s a s' : control intro p s = POk a s' -> exists s0 s1 x s2, adv s intro s0 /\ to s0 s1 /\ p s1 = POk x s2 /\
  to s2 s' /\ snd s2 <> [] /\ fst a = x.
Proof.
  intros H. unfold control in H. bnd H y s0 H0. bnd H o s1 H1. bnd H x s2 H2. bnd H o' s3 H3. bnd H z s4 H4. rtn H. cbn [fst].
  apply tag_inv in H0. apply cut_inv, char_inv in H4. destruct H4 as [H4 _].
  apply opt_to in H1; [|intros k K; apply char_inv in K; destruct K; tos]. apply opt_to in H3; [|intros k K; apply char_inv in K; destruct K; tos].
  exists s0, s1, x, s2. split; [exact H0|]. split; [exact H1|]. split; [exact H2|]. split; [tos|]. split; [ne|reflexivity].
Qed.
Lemma end_control_inv (p : parser unit) t s a s' : here s -> (forall s1 s2 x, p s1 = POk x s2 -> adv s1 t s2) -> t <> [] -> end_control p s = POk a s' ->
  to s s' /\ snd s <> [] /\ Gr true (fst (fst a)) /\ Gr true (snd (fst a)).
Proof.
  intros Hs Hp Ht H. unfold end_control in H. destruct a as [xz st0]. apply control_inv in H. destruct H as (s0 & s1 & x & s2 & A0 & T1 & H & T2 & N2 & F).
  cbn [fst] in *. subst xz. bnd H a s3 H3. bnd H y s4 H4. bnd H z s5 H5. rtn H. apply raw_string_inv in H3. destruct H3 as (? & H3 & ->).
  assert (h1 : here s1) by hr. destruct (ws_Gr _ _ _ h1 H3) as (T3 & G3 & _). apply Hp in H4. assert (N3 : snd s3 <> []). { destruct t; [congruence|]. ne. }
  apply raw_string_inv in H5. destruct H5 as (? & H5 & ->). assert (h4 : here s4) by hr. destruct (ws_Gr _ _ _ h4 H5) as (T5 & G5 & _).
  split; [tos|]. split; [ne|]. cbn [fst snd]. split; auto.
Qed.
Lemma lall_El q es : Forall El es -> lall (elem_regular u sf q) (map De es) -> lall (elem_ok u b pf sf q) (map De es).
Proof. induction 1 as [|e l He _ IH]; cbn [map lall]; auto. intros [H1 H2]. split; auto. Qed.
Lemma tpl_El q es sp : Forall El es -> tpl_regular u sf q (tpl_map rd leave (XTempl es sp)) -> tpl_ok u b pf sf q (tpl_map rd leave (XTempl es sp)).
Proof.
  intros H. cbn [tpl_map]. intros (K1 & K2 & K3). split; [|split; [exact K2|exact K3]]. exact (lall_El q es H K1).
Qed.
Lemma spanned_tpl_inv s t s' : here s -> spanned_tpl R s = POk t s' -> to s s' /\ exists es sp, t = XTempl es sp /\ Forall El es.
Proof.
  intros Hs H. unfold spanned_tpl in H. bnd H x s1 H1. destruct x as [es sp]. rtn H. apply span_inv in H1. destruct H1 as (es' & H1 & F). injection F as <- ->.
  destruct (g_tpl R G _ _ _ Hs H1) as (T1 & X). split; [tos|eauto].
Qed.
Lemma interpolation_E s e s' : here s -> interpolation R s = POk e s' -> to s s' /\ El e.
Proof.
  intros Hs H. unfold interpolation in H. bnd H x s1 H1. destruct x as [e0 st0]. rtn H. apply control_inv in H1.
  destruct H1 as (s0 & s2 & x & s3 & A0 & T1 & H & T2 & N2 & F). cbn [fst] in F. subst x. assert (h2 : here s2) by hr.
  destruct (expr_EE _ _ _ _ h2 N2 H) as (T3 & X & _). split; [tos|]. intros q. cbn [elem_map]. exact (EE_ok true q e0 X).
Qed.
Lemma if_E s e s' : here s -> if_directive R s = POk e s' -> to s s' /\ El e.
Proof.
  intros Hs H. unfold if_directive in H. bnd H x s1 H1. destruct x as [[pr c] st0]. apply control_inv in H1.
  destruct H1 as (s0 & s2 & x & s3 & A0 & T1 & H1 & T2 & N2 & F). cbn [fst] in F. subst x. bnd H1 a s4 H3. bnd H1 y s5 H4. bnd H1 c' s6 H5.
  apply ret_inv in H1. destruct H1 as [F ->]. injection F as -> ->. assert (h2 : here s2) by hr. apply raw_string_inv in H3. destruct H3 as (? & H3 & ->). destruct (ws_Gr _ _ _ h2 H3) as (T3 & G3 & _).
  apply tag_inv in H4. assert (N4 : snd s4 <> []) by ne. assert (h5 : here s5) by hr. destruct (expr_EE _ _ _ _ h5 N2 H5) as (T5 & X5 & _).
  bnd H t s7 H7. assert (h1 : here s1) by hr. destruct (spanned_tpl_inv _ _ _ h1 H7) as (T7 & es & sp0 & -> & X7). assert (h7 : here s7) by hr.
  bnd H el s8 H8. bnd H a s9 H9. destruct a as [[ep et] st1]. rtn H.
  assert (K8 : to s7 s8 /\ forall q, oallp (else_regular u sf q) (option_map (else_map rd leave) el) -> oallp (else_ok u b pf sf q) (option_map (else_map rd leave) el)).
  { apply opt_inv in H8. destruct H8 as [(k & -> & K)|(-> & -> & _)]; [|split; [apply to_refl|auto]]. bnd K a s10 K1. destruct a as [[a z] st2]. bnd K t s11 K2. rtn K.
    apply end_control_inv with (t := lit "else") in K1; [|exact h7|intros ? ? ?; apply tag_inv|discriminate]. destruct K1 as (T10 & _ & Ga & Gz). cbn [fst snd] in *.
    assert (h10 : here s10) by hr. destruct (spanned_tpl_inv _ _ _ h10 K2) as (T11 & es' & sp1 & -> & X11). split; [tos|].
    intros q Hr. cbn [option_map oallp else_map] in *. split; [now apply Gr_raw|]. split; [now apply Gr_raw|]. exact (tpl_El q es' sp1 X11 Hr). }
  destruct K8 as [T8 X8]. assert (h8 : here s8) by hr.
  apply end_control_inv with (t := lit "endif") in H9; [|exact h8|intros ? ? ? K; apply cut_inv in K; now apply tag_inv in K|discriminate]. destruct H9 as (T9 & _ & Ga & Gz). cbn [fst snd] in *.
  split; [tos|]. intros q (R1 & R2 & R3). cbn [elem_map]. split; [now apply Gr_raw, G3|]. split; [exact (EE_ok false q c' X5 R1)|].
  split; [exact (tpl_El q es sp0 X7 R2)|]. split; [exact (X8 q R3)|]. split; now apply Gr_raw.
Qed.
Lemma loop_vars df s x s1 y s2 z s3 : here s -> decorated_ident u s = POk x s1 -> opt (char 44 ;; decorated_ident u) s1 = POk y s2 -> tag (lit "in") s2 = POk z s3 ->
  to s s2 /\ let '(kv, vv) := match y with Some y => (Some x, y) | None => (None, x) end in
  loop_ok u (option_map Di kv) (Di vv) df /\
  ((exists c r, snd s = c :: r /\ existsb (N.eqb c) [32; 9; 35; 47; 10] = true) -> for_sep (pre LEADING (i_meta match option_map Di kv with Some k => k | None => Di vv end))).
Proof.
  intros Hs H1 H2 H3. apply tag_inv in H3. assert (St : starts_with (lit "in") (snd s2) = true). { destruct H3 as [H3 _]. rewrite H3. reflexivity. }
  assert (N2 : snd s2 <> []) by ne. destruct (decorated_ident_ok _ _ _ Hs H1) as (T1 & N1 & I1 & K1 & K2 & K3). assert (h1 : here s1) by hr.
  apply opt_inv in H2. destruct H2 as [(v & -> & H2)|(-> & -> & _)].
  - bnd H2 c s4 H4. apply char_inv in H4. destruct H4 as [H4 _]. assert (N4 : snd s1 <> []) by ne. assert (h4 : here s4) by hr.
    destruct (decorated_ident_ok _ _ _ h4 H2) as (T2 & N3 & I2 & L1 & L2 & L3). split; [tos|]. cbn [option_map]. split.
    + split; [split; [exact I1|now apply K1]|]. split; [exact I2|]. split; [now apply L1|]. now apply L2.
    + intros (k & r & E1 & E2). now apply (K3 k r).
  - split; [tos|]. cbn [option_map]. split; [split; [exact I|]; split; [exact I1|]; split; [now apply K1|now apply K2]|]. intros (k & r & E1 & E2). now apply (K3 k r).
Qed.
Lemma for_E s e s' : here s -> for_directive u R s = POk e s' -> to s s' /\ El e.
Proof.
  intros Hs H. unfold for_directive in H. bnd H x s1 H1. destruct x as [[[[pr kx] ky] c] st0]. apply control_inv in H1.
  destruct H1 as (s0 & s2 & x & s3 & A0 & T1 & H1 & T2 & N2 & F). cbn [fst] in F. subst x. bnd H1 a s4 H3. bnd H1 y s5 H4. bnd H1 kx' s6 H5.
  bnd H1 ky' s7 H6. bnd H1 z s8 H7. bnd H1 c' s9 H8. apply ret_inv in H1. destruct H1 as [F ->]. injection F as -> -> -> ->. apply cut_inv in H7.
  assert (h2 : here s2) by hr. apply raw_string_inv in H3. destruct H3 as (? & H3 & ->). destruct (ws_Gr _ _ _ h2 H3) as (T3 & G3 & _).
  apply tag_inv in H4. assert (N4 : snd s4 <> []) by ne. assert (h5 : here s5) by hr.
  destruct (loop_vars BOTH _ _ _ _ _ _ _ h5 H5 H6 H7) as (T5 & L). apply tag_inv in H7. assert (h8 : here s8) by hr.
  destruct (expr_EE _ _ _ _ h8 N2 H8) as (T8 & X8 & _). bnd H t s10 H10. assert (h1 : here s1) by hr.
  destruct (spanned_tpl_inv _ _ _ h1 H10) as (T10 & es & sp0 & -> & X10). assert (h10 : here s10) by hr. bnd H a s11 H11. destruct a as [[ep et] st1].
  apply end_control_inv with (t := lit "endfor") in H11; [|exact h10|intros ? ? ? K; apply cut_inv in K; now apply tag_inv in K|discriminate].
  destruct H11 as (T11 & _ & Ga & Gz). cbn [fst snd] in *. rtn H. split; [tos|]. intros q.
  destruct ky' as [ky'|]; intros (R1 & R2); cbn [elem_map option_map] in *.
  all: split; [now apply Gr_raw, G3|]; split; [exact (proj1 L)|]; split; [exact (EE_ok false q c' X8 R1)|]; split; [exact (tpl_El q es sp0 X10 R2)|]; split; now apply Gr_raw.
Qed.
Lemma El_span sp e : El e -> El (elem_set_span sp e).
Proof. unfold El. destruct e; intros H q; exact (H q). Qed.
Lemma element_E lt s e s' : here s -> (forall s t s', lt s = POk t s' -> to s s') -> element u R lt s = POk e s' -> to s s' /\ El e.
Proof.
  intros Hs Hl H. unfold element in H. bnd H x s1 H1. destruct x as [e0 sp0]. rtn H. apply span_inv in H1. destruct H1 as (e1 & H1 & F). injection F as <- ->.
  assert (K : to s s1 /\ El e0); [|split; [tauto|now apply El_span]].
  apply alt_inv in H1. destruct H1 as [H1|[_ H1]].
  - apply pmap_inv in H1. destruct H1 as (t & H1 & ->). split; [eauto|]. intros q _. exact I.
  - apply alt_inv in H1. destruct H1 as [H1|[_ H1]]; [now apply interpolation_E|]. apply alt_inv in H1. destruct H1 as [H1|[_ H1]]; [now apply if_E|now apply for_E].
Qed.
Lemma elements_E lt s l s' : here s -> (forall s t s', lt s = POk t s' -> to s s') -> elements u R lt s = POk l s' -> to s s' /\ Forall El l.
Proof.
  intros Hs Hl H. apply many0_inv in H. induction H as [|s a s1 l s2 H _ _ IH]; [split; [apply to_refl|constructor]|].
  destruct (element_E _ _ _ _ Hs Hl H) as [T1 X1]. assert (h1 : here s1) by hr. destruct (IH h1) as [T2 X2]. split; [tos|constructor; auto].
Qed.
Lemma build_to p s t s' : (forall (bad : str -> Prop), (forall t s, bad s -> bad (t ++ s)) -> frag_ok bad p) -> build_string p s = POk t s' -> to s s'.
Proof.
  intros Hp H. apply sat_adv with (bad := fun _ => True) (P := fun t _ => t <> []) in H; [|intros; apply build_string_ok; auto]. destruct H as (x & A & _). tos.
Qed.
Lemma quoted_to s t s' : build_string quoted_string_fragment s = POk t s' -> to s s'.
Proof. apply build_to. intros. now apply quoted_frag_ok. Qed.
Lemma template_to p s t s' : (forall (bad : str -> Prop), (forall t s, bad s -> bad (t ++ s)) -> quiet bad p) -> build_string (template_string_fragment p) s = POk t s' -> to s s'.
Proof. intros Hp. apply build_to. intros. apply template_frag_ok; auto. Qed.
Lemma ptemplate_E s l s' : here s -> ptemplate u R s = POk l s' -> to s s' /\ Forall El l.
Proof.
  intros Hs. apply elements_E; auto. intros s1 t s2. apply template_to. intros bad Hb n o. unfold marker_start. apply sat_alt; now apply quiet_tag.
Qed.
Lemma string_template_E s l s' : here s -> string_template u R s = POk l s' -> to s s' /\ Forall El l.
Proof.
  intros Hs H. unfold string_template in H. bnd H c s1 H1. bnd H es s2 H2. bnd H c2 s3 H3. rtn H. apply char_inv in H1, H3. destruct H1 as [H1 _], H3 as [H3 _].
  assert (h1 : here s1) by hr. apply elements_E in H2; auto; [|apply quoted_to]. destruct H2 as [T2 X]. split; [tos|exact X].
Qed.
Lemma stringlike_E nl s e s' : here s -> stringlike u R s = POk e s' -> to s s' /\ bare e /\ E nl e.
Proof.
  intros Hs H. unfold stringlike in H. apply alt_inv in H. destruct H as [H|[_ H]]; apply pmap_inv in H; destruct H as (t & H & ->).
  - apply sat_adv with (bad := fun _ => True) (P := fun t _ => gquoted t) in H; [|intros; apply pstring_ok; auto]. destruct H as (x & A & _). split; [tos|]. split; [now split; [|left]|].
    intros q Hr. exact Hr.
  - destruct (string_template_E _ _ _ Hs H) as [T X]. split; [tos|]. split; [now split; [|left]|]. intros q (K1 & K2). split; [|exact K2].
    exact (lall_El true t X K1).
Qed.

(** [for] expressions. *)
Definition Intro (im : meta) (kv : option did) (vv : did) (coll : xexpr) : Prop :=
  gap true (pre NO (Dm im)) = true /\ suf NO (Dm im) = [] /\ loop_ok u (option_map Di kv) (Di vv) LEADING /\
  for_sep (pre LEADING (i_meta match option_map Di kv with Some k => k | None => Di vv end)) /\ EE false coll.
Definition intro_ahead (s : st) : Prop := exists c s', (ws ;; tag (lit "for") ;;
  one_of (fun c => (c =? 32) || (c =? 9) || (c =? 35) || (c =? 47) || (c =? 10))) s = POk c s'.
Lemma for_intro_E s im kv vv coll s' : here s -> intro_ahead s -> for_intro u R s = POk (im, (kv, vv, coll)) s' -> to s s' /\ Intro im kv vv coll.
Proof.
  intros Hs (c & sx & A) H. unfold for_intro in H. apply prefixed_inv in H. destruct H as (a & s1 & x & H1 & H & F). bnd A a' s1' A1. rewrite H1 in A1. injection A1 as <- <-.
  destruct (ws_Gr _ _ _ Hs H1) as (T1 & G1 & _). assert (h1 : here s1) by hr. bnd H y s2 H2. bnd A y' s2' A2. rewrite H2 in A2. injection A2 as <- <-.
  apply one_inv in A. destruct A as [A Hc]. apply tag_inv in H2. assert (h2 : here s2) by hr. bnd H kx s3 H3. bnd H ky s4 H4. bnd H z s5 H5. bnd H c0 s6 H6. bnd H w s7 H7.
  apply ret_inv in H. destruct H as [-> ->]. apply cut_inv in H5. apply cut_inv, char_inv in H7. destruct H7 as [H7 _].
  destruct (loop_vars LEADING _ _ _ _ _ _ _ h2 H3 H4 H5) as (T3 & L). apply tag_inv in H5. assert (h5 : here s5) by hr.
  assert (N6 : snd s6 <> []) by ne. destruct (expr_EE _ _ _ _ h5 N6 H6) as (T6 & X6 & _). split; [tos|].
  assert (Sep : exists c r, snd s2 = c :: r /\ existsb (N.eqb c) [32; 9; 35; 47; 10] = true).
  { destruct A as [A _]. exists c, (snd sx). split; [exact A|]. cbn [existsb]. rewrite orb_false_r, !orb_assoc. exact Hc. }
  assert (N1 : snd s1 <> []) by ne.
  destruct ky as [ky|]; cbn [intro_upd fst snd] in F; injection F as -> -> -> ->; destruct L as [L1 L2];
    (split; [rewrite pre_set; apply Gr_gap; auto|]; split; [reflexivity|]; split; [exact L1|]; split; [exact (L2 Sep)|exact X6]).
Qed.
Lemma items_or_for {A} (f i : parser A) s a s' : for_expr_or_items f i s = POk a s' -> (intro_ahead s /\ f s = POk a s') \/ i s = POk a s'.
Proof.
  unfold for_expr_or_items, intro_ahead. destruct ((ws ;; _) s) as [c s1|? ?| |] eqn:K; try discriminate; auto. left. split; [eauto|auto].
Qed.
Definition Cn (c : xcond) : Prop := forall q, cond_regular u sf q (cond_map rd leave c) -> cond_ok u b pf sf q (cond_map rd leave c).
Lemma for_cond_to s c s' : here s -> for_cond R true s = POk c s' -> to s s' /\ snd s <> [] /\ (snd s' <> [] -> Cn c /\ (forall t, Gr true t -> Cn (cond_upd (set_prefix t) c))).
Proof.
  intros Hs H. unfold for_cond in H. apply prefixed_inv in H. destruct H as (a & s1 & x & H1 & H & ->). destruct (ws_Gr _ _ _ Hs H1) as (T1 & G1 & _).
  bnd H y s2 H2. apply tag_inv in H2. assert (h2 : here s2) by hr. apply pmap_inv in H. destruct H as (e & H & ->).
  destruct (expr_to _ _ _ _ h2 H) as [T2 _]. split; [tos|]. assert (N1 : snd s1 <> []) by ne. split; [ne|]. intros Ne. destruct (expr_EE _ _ _ _ h2 Ne H) as (_ & X & _).
  split; [|intros t Gt]; intros q Hr; cbn [cond_upd cond_map] in *; (split; [rewrite pre_set; apply Gr_gap; auto|]; split; [reflexivity|exact (EE_ok true q e X Hr)]).
Qed.
Lemma for_list_E nl s e s' : here s -> intro_ahead s -> for_list_expr u R true s = POk e s' -> to s s' /\ (snd s' <> [] -> bare e /\ E nl e /\ is_term e = true /\ sticky e = true).
Proof.
  intros Hs A H. unfold for_list_expr in H. bnd H x s1 H1. destruct x as [im [[kv vv] coll]]. destruct (for_intro_E _ _ _ _ _ _ Hs A H1) as (T1 & I1). assert (h1 : here s1) by hr.
  bnd H e0 s2 H2. destruct (expr_to _ _ _ _ h1 H2) as [T2 _]. assert (h2 : here s2) by hr. bnd H co s3 H3. rtn H.
  assert (K : to s2 s3 /\ (snd s3 <> [] -> match co with Some c => Cn c | None => True end)).
  { apply opt_inv in H3. destruct H3 as [(c & -> & H3)|(-> & -> & _)]; [|split; [apply to_refl|auto]]. destruct (for_cond_to _ _ _ h2 H3) as (T3 & _ & X). split; [exact T3|]. intros Ne. now apply X. }
  destruct K as [T3 K]. split; [tos|]. intros Ne. specialize (K Ne). assert (N2 : snd s2 <> []) by ne. destruct (expr_EE _ _ _ _ h1 N2 H2) as (_ & X2 & _).
  split; [now split; [|left]|]. split; [|split; reflexivity]. intros q (R1 & _ & R3 & R4 & R5). destruct I1 as (I1 & I2 & I3 & I4 & I5).
  split; [exact I1|]. split; [exact I2|]. split; [exact I3|]. split; [exact I4|]. split; [exact (EE_ok false q coll I5 R1)|]. split; [split; [reflexivity|exact (EE_ok true q e0 X2 R3)]|].
  destruct co as [[m c]|]; [|exact I]. split; [exact (K q R4)|exact R5].
Qed.
Lemma for_object_E nl s e fl s' : here s -> intro_ahead s -> for_object_expr u R s = POk (e, fl) s' ->
  to s s' /\ fl = true /\ (snd s' <> [] -> bare e /\ E nl e /\ is_term e = true /\ sticky e = true).
Proof.
  intros Hs A H. unfold for_object_expr in H. bnd H x s1 H1. destruct x as [im [[kv vv] coll]]. destruct (for_intro_E _ _ _ _ _ _ Hs A H1) as (T1 & I1). assert (h1 : here s1) by hr.
  bnd H k s2 H2. destruct (expr_to _ _ _ _ h1 H2) as [T2 _]. bnd H y s3 H3. apply cut_inv, tag_inv in H3. assert (N2 : snd s2 <> []) by ne. destruct (expr_EE _ _ _ _ h1 N2 H2) as (_ & X2 & _).
  assert (h3 : here s3) by hr. bnd H e0 s4 H4. destruct (expr_to _ _ _ _ h3 H4) as [T4 _]. assert (h4 : here s4) by hr. bnd H g s5 H5. 
  assert (K5 : to s4 s5 /\ match g with Some t => snd s5 <> [] -> Gr true t | None => True end).
  { apply opt_inv in H5. destruct H5 as [(t & -> & H5)|(-> & -> & _)]; [|split; [apply to_refl|auto]]. bnd H5 y2 s6 H6. apply tag_inv in H6. apply raw_string_inv in H5.
    destruct H5 as (? & H5 & ->). assert (h6 : here s6) by hr. destruct (ws_Gr _ _ _ h6 H5) as (T6 & G6 & _). split; [tos|exact G6]. }
  destruct K5 as [T5 K5]. assert (h5 : here s5) by hr. bnd H co s6 H6. apply ret_inv in H. destruct H as [F ->].
  assert (K : to s5 s6 /\ match co with Some c => snd s5 <> [] /\ (snd s6 <> [] -> Cn c /\ (forall t, Gr true t -> Cn (cond_upd (set_prefix t) c))) | None => s6 = s5 end).
  { apply opt_inv in H6. destruct H6 as [(c & -> & H6)|(-> & -> & _)]; [|split; [apply to_refl|auto]]. destruct (for_cond_to _ _ _ h5 H6) as (T6 & X6 & X7). split; [exact T6|]. split; [exact X6|exact X7]. }
  destruct K as [T6 K]. injection F as -> ->. split; [tos|]. split; [reflexivity|]. intros Ne. assert (N4 : snd s4 <> []) by ne. destruct (expr_EE _ _ _ _ h3 N4 H4) as (_ & X4 & _).
  destruct I1 as (I1 & I2 & I3 & I4 & I5). destruct g as [t|].
  - assert (N5 : snd s5 <> []) by ne. specialize (K5 N5). destruct co as [[m c]|].
    + destruct K as [_ K]. destruct (K Ne) as [_ K']. split; [now split; [|left]|]. split; [|split; reflexivity]. intros q (R1 & R2 & R3 & R4 & R5).
      split; [exact I1|]. split; [exact I2|]. split; [exact I3|]. split; [exact I4|]. split; [exact (EE_ok false q coll I5 R1)|].
      split; [split; [exact (EE_ok false q k X2 R2)|exact (EE_ok false q e0 X4 R3)]|]. split; [exact (K' t K5 q R4)|discriminate].
    + split; [split; [reflexivity|right; exact I]|]. split; [|split; reflexivity]. intros q (R1 & R2 & R3 & R4 & R5).
      split; [exact I1|]. split; [exact I2|]. split; [exact I3|]. split; [exact I4|]. split; [exact (EE_ok false q coll I5 R1)|].
      split; [split; [exact (EE_ok false q k X2 R2)|exact (EE_ok false q e0 X4 R3)]|]. exact I.
  - split; [now split; [|left]|]. split; [|split; reflexivity]. intros q (R1 & R2 & R3 & R4 & R5).
      split; [exact I1|]. split; [exact I2|]. split; [exact I3|]. split; [exact I4|]. split; [exact (EE_ok false q coll I5 R1)|].
      split; [split; [exact (EE_ok false q k X2 R2)|exact (EE_ok false q e0 X4 R3)]|]. destruct co as [[m c]|]; [|exact I]. destruct K as [_ K]. destruct (K Ne) as [K' _].
      split; [exact (K' q R4)|exact R5].
Qed.
Lemma array_E nl s e s' : here s -> array u R s = POk e s' -> to s s' /\ bare e /\ E nl e /\ is_term e = true /\ sticky e = true.
Proof.
  intros Hs H. unfold array in H. bnd H c s1 H1. apply char_inv in H1. destruct H1 as [H1 _]. assert (h1 : here s1) by hr. bnd H e0 s2 H2. bnd H c' s3 H3. rtn H.
  apply cut_inv, char_inv in H3. destruct H3 as [H3 _]. assert (N2 : snd s2 <> []) by ne. apply items_or_for in H2. destruct H2 as [[A H2]|H2].
  - destruct (for_list_E nl _ _ _ h1 A H2) as [T2 K]. split; [tos|]. now apply K.
  - destruct (array_items_E _ _ _ _ h1 H2) as [T2 K]. split; [tos|]. destruct (K N2) as (l & c0 & t & -> & X & Cl). split; [now split; [|left]|]. split; [|split; reflexivity].
    intros q (R1 & R2). cbn [x_map] in *. split; [exact (lall_EE true q l X R1)|]. apply closing_ok; auto.
Qed.
Lemma parenthesis_E nl s e s' : here s -> parenthesis R s = POk e s' -> to s s' /\ bare e /\ E nl e /\ is_term e = true /\ sticky e = false.
Proof.
  intros Hs H. unfold parenthesis in H. bnd H c s1 H1. apply cut_inv, char_inv in H1. destruct H1 as [H1 _]. assert (h1 : here s1) by hr. bnd H e0 s2 H2. bnd H c' s3 H3. rtn H.
  apply cut_inv, char_inv in H3. destruct H3 as [H3 _]. assert (N2 : snd s2 <> []) by ne. destruct (expr_EE _ _ _ _ h1 N2 H2) as (T2 & X & _). split; [tos|].
  split; [now split; [|left]|]. split; [|split; reflexivity]. intros q Hr. exact (EE_ok true q e0 X Hr).
Qed.

(** Objects. *)
Notation Dk := (key_map rd leave).
Definition Ky (k : xkey) : Prop := forall q, key_regular u sf q (Dk k) -> key_ok u b pf sf q (Dk k).
Definition Vl (v : xexpr) (t : oterm) : Prop := E false v /\ gap false (pre NO (x_meta (D v))) = true /\
  match t with TNewline => last_gap false (suf NO (x_meta (D v))) = true | _ => gap false (suf NO (x_meta (D v))) = true end.
Definition It (i : xitem) : Prop := match i with XItem k _ v t => Ky k /\ Vl v t end.
Definition item_term (i : xitem) : oterm := match i with XItem _ _ _ t => t end.
Lemma object_key_E s k s' tr : here s -> object_key R s = POk k s' -> Gr true tr -> to s s' /\ snd s <> [] /\ Ky (key_upd (set_prefix tr) k).
Proof.
  intros Hs H Ht. unfold object_key in H. apply suffixed_inv in H. destruct H as (x & s1 & z & H1 & H2 & ->). apply pmap_inv in H1. destruct H1 as (e & H1 & ->).
  destruct (g_expr R G _ _ _ _ Hs H1) as (T1 & N1 & Hb & HE). assert (h1 : here s1) by hr. destruct (sp_Gr _ _ _ h1 H2) as (T2 & G2). split; [tos|]. split; [exact N1|].
  intros q Hr. assert (W : (exists m x, e = XVar m x) \/ (forall m x, e <> XVar m x)) by (destruct e; eauto; right; intros; discriminate).
  destruct W as [(m & x & ->)|W].
  - cbn [key_of_expr key_upd did_upd key_map did_map] in *. split; [exact (HE q Hr)|]. split; [exact (Gr_gap true tr [] Ht)|exact (Gr_gap false _ [] G2)].
  - assert (F : key_of_expr e = XKExpr e) by (destruct e; try reflexivity; exfalso; eapply W; reflexivity). rewrite F in *. cbn [key_upd key_map] in *. destruct Hr as [R1 R2].
    split; [|split; [exact R1|]]; [|split; [exact (E_upd _ _ _ (E_upd _ _ _ (E_upd _ _ _ HE)) q R2)|]].
    + rewrite !D_upd. destruct e; try reflexivity. exfalso; eapply W; reflexivity.
    + rewrite D_meta, !meta_upd. split; [rewrite pre_set|rewrite suf_set', suf_set]; now apply Gr_gap.
Qed.
Lemma item_end_E s1 e s2 w s3 v t l s4 : here s1 -> v = x_upd (fun m => set_suffix (raw_of_span (fst s1, fst s2)) m) e -> adv s1 w s2 -> Gap false w -> item_end v s2 = POk (s3, t, l) s4 ->
  to s2 s4 /\ (l = false -> t <> TNone) /\ (exists r, s3 = x_upd (set_suffix r) e /\ match t with TNewline => Lr false r | _ => Gr false r end).
Proof.
  intros Hs Ev A Gw H. assert (h2 : here s2) by hr. assert (Gs : Gr false (raw_of_span (fst s1, fst s2))). { exists w. split; [now apply span_text|now apply Gap_gap]. }
  assert (Ls : Lr false (raw_of_span (fst s1, fst s2))). { destruct Gs as (t0 & F1 & F2). exists t0. split; [exact F1|now apply gap_last]. }
  unfold item_end in H. bnd H c s5 H5. apply peek_any_inv in H5. destruct H5 as (-> & r0 & _).
  destruct (c =? 125); [apply ret_inv in H; destruct H as [F ->]; injection F as -> -> ->; split; [apply to_refl|split; [discriminate|eauto]]|].
  destruct (c =? 13); [bnd H y s6 H6; apply tag_inv in H6; apply ret_inv in H; destruct H as [F ->]; injection F as -> -> ->; split; [tos|split; [discriminate|eauto]]|].
  destruct (c =? 10); [bnd H y s6 H6; apply char_inv in H6; destruct H6 as [H6 _]; apply ret_inv in H; destruct H as [F ->]; injection F as -> -> ->; split; [tos|split; [discriminate|eauto]]|].
  destruct (c =? 44); [bnd H y s6 H6; apply any_inv in H6; apply ret_inv in H; destruct H as [F ->]; injection F as -> -> ->; split; [tos|split; [discriminate|eauto]]|].
  destruct ((c =? 35) || (c =? 47)); [|discriminate]. bnd H sp0 s6 H6. apply pspan_inv in H6. destruct H6 as (y & H6 & ->). apply line_comment_inv in H6.
  destruct H6 as (h & x & Hh & A6 & Hx & _). bnd H le0 s7 H7. apply ret_inv in H. destruct H as [F ->]. injection F as -> -> ->.
  assert (T7 : to s6 s7). { unfold line_ending in H7. apply taken_inv in H7. destruct H7 as (y7 & H7 & _). apply alt_inv in H7. destruct H7 as [H7|[_ H7]]; apply tag_inv in H7; tos. }
  split; [tos|]. split; [discriminate|]. unfold extend_suffix. rewrite Ev, meta_upd. cbn [set_suffix m_decor d_suffix].
  assert (Op1 : Open (h ++ x)). { right. exists h, x. split; [destruct Hh; auto|auto]. }
  destruct (N.ltb_spec (fst s1) (fst s2)) as [L|L].
  - replace (raw_of_span (fst s1, fst s2)) with (RSpanned (fst s1) (fst s2)) by (unfold raw_of_span; cbn [fst snd]; now rewrite (proj2 (N.ltb_lt _ _) L)). exists (raw_of_span (fst s1, fst s6)). split; [now destruct e|]. exists (w ++ h ++ x).
    split; [apply span_text; auto; eapply adv_trans; eassumption|]. now apply Gap_last.
  - replace (raw_of_span (fst s1, fst s2)) with REmpty by (unfold raw_of_span; cbn [fst snd]; now rewrite (proj2 (N.ltb_ge _ _) L)). exists (raw_of_span (fst s2, fst s6)). split; [now destruct e|]. exists ([] ++ h ++ x). split; [now apply span_text|].
    apply Gap_last; auto. constructor.
Qed.
Lemma object_item_E tr s i l s' : here s -> Gr true tr -> object_item R tr s = POk (i, l) s' -> to s s' /\ It i /\ (l = false -> item_term i <> TNone).
Proof.
  intros Hs Ht H. unfold object_item in H. bnd H k s1 H1. destruct (object_key_E _ _ _ _ Hs H1 Ht) as (T1 & _ & K1). assert (h1 : here s1) by hr.
  bnd H a s2 H2. assert (T2 : to s1 s2).
  { unfold object_value_assignment in H2. bnd H2 c s3 H3. apply any_inv in H3. destruct (c =? 61); [rtn H2; tos|]. destruct (c =? 58); [rtn H2; tos|discriminate]. }
  assert (h2 : here s2) by hr. bnd H v s3 H3. apply decorated_inv in H3. destruct H3 as (? & s4 & x & s5 & ? & H4 & H5 & H6 & Ev). bnd H y s6 H7. destruct y as [[v' t] l'].
  apply ret_inv in H. destruct H as [F ->]. injection F as -> ->. destruct (sp_Gr _ _ _ h2 H4) as (T4 & G4). assert (h4 : here s4) by hr.
  destruct (g_expr R G _ _ _ _ h4 H5) as (T5 & _ & _ & HE). assert (h5 : here s5) by hr. apply sp_inv in H6. destruct H6 as (w & A6 & Gw).
  apply item_end_E with (s1 := s5) (w := w) (e := x_upd (set_prefix (raw_of_span (fst s2, fst s4))) (x_upd (set_span (fst s4, fst s5)) x)) in H7; auto;
    [|rewrite Ev; now destruct x].
  destruct H7 as (T7 & Hl & r & -> & Hr). split; [tos|]. split; [|exact Hl]. split; [exact K1|]. split; [now do 3 apply E_upd|].
  rewrite D_meta, !meta_upd. split; [rewrite pre_set', pre_set; now apply Gr_gap|]. rewrite suf_set. destruct t; first [now apply Gr_gap|now apply Lr_gap].
Qed.
Lemma insert_It i l : It i -> Forall It l -> Forall It (items_insert i l).
Proof.
  intros Hi. induction 1 as [|j l Hj Hl IH]; cbn [items_insert]; [auto|]. destruct (key_eqb _ _); [|auto]. destruct i as [k a v t], j as [k' a' v' t']. cbn [item_key].
  constructor; [|auto]. destruct Hi, Hj. split; auto.
Qed.
Lemma insert_term i l : item_term i <> TNone -> Forall (fun j => item_term j <> TNone) l -> Forall (fun j => item_term j <> TNone) (items_insert i l).
Proof.
  intros Hi. induction 1 as [|j l Hj Hl IH]; cbn [items_insert]; [auto|]. destruct (key_eqb _ _); [|auto]. destruct i as [k a v t], j as [k' a' v' t']. now constructor.
Qed.
Lemma object_loop_E n : forall acc s e s', here s -> Forall It acc -> Forall (fun j => item_term j <> TNone) acc -> object_loop items_insert R n acc s = POk e s' ->
  to s s' /\ exists l t, e = XObj no_meta l t /\ Forall It l /\ Gr true t /\ (Forall (fun j => item_term j <> TNone) l \/ t = REmpty).
Proof.
  induction n as [|n IH]; intros acc s e s' Hs H1 H2 H; [discriminate|]. cbn [object_loop] in H. bnd H tr s1 H3. apply raw_string_inv in H3. destruct H3 as (? & H3 & ->).
  destruct (ws_Gr _ _ _ Hs H3) as (T1 & G1 & _). assert (h1 : here s1) by hr. bnd H c s2 H4. apply peek_any_inv in H4. destruct H4 as (-> & r & H4).
  assert (N1 : snd s1 <> []) by (rewrite H4; discriminate). specialize (G1 N1). destruct (c =? 125).
  - rtn H. split; [tos|]. eauto 10.
  - bnd H y s3 H5. destruct y as [i l]. destruct (object_item_E _ _ _ _ _ h1 G1 H5) as (T3 & Hi & Hl). assert (h3 : here s3) by hr. destruct l.
    + rtn H. split; [tos|]. do 2 eexists. split; [reflexivity|]. split; [now apply insert_It|]. split; [apply Gr_empty|now right].
    + apply IH in H; auto; [|now apply insert_It|now apply insert_term; auto]. destruct H as [T4 H]. split; [tos|exact H].
Qed.
Lemma lall_It q l : Forall It l -> lall (item_regular u sf q) (map (item_map rd leave) l) -> lall (item_ok u b pf sf q) (map (item_map rd leave) l).
Proof.
  induction 1 as [|[k a v t] l [Hk (H1 & H2 & H3)] _ IH]; cbn [map lall]; auto. intros [[K1 K2] K3]. split; [|auto]. split; [exact (Hk q K1)|]. split; [exact (H1 q K2)|]. split; assumption.
Qed.
Lemma seps_ok q l t : joined sf q (map (item_map rd leave) l) -> Forall (fun j => item_term j <> TNone) l \/ t = REmpty -> seps sf q (map (item_map rd leave) l) (rd t).
Proof.
  induction l as [|[k a v tm] l IH]; [auto|]. intros H1 H2. destruct l as [|[k' a' v' tm'] l].
  - cbn. intros ->. destruct H2 as [H2| ->]; [|reflexivity]. inversion H2; subst. now cbn in *.
  - cbn [map] in *. destruct H1 as (K1 & K2 & K3). split; [exact K1|]. split; [exact K2|]. apply IH; [exact K3|]. destruct H2 as [H2|H2]; [left; now inversion H2|now right].
Qed.
Lemma object_E nl s e fl s' : here s -> object u items_insert R nl s = POk (e, fl) s' -> to s s' /\ bare e /\ E nl e /\ is_term e = true /\ fl = nl || sticky e.
Proof.
  intros Hs H. unfold object in H. bnd H c s1 H1. apply char_inv in H1. destruct H1 as [H1 _]. assert (h1 : here s1) by hr. bnd H e0 s2 H2. bnd H c' s3 H3.
  apply ret_inv in H. destruct H as [<- ->].
  apply cut_inv, char_inv in H3. destruct H3 as [H3 _]. assert (N2 : snd s2 <> []) by ne. apply items_or_for in H2. destruct H2 as [[A H2]|H2].
  - destruct (for_object_E nl _ _ _ _ h1 A H2) as (T2 & -> & K). split; [tos|]. destruct (K N2) as (K1 & K2 & K3 & K4). rewrite K4, orb_true_r. auto.
  - apply pmap_inv in H2. destruct H2 as (e1 & H2 & F). injection F as -> ->. unfold object_items in H2. apply object_loop_E in H2; auto.
    destruct H2 as (T2 & l & t & -> & X1 & X2 & X3). split; [tos|]. split; [now split; [|left]|]. split; [|split; [reflexivity|cbn; now rewrite orb_false_r]].
    intros q (R1 & R2 & R3). cbn [x_map] in *. split; [exact (lall_It q l X1 R1)|]. split; [exact R2|]. split; [now apply Gr_raw|]. now apply seps_ok.
Qed.

(** Heredocs. *)
Lemma line_ending_to s t s' : line_ending s = POk t s' -> to s s'.
Proof. unfold line_ending. intros H. apply taken_inv in H. destruct H as (y & H & _). apply alt_inv in H. destruct H as [H|[_ H]]; apply tag_inv in H; tos. Qed.
Lemma lit_El sp t : El (XLit sp t). Proof. intros q _. exact I. Qed.
Lemma push_El le sp es : Forall El es -> Forall El (push_line_ending le sp es).
Proof.
  intros H. unfold push_line_ending. assert (H' : Forall El (rev es)) by now apply Forall_rev.
  assert (K : Forall El (es ++ [XLit (Some sp) le])) by (apply Forall_app; split; [exact H|repeat constructor; apply lit_El]).
  destruct (rev es) as [|e r]; [exact K|]. destruct e as [[s0|] t| | |]; try exact K. inversion H'; subst. apply Forall_rev. constructor; [apply lit_El|assumption].
Qed.
Lemma put_lits_El es : Forall El es -> forall ts, Forall El (put_lits es ts).
Proof.
  induction 1 as [|e l He _ IH]; intros ts; [constructor|]. destruct ts as [|t ts]; [destruct e; constructor|].
  destruct e; cbn [put_lits]; try (constructor; auto; fail). destruct t; constructor; auto.
Qed.
Lemma heredoc_template_E d s es s' : here s -> heredoc_template u R d s = POk es s' -> to s s' /\ Forall El es.
Proof.
  intros Hs H. unfold heredoc_template in H. bnd H o s1 H1. rtn H. apply opt_inv in H1. destruct H1 as [(l & -> & H1)|(-> & -> & _)]; [|split; [apply to_refl|constructor]].
  bnd H1 es s2 H2. bnd H1 x s3 H3. destruct x as [le0 sp0]. rtn H1. apply span_inv in H3. destruct H3 as (le1 & H3 & F). injection F as <- ->. apply line_ending_to in H3.
  apply elements_E in H2; auto.
  - destruct H2 as [T2 X2]. split; [tos|now apply push_El].
  - intros s4 t s5. apply template_to. intros bad Hb n o. apply sat_alt; [now apply quiet_tag|]. apply sat_alt; [now apply quiet_tag|].
    unfold heredoc_end. eapply sat_bind; auto; [eapply sat_conseq; [apply line_ending_ok; auto|]; intros; exact I|]. intros.
    eapply sat_bind; auto; [apply sat_take_while0 with (P := fun _ _ => True); auto|]. intros. eapply sat_bind; auto; [now apply sat_tag with (P := fun _ _ => True)|].
    intros. eapply sat_conseq; [eapply sat_not with (P := fun _ _ => True); auto; apply sat_one_of; auto|]. auto.
Qed.
Lemma heredoc_E nl s e s' : here s -> heredoc u R s = POk e s' -> to s s' /\ bare e /\ E nl e /\ is_term e = true /\ sticky e = false.
Proof.
  intros Hs H. unfold heredoc in H. bnd H x s1 H1. destruct x as [ind d]. unfold heredoc_start in H1. bnd H1 y s2 H2. apply tag_inv in H2. bnd H1 i s3 H3.
  apply opt_to in H3; [|intros k K; apply char_inv in K; destruct K; tos]. bnd H1 d' s4 H4. apply cut_inv, ident_inv in H4. destruct H4 as (A4 & I4 & _).
  bnd H1 le0 s5 H5. apply cut_inv, line_ending_to in H5. apply ret_inv in H1. destruct H1 as [F ->]. injection F as -> ->. assert (h5 : here s5) by hr.
  bnd H x s6 H6. destruct x as [es sp0]. apply span_inv in H6. destruct H6 as (es' & H6 & F). injection F as <- ->. destruct (heredoc_template_E _ _ _ _ h5 H6) as [T6 X6].
  assert (h6 : here s6) by hr. bnd H tr s7 H7. apply raw_string_inv in H7. destruct H7 as (? & H7 & ->). bnd H7 w s8 H8. rtn H7. apply while_inv in H8. destruct H8 as (A8 & F8 & _).
  bnd H z s9 H9. apply cut_inv in H9. bnd H9 z2 s10 H10. apply tag_inv in H10. apply pnot_inv in H9. destruct H9 as [-> _]. apply ret_inv in H. destruct H as [F ->].
  split; [tos|]. set (es0 := if match i with Some _ => true | None => false end then tpl_dedent es else (es, None)) in F.
  assert (X : Forall El (fst es0)).
  { unfold es0. destruct i; [|exact X6]. unfold tpl_dedent. destruct (dedent (map to_tel es)). now apply put_lits_El. }
  destruct es0 as [es1 i1]. subst e. split; [now split; [|left]|]. split; [|split; reflexivity]. cbn [fst] in X.
  intros q (R1 & R2 & R3 & R4 & R5). cbn [x_map tpl_map] in *. split; [exact R1|]. split; [exact R2|]. split; [exact I4|].
  assert (W := span_text _ _ _ h6 A8). split; [|split; [|split; [exact (lall_El q es1 X R3)|split; [exact R4|exact R5]]]].
  - unfold clean. now rewrite W, enc_str.
  - now rewrite W, enc_str.
Qed.

(** Function calls. *)
Definition Args (l : list xexpr) (ex co : bool) (tr : raw) : Prop :=
  Forall (EE true) l /\ arr_end l (ex || co) tr /\ (l = [] -> ex || co = false) /\ (ex = true -> co = false).
Lemma func_args_E s l ex co tr s' : here s -> func_args R s = POk (l, ex, co, tr) s' -> to s s' /\ snd s <> [] /\ Args l ex co tr.
Proof.
  intros Hs H. unfold func_args in H. bnd H c s1 H1. apply cut_inv, char_inv in H1. destruct H1 as [H1 _]. assert (h1 : here s1) by hr. bnd H o s2 H2. bnd H t s3 H3. bnd H c' s4 H4.
  apply ret_inv in H. destruct H as [F ->]. apply cut_inv, char_inv in H4. destruct H4 as [H4 _]. apply raw_string_inv in H3. destruct H3 as (? & H3 & ->).
  assert (N0 : snd s <> []) by ne. assert (N3 : snd s3 <> []) by ne.
  apply opt_inv in H2. destruct H2 as [([l0 t0] & -> & H2)|(-> & -> & _)].
  - bnd H2 l1 s5 H5. bnd H2 t1 s6 H6. apply ret_inv in H2. destruct H2 as [F2 ->]. injection F2 as -> ->. apply (sep_inv true) in H5; auto.
    + destruct H5 as (T5 & W5 & Hl & X5). assert (T6 : to s5 s6).
      { apply opt_to in H6; auto. intros k K. unfold trailer in K. bnd K c1 s7 K1. apply any_inv in K1. destruct (c1 =? 44); [rtn K; tos|].
        destruct (c1 =? 46); [|discriminate]. bnd K y s8 K2. apply cut_inv, tag_inv in K2. rtn K. tos. }
      assert (h6 : here s6) by hr. destruct (ws_Gr _ _ _ h6 H3) as (T3 & G3 & _). split; [tos|]. split; [exact N0|]. assert (N5 : snd s5 <> []) by ne. specialize (X5 N5). specialize (G3 N3).
      destruct t1 as [[|]|]; injection F as -> -> -> ->.
      * split; [exact X5|]. split; [split; [exact G3|discriminate]|]. split; [congruence|auto].
      * split; [exact X5|]. split; [split; [exact G3|discriminate]|]. split; [congruence|discriminate].
      * split; [exact X5|]. split; [split; [exact G3|]|split; auto]. intros _ _. apply opt_inv in H6. destruct H6 as [(k & K & _)|(_ & -> & _)]; [discriminate|].
        rewrite (ws_nothing _ _ _ W5 H3). apply span_here.
    + intros a e z h K. bnd K y a1 K1. apply peek_inv in K1. destruct K1 as [-> _]. apply (g_expr R G) in K; auto. tauto.
  - destruct (ws_Gr _ _ _ h1 H3) as (T3 & G3 & _). split; [tos|]. split; [exact N0|]. injection F as -> -> -> ->. split; [constructor|]. split; [split; [auto|congruence]|]. auto.
Qed.
Definition Nm (nl : bool) (i : did) : Prop := is_ident u (i_name i) = true /\ tidy nl (i_meta (Di i)).
Lemma component_E nl s i s' : here s -> snd s' <> [] -> (tag (lit "::") ;; decorated did_upd (ws_or_sp nl) (cut (ident u)) (ws_or_sp nl)) s = POk i s' -> Nm nl i.
Proof.
  intros Hs Ne H. bnd H y s1 H1. apply tag_inv in H1. assert (h1 : here s1) by hr. apply decorated_inv in H. destruct H as (a & s2 & x & s3 & z & H2 & H3 & H4 & ->).
  apply cut_inv in H3. unfold ident in H3. apply pmap_inv in H3. destruct H3 as (n & H3 & ->). apply ident_inv in H3. destruct H3 as (A3 & I3 & _).
  destruct (is_ident_ne n I3) as (c0 & r0 & -> & _).
  destruct (ws_or_sp_Gr _ _ _ _ h1 H2) as (T2 & G2). assert (h3 : here s3) by hr. destruct (ws_or_sp_Gr _ _ _ _ h3 H4) as (T4 & G4).
  split; [exact I3|]. unfold did_map, did_upd. cbn [i_meta]. split; [rewrite pre_set', pre_set|rewrite suf_set]; apply Gr_gap; auto. apply G2. ne.
Qed.
Lemma component_to nl s i s' : here s -> (tag (lit "::") ;; decorated did_upd (ws_or_sp nl) (cut (ident u)) (ws_or_sp nl)) s = POk i s' -> to s s'.
Proof.
  intros Hs H. bnd H y s1 H1. apply tag_inv in H1. assert (h1 : here s1) by hr. apply decorated_inv in H. destruct H as (a & s2 & x & s3 & z & H2 & H3 & H4 & ->).
  apply cut_inv in H3. unfold ident in H3. apply pmap_inv in H3. destruct H3 as (n & H3 & ->). apply ident_inv in H3. destruct H3 as (A3 & I3 & _).
  destruct (ws_or_sp_Gr _ _ _ _ h1 H2) as (T2 & G2). assert (h3 : here s3) by hr. destruct (ws_or_sp_Gr _ _ _ _ h3 H4) as (T4 & G4). tos.
Qed.
Lemma components_to nl s l s' : here s -> runs (tag (lit "::") ;; decorated did_upd (ws_or_sp nl) (cut (ident u)) (ws_or_sp nl)) s l s' -> to s s' /\ (snd s' <> [] -> Forall (Nm nl) l).
Proof.
  intros Hs H. induction H as [|s a s1 l s2 H _ _ IH]; [split; [apply to_refl|constructor]|]. assert (T1 := component_to _ _ _ _ Hs H). assert (h1 : here s1) by hr.
  destruct (IH h1) as [T2 X2]. split; [tos|]. intros Ne. constructor; [|auto]. assert (N1 : snd s1 <> []) by ne. exact (component_E _ _ _ _ Hs N1 H).
Qed.
Lemma lall_Nm nl l : Forall (Nm nl) l -> lall (fun i => is_ident u (i_name i) = true /\ tidy nl (i_meta i)) (map Di l).
Proof. induction 1 as [|i l H _ IH]; cbn [map lall]; auto. Qed.
Lemma keyword_E nl x : is_ident u x = true -> bare (keyword x) /\ E nl (keyword x) /\ is_term (keyword x) = true /\ sticky (keyword x) = false.
Proof.
  intros H. unfold keyword. destruct (seqb x (lit "null")) eqn:E1; [split; [now split; [|left]|]; split; [intros q _; exact I|auto]|].
  destruct (seqb x (lit "true")) eqn:E2; [split; [now split; [|left]|]; split; [intros q _; exact I|auto]|].
  destruct (seqb x (lit "false")) eqn:E3; [split; [now split; [|left]|]; split; [intros q _; exact I|auto]|].
  split; [now split; [|left]|]. split; [|auto]. intros q Hr. split; [exact H|]. unfold reserved. cbn [existsb]. rewrite E1, E2, E3.
  destruct (seqb x (lit "for")) eqn:E4; [|reflexivity]. apply seqb_eq in E4. now destruct Hr.
Qed.
Lemma identlike_E nl s e fl s' : here s -> identlike u R nl s = POk (e, fl) s' -> to s s' /\ bare e /\ E nl e /\ is_term e = true /\ fl = nl || sticky e.
Proof.
  intros Hs H. unfold identlike in H. bnd H y s1 H1. destruct y as [x xs]. apply span_inv in H1. destruct H1 as (x' & H1 & F). injection F as <- ->. apply ident_inv in H1.
  destruct H1 as (A1 & I1 & _). assert (h1 : here s1) by hr. bnd H sf0 s2 H2. apply pspan_inv in H2. destruct H2 as (? & H2 & ->). destruct (ws_or_sp_Gr _ _ _ _ h1 H2) as (T2 & G2).
  assert (h2 : here s2) by hr. bnd H bb s3 H3. apply look2_inv in H3. destruct H3 as [-> ->]. set (bb := l2 (snd s2)) in *. destruct (opt_seqb bb (lit "::") || head_is (N.eqb 40) bb) eqn:Ea.
  - set (i := Did _ x) in H. bnd H y s4 H4. destruct y as [ns name]. bnd H y s5 H5. destruct y as [[[l ex] co] tr]. apply ret_inv in H. destruct H as [F ->]. injection F as -> ->.
    assert (K : to s2 s4 /\ (snd s4 <> [] -> exists l, ns ++ [name] = i :: l /\ Forall (Nm nl) l)).
    { destruct (opt_seqb bb (lit "::")).
      - bnd H4 l0 s6 H6. apply lift_inv in H4. destruct H4 as [H4 ->]. unfold func_namespace_components in H6. apply many1_inv in H6. destruct H6 as (_ & i1 & s7 & l' & -> & H7 & H6).
        assert (T7 := component_to _ _ _ _ h2 H7). assert (h7 : here s7) by hr. destruct (components_to _ _ _ _ h7 H6) as [T6 X6]. split; [tos|]. intros Ne.
        assert (X : Forall (Nm nl) (i1 :: l')) by (constructor; [assert (N7 : snd s7 <> []) by ne; exact (component_E _ _ _ _ h2 N7 H7)|auto]). exists (i1 :: l'). split; [|exact X].
        destruct (rev (i1 :: l')) as [|n r] eqn:Er; [discriminate|]. injection H4 as <- <-. rewrite <- (rev_involutive (i1 :: l')), Er. reflexivity.
      - apply ret_inv in H4. destruct H4 as [F ->]. injection F as -> ->. split; [apply to_refl|]. intros _. exists []. auto. }
    destruct K as [T4 K]. assert (h4 : here s4) by hr. destruct (func_args_E _ _ _ _ _ _ h4 H5) as (T5 & N4 & X5 & X6 & X7 & X8). destruct (K N4) as (l0 & En & Hn).
    assert (Ni : Nm nl i). { split; [exact I1|]. split; [reflexivity|]. apply (Gr_gap nl). apply G2. ne. }
    split; [tos|]. split; [now split; [|left]|]. split; [|split; [reflexivity|cbn; now rewrite orb_true_r]]. intros q (R1 & R2). cbn [x_map] in *.
    assert (En' : map Di ns ++ [Di name] = Di i :: map Di l0) by (change [Di name] with (map Di [name]); rewrite <- map_app, En; reflexivity).
    rewrite En' in R1. cbn [sub BackSpec.ok]. rewrite En'. split; [exact (lall_Nm nl (i :: l0) (Forall_cons _ Ni Hn))|]. split; [split; [reflexivity|exact R1]|]. split; [split; reflexivity|].
    split; [exact (lall_EE true q l X5 R2)|]. split; [|exact X8]. apply closing_ok; auto. intros Hl. apply X7. now destruct l.
  - injection H as <- <- <-. destruct (keyword_E nl x I1) as (K1 & K2 & K3 & K4). split; [tos|]. rewrite K4, orb_false_r. auto.
Qed.

(** Operands. *)
Lemma start_flag {A} (p : parser A) nl s (x : A * bool) s' : pmap (fun e => (e, nl)) p s = POk x s' -> exists e, p s = POk e s' /\ x = (e, nl).
Proof. intros H. apply pmap_inv in H. destruct H as (e & H & ->). eauto. Qed.
Lemma term_start_E nl s e fl s' : here s -> term_start u b pf items_insert R nl s = POk (e, fl) s' ->
  to s s' /\ snd s <> [] /\ bare e /\ E nl e /\ is_term e = true /\ fl = nl || sticky e.
Proof.
  intros Hs H. unfold term_start in H. bnd H c s1 H1. apply peek_any_inv in H1. destruct H1 as (-> & r & Hc). assert (N0 : snd s <> []) by (rewrite Hc; discriminate). clear Hc.
  assert (W : (to s s' /\ bare e /\ E nl e /\ is_term e = true /\ fl = nl || sticky e) -> to s s' /\ snd s <> [] /\ bare e /\ E nl e /\ is_term e = true /\ fl = nl || sticky e) by tauto.
  apply W. clear W.
  destruct (c =? 34). { apply start_flag in H. destruct H as (e0 & H & F). injection F as -> ->. assert (K := H). apply (stringlike_E nl) in H; auto. unfold stringlike in K. apply alt_inv in K.
    destruct K as [K|[_ K]]; apply pmap_inv in K; destruct K as (t & K & ->); cbn [is_term sticky]; rewrite orb_false_r; tauto. }
  destruct (c =? 91). { apply start_flag in H. destruct H as (e0 & H & F). injection F as -> ->. apply (array_E nl) in H; auto. destruct H as (K1 & K2 & K3 & K4 & K5). rewrite K5, orb_true_r. auto. }
  destruct (c =? 123); [now apply object_E|].
  destruct (is_digit c). { apply start_flag in H. destruct H as (e0 & H & F). injection F as -> ->. assert (K := H). apply (number_expr_E nl) in H; auto. unfold number_expr in K. bnd K y s1 K1. destruct y. rtn K.
    cbn [is_term sticky]; rewrite orb_false_r; tauto. }
  destruct (c =? 60). { apply start_flag in H. destruct H as (e0 & H & F). injection F as -> ->. apply (heredoc_E nl) in H; auto. destruct H as (K1 & K2 & K3 & K4 & K5). rewrite K5, orb_false_r. auto. }
  assert (U : forall e0, unary_op R nl s = POk e0 s' -> to s s' /\ bare e0 /\ E nl e0 /\ is_term e0 = true /\ nl = nl || sticky e0).
  { intros e0 K. assert (K' := K). apply unary_E in K; auto. unfold unary_op in K'. bnd K' y s1 K1. destruct y. bnd K' e1 s2 K2. rtn K'. cbn [is_term sticky]; rewrite orb_false_r; tauto. }
  destruct (c =? 45). { apply start_flag in H. destruct H as (e0 & H & F). injection F as -> ->. apply alt_inv in H. destruct H as [H|[_ H]]; [|now apply U]. assert (K := H). apply (neg_number_E nl) in H; auto.
    unfold neg_number in K. bnd K y s1 K1. destruct y. bnd K y s2 K2. rtn K. cbn [is_term sticky]; rewrite orb_false_r; tauto. }
  destruct (c =? 33). { apply start_flag in H. destruct H as (e0 & H & F). injection F as -> ->. now apply U. }
  destruct (c =? 40). { apply start_flag in H. destruct H as (e0 & H & F). injection F as -> ->. apply (parenthesis_E nl) in H; auto. destruct H as (K1 & K2 & K3 & K4 & K5). rewrite K5, orb_false_r. auto. }
  destruct (is_id_start u c); [now apply identlike_E|discriminate].
Qed.
Lemma l2_ne f r : head_is f (l2 r) = true -> r <> [].
Proof. intros H ->. discriminate. Qed.
Lemma expr_term_E nl s e fl s' : here s -> expr_term u b pf items_insert R nl s = POk (e, fl) s' ->
  to s s' /\ snd s <> [] /\ bare e /\ E nl e /\ is_term e = true /\ fl = nl || sticky e.
Proof.
  intros Hs H. unfold expr_term in H. bnd H st0 s1 H1. apply pos_inv in H1. destruct H1 as [-> ->]. bnd H y s1 H1. destruct y as [[e0 fl0] sp0]. apply span_inv in H1.
  destruct H1 as (y & H1 & F). injection F as <- ->. destruct (term_start_E _ _ _ _ _ Hs H1) as (T1 & N0 & Hb & HE & Ht & Hf). assert (h1 : here s1) by hr.
  bnd H sf0 s2 H2. apply pspan_inv in H2. destruct H2 as (? & H2 & ->). destruct (ws_or_sp_Gr _ _ _ _ h1 H2) as (T2 & G2). assert (h2 : here s2) by hr.
  bnd H bb s3 H3. apply look2_inv in H3. destruct H3 as [-> ->]. destruct (negb _ && head_is _ _) eqn:Ea.
  - apply andb_true_iff in Ea. destruct Ea as [_ Ea]. apply l2_ne in Ea. bnd H y s4 H4. destruct y as [ops sp0]. apply span_inv in H4. destruct H4 as (y & H4 & F). injection F as <- ->.
    apply ret_inv in H. destruct H as [F ->]. injection F as -> ->. destruct (traversal_E _ _ _ _ h2 H4) as (T4 & No & X). split; [tos|]. split; [exact N0|].
    split; [now split; [|left]|]. split; [|split; [reflexivity|]].
    + intros q. cbn [x_upd x_map]. intros (R1 & R2 & R3 & R4). cbn [sub BackSpec.ok]. rewrite sticky_D, !sticky_upd, <- Hf. split; [exact R2|]. split; [exact R3|].
      split; [exact (E_upd _ _ _ (E_upd _ _ _ HE) q R1)|]. split; [now destruct ops|]. rewrite D_meta, !meta_upd. split; [|split].
      * rewrite pre_set'. rewrite <- meta_upd, <- D_meta. apply bare_pre. now apply bare_span.
      * rewrite suf_set. now apply Gr_gap, G2.
      * exact (lall_tr q fl0 ops X R4).
    + cbn [x_upd sticky]. now rewrite !sticky_upd.
  - injection H as <- <- <-. split; [tos|]. split; [exact N0|]. split; [now apply bare_span|]. split; [now apply E_upd|]. now rewrite is_term_upd, sticky_upd.
Qed.

(** Operations. *)
Definition Sp (m : meta) : Prop := exists a z, m_decor m = Decor (Some (raw_of_span a)) (Some (raw_of_span z)).
Definition Od (h fl : bool) (e : xexpr) : Prop := bare e /\ is_cond e = false /\ forall q, regular q (D e) -> ok q h fl (D e).
Lemma Sp_tidy fl m : Sp m -> tidy fl (meta_map leave m).
Proof.
  intros (a & z & H). unfold tidy, pre, suf, enc_prefix, enc_suffix, meta_map, leave. cbn [m_decor]. rewrite H. cbn. rewrite !span_enc_NO. auto.
Qed.
Lemma Sp_div m : Sp m -> match suf BOTH (meta_map leave m) with c :: _ => c <> 47 | [] => True end.
Proof.
  intros (a & z & H). unfold suf, enc_suffix, meta_map, leave. cbn [m_decor]. rewrite H. cbn. unfold raw_of_span. destruct (_ <? _); cbn; [discriminate|exact I].
Qed.
Lemma tree_Od fl (t : optree xexpr oper) : forall h, Od h fl (head t) -> Forall (fun p => Sp (fst (fst p)) /\ Od fl fl (snd p)) (tail t) -> Od h fl (tree_expr t).
Proof.
  induction t as [e|l IHl o r IHr]; intros h Hh Ht; [exact Hh|]. cbn [head tail tree_expr] in *. apply Forall_app in Ht. destruct Ht as [Hl Hr].
  inversion Hr as [|? ? [Ho Hrh] Hrt]; subst. cbn [fst snd] in *. specialize (IHl h Hh Hl). specialize (IHr fl Hrh Hrt). clear Hh Hl Hr Hrh Hrt.
  destruct IHl as (Bl & Cl & Kl), IHr as (Br & Cr & Kr). unfold infix_expr. set (m := match m_span _ with Some _ => _ | None => _ end).
  assert (Hm : m_decor m = no_decor). { unfold m. destruct (m_span _); [destruct (m_span _)|]; reflexivity. }
  split; [split; [|left]; cbn [x_meta]; now rewrite Hm|]. split; [reflexivity|]. intros q (R1 & R2 & R3 & R4 & R5 & R6). cbn [x_map] in *.
  split; [now rewrite cond_D|]. split; [now rewrite cond_D|]. split; [exact (Kl q R1)|]. split; [exact (Kr q R2)|].
  split; [split; [now apply bare_pre|now apply bare_suf]|]. split; [split; [now apply bare_pre|now apply bare_suf]|].
  split; [now apply Sp_tidy|]. split; [exact R5|]. split; [intros _; now apply Sp_div|exact R6].
Qed.
Lemma sticky_tree (t : optree xexpr oper) : sticky (tree_expr t) = sticky (head t).
Proof. induction t as [e|l IHl o r IHr]; [reflexivity|]. cbn. exact IHl. Qed.
Lemma binary_operator_to s o s' : binary_operator s = POk o s' -> to s s' /\ snd s <> [].
Proof.
  intros H. unfold binary_operator in H. bnd H c s1 H1. apply any_inv in H1.
  assert (W : to s1 s' -> to s s' /\ snd s <> []) by (intros T; split; [tos|ne]). apply W. clear W.
  assert (C : forall k (v : binop), (char k ;; ret v) s1 = POk o s' -> to s1 s').
  { intros k v K. bnd K y s2 K1. apply char_inv in K1. destruct K1 as [K1 _]. rtn K. tos. }
  assert (Rt : forall v : binop, ret v s1 = POk o s' -> to s1 s') by (intros v K; rtn K; apply to_refl).
  destruct (c =? 61); [eauto|]. destruct (c =? 33); [eauto|]. destruct (c =? 60); [apply alt_inv in H; destruct H as [H|[_ H]]; eauto|].
  destruct (c =? 62); [apply alt_inv in H; destruct H as [H|[_ H]]; eauto|]. destruct (c =? 43); [eauto|]. destruct (c =? 45); [eauto|]. destruct (c =? 42); [eauto|].
  destruct (c =? 47); [bnd H y s2 H2; apply pnot_inv in H2; destruct H2 as [-> _]; eauto|]. destruct (c =? 37); [eauto|]. destruct (c =? 38); [eauto|]. destruct (c =? 124); [eauto|discriminate].
Qed.
Lemma term_not_cond e : is_term e = true -> is_cond e = false. Proof. now destruct e. Qed.
Definition Rest (fl : bool) (p : oper * xexpr) : Prop := Sp (fst (fst p)) /\ Od fl fl (snd p).
Lemma binary_op_E fl s x s' : here s -> (o <- decorated oper_upd (ws_or_sp fl) (pmap (pair no_meta) binary_operator) (ws_or_sp fl) ;;
           e <- r_term R fl ;; ret (o, e)) s = POk x s' -> to s s' /\ Rest fl x.
Proof.
  intros Hs H. bnd H o s1 H1. bnd H e s2 H2. rtn H. apply decorated_inv in H1. destruct H1 as (a & s3 & o0 & s4 & z & H3 & H4 & H5 & ->).
  destruct (ws_or_sp_Gr _ _ _ _ Hs H3) as (T3 & _). apply pmap_inv in H4. destruct H4 as (o1 & H4 & ->). apply binary_operator_to in H4. destruct H4 as [T4 _]. assert (h4 : here s4) by hr.
  destruct (ws_or_sp_Gr _ _ _ _ h4 H5) as (T5 & _). assert (h1 : here s1) by hr. destruct (g_term R G _ _ _ _ h1 H2) as (T2 & _ & Hb & HE & Ht). split; [tos|]. split.
  - cbn. do 2 eexists. reflexivity.
  - cbn [snd]. split; [exact Hb|]. split; [now apply term_not_cond|]. intros q Hr. apply ok_term with (fl := fl || sticky (D e)); [now rewrite term_D|exact (HE q Hr)].
Qed.
Lemma binary_ops_E fl s l s' : here s -> binary_ops R fl s = POk l s' -> to s s' /\ Forall (Rest fl) l.
Proof.
  intros Hs H. unfold binary_ops in H. apply many1_inv in H. destruct H as (_ & x & s1 & l' & -> & H1 & H). destruct (binary_op_E _ _ _ _ Hs H1) as [T1 X1].
  assert (h1 : here s1) by hr. assert (K : to s1 s' /\ Forall (Rest fl) l').
  { clear - H h1 HU G. induction H as [|s a s1 l s2 H _ _ IH]; [split; [apply to_refl|constructor]|]. destruct (binary_op_E _ _ _ _ h1 H) as [T1 X1].
    assert (h2 : here s1) by hr. destruct (IH h2). split; [tos|constructor; auto]. }
  destruct K as [T2 X2]. split; [tos|]. constructor; auto.
Qed.
Lemma conditional_E fl s t f s' : here s -> conditional R fl s = POk (t, f) s' -> to s s' /\
  E fl t /\ tidy fl (x_meta (D t)) /\ E fl f /\ gap fl (pre NO (x_meta (D f))) = true /\ (shut (D f) -> suf NO (x_meta (D f)) = []).
Proof.
  intros Hs H. unfold conditional in H. bnd H c s1 H1. apply char_inv in H1. destruct H1 as [H1 _]. assert (h1 : here s1) by hr. bnd H t0 s2 H2. bnd H c' s3 H3. bnd H f0 s4 H4.
  apply ret_inv in H. destruct H as [F ->]. injection F as -> ->. apply cut_inv, char_inv in H3. destruct H3 as [H3 _].
  apply decorated_inv in H2. destruct H2 as (a & s5 & x & s6 & z & H5 & H6 & H7 & ->). destruct (ws_or_sp_Gr _ _ _ _ h1 H5) as (T5 & G5). assert (h5 : here s5) by hr.
  destruct (g_expr R G _ _ _ _ h5 H6) as (T6 & N5 & _ & HE). assert (h6 : here s6) by hr. destruct (ws_or_sp_Gr _ _ _ _ h6 H7) as (T7 & G7). assert (h3 : here s3) by hr.
  assert (N2 : snd s2 <> []) by ne.
  apply prefixed_inv in H4. destruct H4 as (a8 & s8 & y & H8 & H9 & ->). destruct (ws_or_sp_Gr _ _ _ _ h3 H8) as (T8 & G8). assert (h8 : here s8) by hr.
  destruct (g_expr R G _ _ _ _ h8 H9) as (T9 & N8 & Hb & HF). split; [tos|]. split; [now do 2 apply E_upd|]. split.
  { rewrite D_meta, meta_upd. split; [rewrite pre_set', pre_set|rewrite suf_set]; apply Gr_gap; auto. }
  split; [now do 2 apply E_upd|]. split; [rewrite D_meta, meta_upd, pre_set; apply Gr_gap; auto|]. intros Sh. rewrite D_meta, meta_upd, suf_set', <- D_meta. apply bare_suf; [now apply bare_span|].
  revert Sh. generalize (x_upd (set_span (fst s8, fst s4)) y). clear. intros y. rewrite D_upd. unfold shut. destruct y; auto.
Qed.
Lemma expr_loop_E nl n : forall fl st0 e s e' s', here s -> bare e -> is_cond e = false -> E nl e -> fl = nl || sticky e ->
  expr_loop pratt_group R n fl st0 e s = POk e' s' -> to s s' /\ bare e' /\ E nl e'.
Proof.
  induction n as [|n IH]; intros fl st0 e s e' s' Hs Hb Hc HE Hf H; [discriminate|]. cbn [expr_loop] in H. bnd H sf0 s2 H2. apply pspan_inv in H2. destruct H2 as (? & H2 & ->).
  destruct (ws_or_sp_Gr _ _ _ _ Hs H2) as (T2 & G2). assert (h2 : here s2) by hr. bnd H bb s3 H3. apply look2_inv in H3. destruct H3 as [-> ->].
  destruct (head_is (N.eqb 63) _) eqn:Ea.
  - apply l2_ne in Ea. bnd H y s4 H4. destruct y as [[t f] sp0]. apply span_inv in H4. destruct H4 as (y & H4 & F). injection F as <- ->. rtn H.
    destruct (conditional_E _ _ _ _ _ h2 H4) as (T4 & K1 & K2 & K3 & K4 & K5). split; [tos|]. split; [now split; [|left]|].
    intros q. cbn [x_upd x_map]. intros (R1 & R2 & R3 & R4). cbn [sub BackSpec.ok]. rewrite sticky_D, sticky_upd, <- Hf. split; [now rewrite cond_D, is_cond_upd|].
    split; [exact (E_upd _ _ _ HE q R1)|]. split; [exact (K1 q R2)|]. split; [exact (K3 q R3)|]. split; [|split; [|split; [exact K2|split; [exact K4|exact (K5 R4)]]]].
    + rewrite D_meta, meta_upd, pre_set', <- D_meta. now apply bare_pre.
    + rewrite D_meta, meta_upd, suf_set. now apply Gr_gap, G2.
  - destruct (binop_ahead _); [|injection H as <- <-; split; [apply to_refl|auto]]. bnd H y s4 H4. destruct y as [ops sp0]. apply span_inv in H4. destruct H4 as (y & H4 & F). injection F as <- ->.
    destruct (binary_ops_E _ _ _ _ Hs H4) as [T4 X4]. destruct (pratt_group_spec e ops) as (t & rest & Eg & _ & Hh & Eo & _). rewrite Eg in H. rewrite Eo in X4. apply Forall_app in X4. destruct X4 as [X4 _].
    assert (O : Od nl fl (tree_expr t)).
    { apply tree_Od; [|exact X4]. rewrite Hh. split; [exact Hb|]. split; [exact Hc|]. intros q Hr. specialize (HE q Hr). unfold sub in HE. now rewrite sticky_D, <- Hf in HE. }
    destruct O as (O1 & O2 & O3). assert (h4 : here s4) by hr. apply IH in H; auto.
    + destruct H as (T5 & K). split; [tos|exact K].
    + now apply bare_span.
    + now rewrite is_cond_upd.
    + apply E_upd. intros q Hr. unfold sub. rewrite sticky_D, sticky_tree, Hh, <- Hf. auto.
    + now rewrite sticky_upd, sticky_tree, Hh.
Qed.
Lemma pexpr_E nl s e s' : here s -> pexpr u b pf pratt_group items_insert R nl s = POk e s' -> to s s' /\ snd s <> [] /\ bare e /\ E nl e.
Proof.
  intros Hs H. unfold pexpr in H. bnd H st0 s1 H1. apply pos_inv in H1. destruct H1 as [-> ->]. bnd H y s1 H1. destruct y as [e0 fl].
  destruct (expr_term_E _ _ _ _ _ Hs H1) as (T1 & N0 & Hb & HE & Ht & Hf). assert (h1 : here s1) by hr.
  apply (expr_loop_E nl) in H; auto; [|now apply term_not_cond]. destruct H as (T2 & K). split; [tos|]. split; [exact N0|exact K].
Qed.
Lemma good_unroll : good (unroll u b pf pratt_group items_insert R).
Proof.
  constructor.
  - intros nl s e s' Hs H. now apply pexpr_E.
  - intros nl s e s' Hs H. cbn [r_term unroll] in H. apply pmap_inv in H. destruct H as ([e0 fl] & H & ->). apply expr_term_E in H; auto. cbn [fst]. tauto.
  - intros s es s' Hs H. now apply ptemplate_E.
Qed.
End Grammar.
Lemma good_at u b pf sf (HU : ascii_exact u) n : good u b pf sf (recs_at u b pf pratt_group items_insert n).
Proof.
  induction n as [|n IH]; [|now apply good_unroll]. constructor; discriminate.
Qed.
End Input.

(** * Editing lists: proofs *)
From Coq Require Import NArith ZArith Arith Bool String List Lia.
From Verif Require Import Res Str NumberModel PrimModel PrimProofs EAst EncModel EqSpec EatLeaf ParseBase ParseModel BackSpec BackPrint BackProps SeqModel SeqSpec.
Import ListNotations.
Open Scope nat_scope.

(** ** The list *)
Section List.
  Context {A : Type}.
  Implicit Types (l : list A) (s : seq A) (o : op A).
  Lemma insert_spec l : forall i x, match vec_insert l i x with
    | Done l' => exists a b, l = a ++ b /\ length a = i /\ l' = a ++ x :: b
    | Panic => length l < i
    end.
  Proof.
    induction l as [|y l IH]; intros [|i] x; cbn [vec_insert].
    - now exists [], [].
    - cbn. lia.
    - now exists [], (y :: l).
    - specialize (IH i x). destruct (vec_insert l i x) as [l'|]; cbn [rmap length]; [|lia]. destruct IH as (a & b & -> & <- & ->). now exists (y :: a), b.
  Qed.
  Lemma remove_spec l : forall i, match vec_remove l i with
    | Done (l', x) => exists a b, l = a ++ x :: b /\ length a = i /\ l' = a ++ b
    | Panic => length l <= i
    end.
  Proof.
    induction l as [|y l IH]; intros [|i]; cbn [vec_remove length]; try lia.
    - now exists [], l.
    - specialize (IH i). destruct (vec_remove l i) as [[l' x]|]; cbn [rmap fst snd]; [|lia]. destruct IH as (a & b & -> & <- & ->). now exists (y :: a), b.
  Qed.
  Lemma pop_spec l : match vec_pop l with (l', Some x) => l = l' ++ [x] | (l', None) => l = [] /\ l' = [] end.
  Proof.
    induction l as [|y l IH]; [now split|]. destruct l as [|z l]; [reflexivity|]. cbn [vec_pop] in *. destruct (match l with [] => _ | _ => _ end) as [l' [x|]].
    - now rewrite IH.
    - now destruct IH.
  Qed.
  Lemma set_spec l : forall i y, match nth_error l i with
    | Some x => exists a b, l = a ++ x :: b /\ length a = i /\ vec_set l i y = a ++ y :: b
    | None => length l <= i /\ vec_set l i y = l
    end.
  Proof.
    induction l as [|z l IH]; intros [|i] y; cbn [nth_error vec_set length]; try (split; [lia|reflexivity]).
    - now exists [], l.
    - specialize (IH i y). destruct (nth_error l i) as [x|]; [|destruct IH as [H ->]; split; [lia|reflexivity]]. destruct IH as (a & b & -> & <- & ->). now exists (z :: a), b.
  Qed.
  Lemma push_all l : forall s, fold_left push l s = with_items s (items s ++ l).
  Proof.
    induction l as [|x l IH]; intros s; cbn [fold_left]; [unfold with_items; rewrite app_nil_r; now destruct s|]. rewrite IH. unfold push, with_items. cbn. now rewrite <- app_assoc.
  Qed.
  Lemma step_does s o : match step s o with Done (s', r) => does o (items s) (items s') r | Panic => out_of_bounds o (items s) end.
  Proof.
    destruct o as [ |i x|x| |i|i x|f|l|r|y|y]; cbn [step]; try constructor.
    - assert (H := insert_spec (items s) i x). destruct (vec_insert (items s) i x) as [l|]; cbn [rmap]; [|exact H]. destruct H as (a & b & -> & <- & ->). constructor.
    - assert (H := pop_spec (items s)). destruct (vec_pop (items s)) as [l [x|]]; [rewrite H|destruct H as [-> ->]]; constructor.
    - assert (H := remove_spec (items s) i). destruct (vec_remove (items s) i) as [[l x]|]; cbn [rmap fst snd]; [|exact H]. destruct H as (a & b & -> & <- & ->). constructor.
    - assert (H := set_spec (items s) i x). unfold get. destruct (nth_error (items s) i) as [z|]; cbn [with_items items].
      + destruct H as (a & b & -> & <- & ->). constructor.
      + destruct H as [H ->]. now constructor.
    - cbn. induction (items s); constructor; auto.
    - rewrite push_all. constructor.
  Qed.
  Lemma does_bounded o l l' r : does o l l' r -> ~ out_of_bounds o l.
  Proof. destruct 1; cbn; try tauto; rewrite app_length; cbn; lia. Qed.
  Lemma run_history os : forall s, match run s os with
    | Done (s', rs) => history os (items s) (items s') rs
    | Panic => exists os1 o os2 l rs, os = os1 ++ o :: os2 /\ history os1 (items s) l rs /\ out_of_bounds o l
    end.
  Proof.
    induction os as [|o os IH]; intros s; cbn [run]; [constructor|]. assert (H := step_does s o). destruct (step s o) as [[s1 r]|].
    - specialize (IH s1). destruct (run s1 os) as [[s2 rs]|]; cbn [rmap fst snd].
      + econstructor; eassumption.
      + destruct IH as (os1 & o' & os2 & l & rs & -> & H1 & H2). exists (o :: os1), o', os2, l, (r :: rs). split; [reflexivity|]. split; [|exact H2]. econstructor; eassumption.
    - exists [], o, os, (items s), []. split; [reflexivity|]. split; [constructor|exact H].
  Qed.
  Lemma does_step o l l' r : does o l l' r -> forall t c e, exists s', step (Seq l t c e) o = Done (s', r) /\ items s' = l'.
  Proof.
    destruct 1; intros t c e; cbn [step items]; try (eexists; split; reflexivity).
    - assert (E : vec_insert (a ++ b) (length a) x = Done (a ++ x :: b)) by (induction a as [|y a IH]; cbn; [now destruct b|now rewrite IH]). rewrite E. eexists. split; reflexivity.
    - assert (E : vec_pop (l ++ [x]) = (l, Some x)). { induction l as [|y l IH]; [reflexivity|]. cbn [app vec_pop]. rewrite IH. now destruct l. } rewrite E. eexists. split; reflexivity.
    - assert (E : vec_remove (a ++ x :: b) (length a) = Done (a ++ b, x)) by (induction a as [|y a IH]; cbn; [reflexivity|now rewrite IH]). rewrite E. eexists. split; reflexivity.
    - unfold get. cbn [items]. assert (E : nth_error (a ++ x :: b) (length a) = Some x /\ vec_set (a ++ x :: b) (length a) y = a ++ y :: b) by (induction a as [|z a [IH1 IH2]]; cbn; [auto|now rewrite IH2]).
      destruct E as [-> ->]. eexists. split; reflexivity.
    - unfold get. cbn [items]. assert (E := set_spec l i y). rewrite (proj2 (nth_error_None l i) H) in *. destruct E as [_ ->]. eexists. split; reflexivity.
    - eexists. split; [reflexivity|]. cbn. induction H; cbn; congruence.
    - eexists. split; [reflexivity|]. now rewrite push_all.
  Qed.
  Lemma does_det o l l1 r1 l2 r2 : does o l l1 r1 -> does o l l2 r2 -> l1 = l2 /\ r1 = r2.
  Proof.
    intros H1 H2. destruct (does_step _ _ _ _ H1 REmpty false false) as (s1 & E1 & <-). destruct (does_step _ _ _ _ H2 REmpty false false) as (s2 & E2 & <-). rewrite E1 in E2. injection E2 as -> ->. auto.
  Qed.
  Lemma history_det os : forall l l1 r1 l2 r2, history os l l1 r1 -> history os l l2 r2 -> l1 = l2 /\ r1 = r2.
  Proof.
    induction os as [|o os IH]; intros l l1 r1 l2 r2 H1 H2; inversion H1 as [|? ? ? ? ? ? ? D1 G1]; inversion H2 as [|? ? ? ? ? ? ? D2 G2]; subst; [auto|].
    destruct (does_det _ _ _ _ _ _ D1 D2) as [-> ->]. destruct (IH _ _ _ _ _ G1 G2) as [-> ->]. auto.
  Qed.
  Lemma run_complete os : forall l l' rs t c e, history os l l' rs -> exists s', run (Seq l t c e) os = Done (s', rs) /\ items s' = l'.
  Proof.
    induction os as [|o os IH]; intros l l' rs t c e H; inversion H as [|? ? ? l1 ? r ? D G]; subst; [eexists; split; reflexivity|].
    destruct (does_step _ _ _ _ D t c e) as (s1 & E1 & <-). destruct s1 as [l1 t1 c1 e1]. cbn [items] in G. destruct (IH _ _ _ t1 c1 e1 G) as (s' & E2 & E3). exists s'. cbn [run]. rewrite E1, E2. auto.
  Qed.
  Lemma out_panics o l t c e : out_of_bounds o l -> step (Seq l t c e) o = Panic.
  Proof.
    destruct o; cbn [out_of_bounds]; try tauto; intros H; cbn [step items].
    - assert (S := insert_spec l i x). destruct (vec_insert l i x) as [l'|]; [|reflexivity]. destruct S as (a & b & -> & <- & _). rewrite app_length in H. lia.
    - assert (S := remove_spec l i). destruct (vec_remove l i) as [[l' x]|]; [|reflexivity]. destruct S as (a & b & -> & <- & _). rewrite app_length in H. cbn in H. lia.
  Qed.
  Lemma run_app a b : forall s s' rs, run s a = Done (s', rs) -> run s' b = Panic -> run s (a ++ b) = Panic.
  Proof.
    induction a as [|o a IH]; intros s s' rs H1 H2; cbn [run app] in *; [now injection H1 as <- _|]. destruct (step s o) as [[s1 r]|]; [|discriminate]. destruct (run s1 a) as [[s2 rs2]|] eqn:E; [|discriminate]. cbn in H1. injection H1 as <- _. now rewrite (IH _ _ _ E H2).
  Qed.
  Lemma step_settings s o s' r : step s o = Done (s', r) ->
    trailing s' = latest (fun o => match o with OTrailing r => Some r | _ => None end) [o] (trailing s) /\
    comma s' = latest (fun o => match o with OComma y => Some y | _ => None end) [o] (comma s) /\
    expand s' = latest (fun o => match o with OExpand y => Some y | _ => None end) [o] (expand s).
  Proof.
    destruct o; cbn [step latest]; intros E; repeat match type of E with context [rmap _ ?x] => destruct x; cbn [rmap] in E | context [vec_pop ?x] => destruct (vec_pop x) end; try discriminate; injection E as <- _; auto. rewrite push_all. auto.
  Qed.
  Lemma latest_cons {B} (f : op A -> option B) o os d : latest f (o :: os) d = latest f os (latest f [o] d).
  Proof. cbn [latest]. now destruct (f o). Qed.
  Lemma run_settings os : forall s s' rs, run s os = Done (s', rs) ->
    trailing s' = latest (fun o => match o with OTrailing r => Some r | _ => None end) os (trailing s) /\
    comma s' = latest (fun o => match o with OComma y => Some y | _ => None end) os (comma s) /\
    expand s' = latest (fun o => match o with OExpand y => Some y | _ => None end) os (expand s).
  Proof.
    induction os as [|o os IH]; intros s s' rs E; cbn [run] in E; [now injection E as <- _|]. destruct (step s o) as [[s1 r]|] eqn:S; [|discriminate]. destruct (run s1 os) as [[s2 rs2]|] eqn:R; [|discriminate]. cbn in E. injection E as <- _.
    apply IH in R as (-> & -> & ->). apply step_settings in S as (-> & -> & ->). rewrite !(latest_cons _ o os). auto.
  Qed.
  Lemma step_good P T s o s' r : good P T s -> puts P T o -> step s o = Done (s', r) -> good P T s'.
  Proof.
    intros [G1 G2] HP E. assert (D := step_does s o). rewrite E in D. split.
    - clear E. destruct D; cbn [puts] in HP; rewrite ?Forall_app, ?Forall_cons_iff in *; try tauto; try (now intuition).
      induction H; [constructor|]. inversion G1; subst. constructor; auto.
    - destruct o; cbn [step] in E; repeat match type of E with context [match ?x with _ => _ end] => destruct x | context [rmap _ ?x] => destruct x; cbn [rmap] in E | context [vec_pop ?x] => destruct (vec_pop x) end; try discriminate; injection E as <- _; try exact G2; try exact HP. rewrite push_all. exact G2.
  Qed.
  Lemma run_good P T os : forall s s' rs, good P T s -> Forall (puts P T) os -> run s os = Done (s', rs) -> good P T s'.
  Proof.
    induction os as [|o os IH]; intros s s' rs G F E; cbn [run] in E; [now injection E as <- _|]. apply Forall_cons_iff in F as [F1 F2]. destruct (step s o) as [[s1 r]|] eqn:S; [|discriminate].
    destruct (run s1 os) as [[s2 rs2]|] eqn:R; [|discriminate]. cbn in E. injection E as <- _. eapply IH; [|exact F2|exact R]. eapply step_good; eassumption.
  Qed.
End List.

(** ** The text *)
Open Scope N_scope.
Lemma gaps_app n : forall p a b, (List.length a <= n)%nat -> gaps true false p a = true -> gaps true false Between b = true -> gaps true false p (a ++ b) = true.
Proof.
  induction n as [|n IH]; intros p a b L H1 H2; (destruct a as [|c a]; [destruct p; cbn in H1; try discriminate; exact H2|]); cbn in L; [lia|].
  destruct p; cbn [gaps app] in *.
  - destruct ((c =? 32) || (c =? 9)); [apply IH; auto; lia|]. destruct ((c =? 10) || (c =? 13)); [apply IH; auto; lia|]. destruct (c =? 35); [apply IH; auto; lia|]. destruct (c =? 47); [|discriminate].
    destruct a as [|d a]; [discriminate|]. cbn [app] in *. cbn in L. destruct (d =? 47); [apply IH; auto; lia|]. destruct (d =? 42); [apply IH; auto; lia|discriminate].
  - destruct (c =? 10); [apply IH; auto; lia|]. destruct (c =? 13).
    + destruct a as [|d a]; [discriminate|]. cbn [app] in *. cbn in L. destruct (d =? 10); [|discriminate]. apply IH; auto; lia.
    + apply IH; auto; lia.
  - destruct (c =? 42).
    + destruct a as [|d a]; [discriminate|]. change ((d :: a) ++ b) with (d :: a ++ b). cbv iota. destruct (d =? 47); [apply IH; auto; cbn in L; lia|].
      change (d :: a ++ b) with ((d :: a) ++ b). apply IH; auto; lia.
    + apply IH; auto; lia.
Qed.
Lemma gap_app a b : gap true a = true -> gap true b = true -> gap true (a ++ b) = true.
Proof. unfold gap. intros. now apply (gaps_app (List.length a)). Qed.

(** The text before the closing bracket as a part of the last element. *)
Definition absorb (t : raw) (e : xexpr) : xexpr := x_upd (set_suffix (raw_of_str (suf NO (x_meta e) ++ raw_enc t []))) e.
Fixpoint absorb_last (t : raw) (l : list xexpr) : list xexpr :=
  match l with [] => [] | [e] => [absorb t e] | e :: l => e :: absorb_last t l end.
Lemma bare_upd f e : bare (x_upd f e) = bare e.
Proof. now destruct e. Qed.
Lemma bare_absorb t l : map bare (absorb_last t l) = map bare l.
Proof.
  induction l as [|e l IH]; [reflexivity|]. destruct l as [|e' l]; [cbn; unfold absorb; now rewrite bare_upd|]. change (absorb_last t (e :: e' :: l)) with (e :: absorb_last t (e' :: l)). cbn [map]. now rewrite IH.
Qed.
Lemma raw_text s d : raw_enc (raw_of_str s) d = s.
Proof. now destruct s. Qed.
Section Text.
  Context (u : unicode) (b : build) (pf : str -> f64) (sf : f64 -> str).
  Notation ok := (ok u b pf sf).
  Notation text := (x_text sf).
  Notation elem := (elem u b pf sf).
  Notation callee := (callee u).
  Lemma ok_upd q h fl f e : ok q h fl (x_upd f e) = ok q h fl e.
  Proof. now destruct e. Qed.
  Lemma text_upd q f e : text q (x_upd f e) = text q e.
  Proof. now destruct e. Qed.
  Lemma meta_upd f e : x_meta (x_upd f e) = f (x_meta e).
  Proof. now destruct e. Qed.
  Lemma sticky_upd f e : sticky (x_upd f e) = sticky e.
  Proof. now destruct e. Qed.
  Lemma absorb_ok q t e : gap true (raw_enc t []) = true -> elem q e -> elem q (absorb t e).
  Proof.
    intros Ht [[T1 T2] H]. unfold absorb. split; [split|].
    - rewrite meta_upd. exact T1.
    - rewrite meta_upd. unfold suf, enc_suffix, set_suffix. cbn [m_decor d_suffix]. rewrite raw_text. now apply gap_app.
    - unfold sub in *. now rewrite ok_upd, sticky_upd.
  Qed.
  Lemma absorb_list_ok q t l : gap true (raw_enc t []) = true -> lall (elem q) l -> lall (elem q) (absorb_last t l).
  Proof.
    intros Ht. induction l as [|e l IH]; [auto|]. intros [H1 H2]. destruct l as [|e' l]; [split; [now apply absorb_ok|exact I]|]. split; [exact H1|now apply IH].
  Qed.
  Lemma absorb_text q t df e : snd df = [] -> text_in (text q) df (absorb t e) = text_in (text q) df e ++ raw_enc t [].
  Proof.
    destruct df as [d1 d2]. cbn [snd]. intros ->. unfold text_in, around, absorb. rewrite meta_upd, text_upd. unfold pre, suf, enc_prefix, enc_suffix, set_suffix, NO. cbn [m_decor d_suffix d_prefix snd fst]. rewrite raw_text. now rewrite <- !app_assoc.
  Qed.
  Lemma absorb_commas q t l : l <> [] -> commas (text_in (text q)) (absorb_last t l) = commas (text_in (text q)) l ++ raw_enc t [].
  Proof.
    destruct l as [|e l]; [congruence|]. intros _. destruct l as [|e' l].
    - cbn [absorb_last commas flat_map]. rewrite !app_nil_r. now apply absorb_text.
    - change (absorb_last t (e :: e' :: l)) with (e :: absorb_last t (e' :: l)). unfold commas. rewrite <- app_assoc. f_equal. revert e'. induction l as [|e2 l IH]; intros e'.
      + cbn [absorb_last flat_map]. rewrite !app_nil_r, absorb_text, <- app_assoc by reflexivity. reflexivity.
      + change (absorb_last t (e' :: e2 :: l)) with (e' :: absorb_last t (e2 :: l)). cbn [flat_map] in *. rewrite IH, <- !app_assoc. reflexivity.
  Qed.
  Lemma absorb_nil t l : l <> [] -> absorb_last t l <> [].
  Proof. destruct l as [|e [|e' l]]; [congruence|discriminate|discriminate]. Qed.

  Lemma elems_lall q l : Forall (elem q) l <-> lall (elem q) l.
  Proof. induction l as [|e l IH]; cbn [lall]; [split; auto|]. rewrite Forall_cons_iff, IH. tauto. Qed.
  Lemma elems_even q l : lall (elem q) l -> lall even l.
  Proof.
    intros H. apply (lall_imp (elem q)); [|exact H]. apply Forall_forall. intros e _ [_ H']. exact (proj1 (ok_even u b pf sf) e _ _ _ H').
  Qed.
  Lemma shown e : snug (x_meta e) -> even e -> show_expr sf e = text false e.
  Proof.
    intros [S1 S2] H. unfold show_expr, x_enc, xdec, deco, cat, wr. rewrite (even_expr sf e H). cbn [fst snd]. fold (pre NO (x_meta e)) (suf NO (x_meta e)) in *. unfold pre, suf in *. rewrite S1, S2. cbn. now rewrite ?app_nil_r.
  Qed.

  (** An array or call with the same text and the same elements, for which the rules are followed. *)
  Definition norm_array (m : meta) (l : list xexpr) (c : bool) (t : raw) : xexpr :=
    match l with [] => XArr m [] false t | _ => if c then XArr m l true t else XArr m (absorb_last t l) false REmpty end.
  Lemma norm_array_ok m l c t : snug m -> lall (elem false) l -> raw_gap t ->
    let e := norm_array m l c t in
    sub (ok false) false e /\ snug (x_meta e) /\ show_expr sf e = show_expr sf (XArr m l c t) /\ exists l' c' t', bare e = bare (XArr m l' c' t') /\ map bare l' = map bare l.
  Proof.
    intros Hm Hl Ht. assert (EV := elems_even _ _ Hl). cbn zeta.
    assert (G : raw_gap REmpty) by (split; reflexivity).
    destruct l as [|x l].
    - cbn [norm_array]. split; [split; [exact I|split; [exact Ht|reflexivity]]|]. split; [exact Hm|]. split; [rewrite !shown; auto; reflexivity|]. exists [], false, t. auto.
    - destruct c.
      + cbn [norm_array]. split; [split; [exact Hl|split; [exact Ht|discriminate]]|]. split; [exact Hm|]. split; [reflexivity|]. exists (x :: l), true, t. auto.
      + assert (N : x :: l <> []) by discriminate. unfold norm_array. revert N Hl EV. generalize (x :: l). clear x l. intros l N Hl EV. destruct Ht as [Tc Tg].
        assert (Ha := absorb_list_ok _ t l Tg Hl). assert (Na := absorb_nil t l N).
        destruct l as [|x l]; [congruence|]. set (L := x :: l) in *. cbv iota.
        split; [split; [exact Ha|split; [exact G|]]|].
        { destruct (absorb_last t L); [congruence|auto]. }
        split; [exact Hm|]. split.
        * rewrite !shown; auto; [|exact (elems_even _ _ Ha)]. cbn [BackSpec.x_text]. rewrite absorb_commas by exact N. destruct (absorb_last t L) eqn:E; [congruence|]. unfold L. cbn [raw_enc raw_str app]. now rewrite <- !app_assoc.
        * exists (absorb_last t L), false, REmpty. split; [reflexivity|apply bare_absorb].
  Qed.
  Definition norm_call (m : meta) (ns : list did) (n : did) (am : meta) (l : list xexpr) (ex co : bool) (t : raw) : xexpr :=
    match l with
    | [] => XCall m ns n am [] false false t
    | _ => if ex then XCall m ns n am l true false t else if co then XCall m ns n am l false true t else XCall m ns n am (absorb_last t l) false false REmpty
    end.
  Lemma norm_call_ok m ns n am l ex co t : snug m -> callee ns n am -> lall (elem false) l -> raw_gap t ->
    let e := norm_call m ns n am l ex co t in
    sub (ok false) false e /\ snug (x_meta e) /\ show_expr sf e = show_expr sf (XCall m ns n am l ex co t) /\
    exists l' co' t', bare e = bare (XCall m ns n am l' (match l with [] => false | _ => ex end) co' t') /\ map bare l' = map bare l.
  Proof.
    intros Hm (C1 & C2 & C3) Hl Ht. assert (EV := elems_even _ _ Hl). cbn zeta.
    assert (G : raw_gap REmpty) by (split; reflexivity).
    assert (O : forall l ex co t, lall (elem false) l -> closing l (ex || co) t -> (ex = true -> co = false) -> ok false false true (XCall m ns n am l ex co t)).
    { intros l0 ex0 co0 t0 H1 H2 H3. cbn [BackSpec.ok]. repeat (split; [assumption|]). assumption. }
    destruct l as [|x l].
    - cbn [norm_call]. split; [apply O; [exact I|split; [exact Ht|reflexivity]|discriminate]|]. split; [exact Hm|]. split; [rewrite !shown; auto; reflexivity|]. exists [], false, t. auto.
    - assert (N : x :: l <> []) by discriminate. unfold norm_call. revert N Hl EV. set (L := x :: l). intros N Hl EV. change (match L with [] => false | _ => ex end) with ex. unfold L at 1. cbv iota. destruct ex; [|destruct co].
      + split; [apply O; [exact Hl|split; [exact Ht|discriminate]|reflexivity]|]. split; [exact Hm|]. split; [rewrite !shown; auto; reflexivity|]. exists L, false, t. auto.
      + split; [apply O; [exact Hl|split; [exact Ht|discriminate]|discriminate]|]. split; [exact Hm|]. split; [reflexivity|]. exists L, true, t. auto.
      + destruct Ht as [Tc Tg]. assert (Ha := absorb_list_ok _ t L Tg Hl). assert (Na := absorb_nil t L N).
        split; [apply O; [exact Ha|split; [exact G|]|discriminate]|]. { destruct (absorb_last t L); [congruence|auto]. }
        split; [exact Hm|]. split.
        * rewrite !shown; auto; [|exact (elems_even _ _ Ha)]. cbn [BackSpec.x_text]. rewrite absorb_commas by exact N. destruct (absorb_last t L) eqn:E; [congruence|]. unfold L. cbn [orb raw_enc raw_str app]. unfold around. now rewrite <- !app_assoc.
        * exists (absorb_last t L), false, REmpty. split; [reflexivity|apply bare_absorb].
  Qed.

  Lemma array_read m s : ascii_exact u -> snug m -> good (elem false) raw_gap s ->
    exists m' l c t, parse_expr u b pf (show_expr sf (array_of m s)) = Parsed (XArr m' l c t) /\ map bare l = map bare (items s).
  Proof.
    intros HU Hm [G1 G2]. apply elems_lall in G1. destruct (norm_array_ok m (items s) (comma s) (trailing s) Hm G1 G2) as (H1 & H2 & H3 & l' & c' & t' & H4 & H5).
    destruct (C46_expressions_partial u b pf sf _ HU H1 H2) as (e' & P & B). rewrite H3 in P. rewrite H4 in B. cbn [bare] in B. destruct e'; cbn [bare] in B; try discriminate. injection B as B _ _.
    eexists _, _, _, _. split; [exact P|]. congruence.
  Qed.
  Lemma call_read m ns n am s : ascii_exact u -> snug m -> callee ns n am -> good (elem false) raw_gap s ->
    exists m' ns' n' am' l ex co t, parse_expr u b pf (show_expr sf (call_of m ns n am s)) = Parsed (XCall m' ns' n' am' l ex co t) /\
      map i_name (ns' ++ [n']) = map i_name (ns ++ [n]) /\ map bare l = map bare (items s) /\ ex = match items s with [] => false | _ => expand s end.
  Proof.
    intros HU Hm HC [G1 G2]. apply elems_lall in G1. destruct (norm_call_ok m ns n am (items s) (expand s) (comma s) (trailing s) Hm HC G1 G2) as (H1 & H2 & H3 & l' & c' & t' & H4 & H5).
    destruct (C46_expressions_partial u b pf sf _ HU H1 H2) as (e' & P & B). rewrite H3 in P. rewrite H4 in B. cbn [bare] in B. destruct e'; cbn [bare] in B; try discriminate. injection B as B1 B2 B3 B4 B5 B6.
    eexists _, _, _, _, _, _, _, _. split; [exact P|]. split; [|split; congruence].
    rewrite !map_app. cbn [map]. f_equal.
    - apply (f_equal (map i_name)) in B1. rewrite !map_map in B1. exact B1.
    - f_equal. exact B2.
  Qed.
End Text.

(** ** Templates *)
Definition lits_plain (es : list xelem) : Prop := Forall (fun e => match e with XLit _ s => no_adjacent_marks s = true | _ => True end) es.
Lemma no_adj_app a b : no_adjacent_marks (a ++ b) = true -> no_adjacent_marks a = true /\ no_adjacent_marks b = true.
Proof.
  induction a as [|c a IH]; [auto|]. cbn [app no_adjacent_marks]. intros H. apply andb_true_iff in H as [H1 H2]. apply IH in H2 as [H2 H3]. split; [|exact H3]. rewrite H2, andb_true_r. destruct a as [|d a]; [|exact H1]. now rewrite andb_false_r.
Qed.
Lemma escape_cons c r : no_adjacent_marks (c :: r) = true -> escape_markers (c :: r) = match r with d :: _ => if is_mark c && (d =? 123) then [c] else [] | [] => [] end ++ c :: escape_markers r.
Proof.
  assert (L : forall n s, (List.length s <= n)%nat -> no_adjacent_marks s = true -> escape_loop s = escape_markers s).
  { induction n as [|n IH]; intros s Hl H; [destruct s; [reflexivity|cbn in Hl; lia]|]. destruct s as [|x s]; [reflexivity|]. destruct s as [|y s]; [cbn; now destruct (is_mark x)|]. cbn [escape_markers]. destruct (is_mark x) eqn:M; cbn [andb].
    - destruct (y =? 123) eqn:B; [reflexivity|]. cbn [escape_loop]. rewrite M, B. f_equal. cbn [no_adjacent_marks] in H. rewrite M in H. cbn [andb] in H. apply andb_true_iff in H as [H1 H2]. apply negb_true_iff in H1. apply andb_true_iff in H2 as [_ H2].
      rewrite IH by (cbn in Hl; auto; lia). destruct s as [|z s]; [reflexivity|]. now rewrite H1.
    - cbn [no_adjacent_marks] in H. apply andb_true_iff in H as [_ H2]. change (escape_loop (x :: y :: s)) with (if is_mark x then match y :: s with [] => [x] | c2 :: r' => if c2 =? 123 then x :: x :: c2 :: escape_loop r' else x :: c2 :: escape_loop r' end else x :: escape_loop (y :: s)). rewrite M. f_equal. apply IH; [cbn in *; lia|]. exact H2. }
  intros H. destruct r as [|d r]; [reflexivity|]. cbn [escape_markers]. destruct (is_mark c && (d =? 123)) eqn:E; [|reflexivity]. apply andb_true_iff in E as [M B].
  cbn [escape_loop]. rewrite M, B. cbn [app]. do 2 f_equal. cbn [no_adjacent_marks] in H. apply andb_true_iff in H as [_ H]. apply andb_true_iff in H as [_ H]. apply N.eqb_eq in B. subst d.
  rewrite (L _ _ (le_n _) H). destruct r as [|z r]; reflexivity.
Qed.
Lemma escape_app a : forall b, no_adjacent_marks (a ++ b) = true -> is_mark (last a 0) && (match b with c :: _ => c =? 123 | [] => false end) = false -> escape_markers (a ++ b) = escape_markers a ++ escape_markers b.
Proof.
  induction a as [|c a IH]; intros b H S; [reflexivity|]. change ((c :: a) ++ b) with (c :: a ++ b) in *. rewrite escape_cons by exact H. rewrite escape_cons by (change (c :: a ++ b) with ((c :: a) ++ b) in H; now apply no_adj_app in H).
  cbn [no_adjacent_marks] in H. apply andb_true_iff in H as [_ H]. destruct a as [|d a].
  - cbn [app last] in *. destruct b as [|x b]; [reflexivity|]. now rewrite S.
  - rewrite IH; [|exact H|exact S]. cbn [app]. rewrite <- app_assoc. reflexivity.
Qed.
Section Templates.
  Context (u : unicode) (b : build) (pf : str -> f64) (sf : f64 -> str).
  Lemma joined_text es : lits_plain (joined es) -> seams es -> flat_map (elem_text sf false) (joined es) = flat_map (elem_text sf false) es.
  Proof.
    induction es as [|e es IH]; [reflexivity|]. cbn [joined seams]. intros H [S1 S2]. destruct e as [sp s| | |].
    2,3,4: apply Forall_cons_iff in H as [_ H]; cbn [flat_map]; now rewrite IH.
    destruct s as [|c s]; [cbn [flat_map]; now rewrite IH|]. remember (c :: s) as s' eqn:E. assert (H' : lits_plain (joined es)).
    { destruct (joined es) as [|[sp' s2| | |] j]; rewrite E in H; try (apply Forall_cons_iff in H as [_ H]; exact H). rewrite <- E in H. apply Forall_cons_iff in H as [H1 H]. constructor; [now apply no_adj_app in H1|exact H]. }
    specialize (IH H' S2). destruct (joined es) as [|[sp' s2| | |] j] eqn:J; rewrite E in H |- *; rewrite <- E in H |- *.
    2: { cbn [flat_map]. rewrite <- IH. cbn [flat_map]. rewrite app_assoc. f_equal. change (escape_markers (s' ++ s2) = escape_markers s' ++ escape_markers s2). apply Forall_cons_iff in H as [H _]. apply escape_app; [exact H|]. destruct s2; [now rewrite andb_false_r|exact S1]. }
    all: cbn [flat_map]; rewrite <- IH; reflexivity.
  Qed.
  Lemma joined_ok es : lall (elem_ok u b pf sf false) es -> lall (elem_ok u b pf sf false) (joined es).
  Proof.
    induction es as [|e es IH]; [auto|]. intros [H1 H2]. specialize (IH H2). destruct e as [sp [|c s]| | |]; cbn [joined]; [exact IH| |now split..]. destruct (joined es) as [|[] j]; try (split; [exact I|exact IH]). destruct IH as [_ IH]. now split.
  Qed.
  Lemma joined_apart es : apart (joined es) = true.
  Proof.
    induction es as [|e es IH]; [reflexivity|]. destruct e as [sp [|c s]| | |]; cbn [joined]; [exact IH| |destruct (joined es); cbn; auto..]. destruct (joined es) as [|[] j]; try exact IH; try reflexivity.
  Qed.
  Lemma lits_weak (F G : str -> N -> Prop) k es : (forall s c, F s c -> G s c) -> lits F k es -> lits G k es.
  Proof. intros HI. induction es as [|[] es IH]; cbn [lits]; auto. intros (H1 & H2 & H3 & H4 & H5). auto 6. Qed.
  Lemma lits_lits k es : lits (fun s _ => no_adjacent_marks s = true) k es -> lits_plain es.
  Proof. induction es as [|[] es IH]; cbn [lits]; intros H; constructor; auto; try (now apply IH). apply H. Qed.
  Lemma template_read es sp : ascii_exact u -> lall (elem_ok u b pf sf false) es -> lits (fun s _ => no_adjacent_marks s = true) 0 (joined es) -> seams es ->
    exists t', parse_template u b pf (show_tpl sf (XTempl es sp)) = Parsed t' /\ bare_tpl t' = bare_tpl (XTempl (joined es) None).
  Proof.
    intros HU H1 H2 H3. assert (EV : forall es, lall (elem_ok u b pf sf false) es -> lall even_elem es).
    { intros l Hl. exact (proj1 (proj2 (proj2 (proj2 (proj2 (proj2 (proj2 (ok_even u b pf sf))))))) (XTempl l None) false Hl). }
    destruct (C46_templates_partial u b pf sf (joined es) None HU (joined_ok _ H1) (joined_apart es) (lits_weak _ _ _ _ (fun _ _ _ => I) H2)) as (t' & P & B).
    exists t'. split; [|exact B]. rewrite <- P. unfold show_tpl. rewrite !even_template by (apply EV; auto; now apply joined_ok). cbn [fst]. now rewrite joined_text by (auto; now apply (lits_lits 0)).
  Qed.
End Templates.

(** * Proofs of the properties of the parser as a whole *)
From Coq Require Import NArith ZArith Arith Bool String List Lia.
From Verif Require Import Res Str Dec NumberModel NumberProofs PrimModel EAst EAstInd ParseBase ParseModel Grammar ParseLemmas ParseSound
  ParseSoundRec PrattSpec PrattProofs ParseTop ParseSpec.
Import ListNotations.
Open Scope N_scope.

(** ** Resolving spans *)
Lemma good_resolved I r : good_raw I r -> resolved I r (raw_despan I r) /\ raw_ok I r = true.
Proof.
  intros H. split; [|now apply good_raw_ok]. destruct H as [->|(o & t & Ht & Hn & Ha & ->)]; [constructor|].
  cbn [raw_despan]. rewrite (at_slice _ _ _ Ha). destruct Ha as (pre & post & -> & <-).
  destruct t as [|c t]; [congruence|]. now apply (Resolved _ pre (c :: t) post).
Qed.
Lemma all_resolved I l : Forall (good_raw I) l ->
  forallb (raw_ok I) l = true /\ Forall2 (resolved I) l (map (raw_despan I) l).
Proof.
  induction 1 as [|r l H _ [IH1 IH2]]; [split; constructor|]. destruct (good_resolved I r H) as [H1 H2].
  cbn [forallb map]. rewrite H2, IH1. split; [reflexivity|now constructor].
Qed.

Section Facts.
  Context (u : unicode) (b : build) (pf : str -> f64) (I : str).
  Notation gb := (gbody u b pf pratt_group items_insert).
  Notation ge := (gexpr u b pf pratt_group items_insert).
  Notation gs := (gelems u b pf pratt_group items_insert).
  Lemma at_all : at_ I 0 I.
  Proof. exists [], []. rewrite app_nil_r. auto. Qed.
  Lemma body_good ops x : gb 0 I x -> Forall (good_raw I) (body_raws ops x).
  Proof.
    intros H. destruct (all_struct_ok u b pf pratt_group items_insert I ops (pratt_ok I ops) (insert_ok I ops)) as (_ & _ & Hb & _).
    apply (Hb 0 I x H at_all).
  Qed.
  Lemma expr_good ops x : ge 0 I x -> Forall (good_raw I) (x_raws ops x).
  Proof.
    intros H. destruct (all_ok u b pf pratt_group items_insert I ops (pratt_ok I ops) (insert_ok I ops)) as (Hb & _).
    apply (Hb 0 I x H at_all).
  Qed.
  Lemma elems_good ops x : gs 0 I x -> Forall (good_raw I) (flat_map (elem_raws ops) x).
  Proof.
    intros H. destruct (all_ok u b pf pratt_group items_insert I ops (pratt_ok I ops) (insert_ok I ops))
      as (_ & _ & _ & _ & _ & _ & _ & _ & _ & _ & _ & _ & Hb & _).
    apply (Hb 0 I x H at_all).
  Qed.
  Definition raw_body := parse_body_raw u b pf pratt_group items_insert I.
  Definition raw_expr := parse_expr_raw u b pf pratt_group items_insert I.
  Definition raw_tpl := parse_tpl_raw u b pf pratt_group items_insert I.
  Lemma raw_body_spec : match raw_body with
    | Parsed a => gb 0 I a | ParseError k => boundary I k | ParsePanic => bad b pf I | ParseFuel => False end.
  Proof. apply (parse_body_spec u b pf pratt_group items_insert pratt_group_total). Qed.
  Lemma raw_expr_spec : match raw_expr with
    | Parsed a => ge 0 I a | ParseError k => boundary I k | ParsePanic => bad b pf I | ParseFuel => False end.
  Proof. apply (parse_expr_spec u b pf pratt_group items_insert pratt_group_total). Qed.
  Lemma raw_tpl_spec : match raw_tpl with
    | Parsed a => exists es, a = XTempl es None /\ gs 0 I es
    | ParseError k => boundary I k | ParsePanic => bad b pf I | ParseFuel => False end.
  Proof. apply (parse_tpl_spec u b pf pratt_group items_insert pratt_group_total). Qed.

  Lemma body_despan_ok x : raw_body = Parsed x ->
    parse_body u b pf I = Parsed (body_map (raw_despan I) leave x) /\
    Forall2 (resolved I) (body_raws false x) (body_raws false (body_map (raw_despan I) leave x)) /\
    Forall (good_raw I) (body_raws true (body_map (raw_despan I) leave x)) /\
    body_map forget leave (body_map (raw_despan I) leave x) = body_map forget leave x.
  Proof.
    intros E. pose proof raw_body_spec as S. rewrite E in S.
    destruct (all_resolved I _ (body_good false x S)) as [H1 H2].
    unfold parse_body, parse_body_with, finish. unfold raw_body in E. rewrite E. unfold body_despan. rewrite H1.
    split; [reflexivity|]. destruct (body_raws_map (raw_despan I) leave false) as [_ Hm]. rewrite Hm. split; [exact H2|].
    destruct (body_raws_map (raw_despan I) leave true) as [_ Hm']. rewrite Hm'. unfold leave at 1. rewrite map_id.
    split; [now apply body_good|]. exact (proj2 (body_map_map (raw_despan I) leave forget leave) x).
  Qed.
  Lemma expr_despan_ok x : raw_expr = Parsed x ->
    parse_expr u b pf I = Parsed (x_map (raw_despan I) leave x) /\
    Forall2 (resolved I) (x_raws false x) (x_raws false (x_map (raw_despan I) leave x)) /\
    Forall (good_raw I) (x_raws true (x_map (raw_despan I) leave x)) /\
    x_map forget leave (x_map (raw_despan I) leave x) = x_map forget leave x.
  Proof.
    intros E. pose proof raw_expr_spec as S. rewrite E in S.
    destruct (all_resolved I _ (expr_good false x S)) as [H1 H2].
    unfold parse_expr, parse_expr_with, finish. unfold raw_expr in E. rewrite E. unfold x_despan. rewrite H1.
    split; [reflexivity|]. destruct (raws_map (raw_despan I) leave false) as [Hm _]. rewrite Hm. split; [exact H2|].
    destruct (raws_map (raw_despan I) leave true) as [Hm' _]. rewrite Hm'. unfold leave at 1. rewrite map_id.
    split; [now apply expr_good|]. exact (proj1 (x_map_map (raw_despan I) leave forget leave) x).
  Qed.
  Lemma tpl_despan_ok x : raw_tpl = Parsed x ->
    parse_template u b pf I = Parsed (tpl_map (raw_despan I) leave x) /\
    Forall2 (resolved I) (tpl_raws false x) (tpl_raws false (tpl_map (raw_despan I) leave x)) /\
    Forall (good_raw I) (tpl_raws true (tpl_map (raw_despan I) leave x)) /\
    tpl_map forget leave (tpl_map (raw_despan I) leave x) = tpl_map forget leave x.
  Proof.
    intros E. pose proof raw_tpl_spec as S. rewrite E in S. destruct S as (es & -> & S).
    destruct (all_resolved I _ (elems_good false es S)) as [H1 H2].
    unfold parse_template, parse_tpl_with, finish. unfold raw_tpl in E. rewrite E. unfold tpl_despan.
    change (tpl_raws false (XTempl es None)) with (flat_map (elem_raws false) es). rewrite H1.
    split; [reflexivity|]. destruct (raws_map (raw_despan I) leave false) as (_ & _ & _ & _ & _ & _ & Hm & _). rewrite Hm.
    split; [exact H2|].
    destruct (raws_map (raw_despan I) leave true) as (_ & _ & _ & _ & _ & _ & Hm' & _). rewrite Hm'. unfold leave at 1. rewrite map_id.
    split; [now apply elems_good|].
    destruct (x_map_map (raw_despan I) leave forget leave) as (_ & _ & _ & _ & _ & _ & Ht & _). apply Ht.
  Qed.

  (** ** Totality *)
  Lemma body_total : match parse_body u b pf I with
    | Parsed _ => True | ParseError k => boundary I k | ParsePanic => bad b pf I | ParseFuel => False end.
  Proof.
    pose proof raw_body_spec as S. destruct raw_body as [x|k| |] eqn:E.
    - destruct (body_despan_ok x E) as (-> & _). exact Logic.I.
    - unfold parse_body, parse_body_with. unfold raw_body in E. rewrite E. exact S.
    - unfold parse_body, parse_body_with. unfold raw_body in E. rewrite E. exact S.
    - destruct S.
  Qed.
  Lemma expr_total : match parse_expr u b pf I with
    | Parsed _ => True | ParseError k => boundary I k | ParsePanic => bad b pf I | ParseFuel => False end.
  Proof.
    pose proof raw_expr_spec as S. destruct raw_expr as [x|k| |] eqn:E.
    - destruct (expr_despan_ok x E) as (-> & _). exact Logic.I.
    - unfold parse_expr, parse_expr_with. unfold raw_expr in E. rewrite E. exact S.
    - unfold parse_expr, parse_expr_with. unfold raw_expr in E. rewrite E. exact S.
    - destruct S.
  Qed.
  Lemma tpl_total : match parse_template u b pf I with
    | Parsed _ => True | ParseError k => boundary I k | ParsePanic => bad b pf I | ParseFuel => False end.
  Proof.
    pose proof raw_tpl_spec as S. destruct raw_tpl as [x|k| |] eqn:E.
    - destruct (tpl_despan_ok x E) as (-> & _). exact Logic.I.
    - unfold parse_template, parse_tpl_with. unfold raw_tpl in E. rewrite E. exact S.
    - unfold parse_template, parse_tpl_with. unfold raw_tpl in E. rewrite E. exact S.
    - destruct S.
  Qed.
End Facts.

Lemma gnum_wf b pf d n : gnum b pf d n -> num_wf n.
Proof.
  intros H. destruct H as [d _ _ H|d r n _ _ _ H].
  - cbn. split; [lia|exact H].
  - unfold num_from_f64 in H. destruct (f64_finite (pf (d ++ r))) eqn:F; [|discriminate].
    destruct (from_finite_f64 b (pf (d ++ r))) as [m|] eqn:E; [|discriminate]. injection H as <-.
    apply (from_finite_wf _ _ _ E). unfold f64_finite in F. congruence.
Qed.
Lemma i64_arith_panic b z : i64_arith b z = Panic -> b = Debug /\ ~ (i64_min <= z <= i64_max)%Z.
Proof.
  unfold i64_arith, i64_ok. destruct ((i64_min <=? z)%Z && (z <=? i64_max)%Z) eqn:E; [discriminate|].
  destruct b; [|discriminate]. intros _. split; [reflexivity|]. intros [H1 H2].
  apply Z.leb_le in H1, H2. rewrite H1, H2 in E. discriminate.
Qed.
Lemma wrap_i64_min z : (0 <= z <= u64_max)%Z -> (wrap_i64 z = - 2 ^ 63 -> z = 2 ^ 63)%Z.
Proof.
  unfold wrap_i64, u64_max. intros H E.
  destruct (Z_lt_le_dec (z + 2 ^ 63) (2 ^ 64)) as [L|L].
  - rewrite Z.mod_small in E by lia. lia.
  - replace ((z + 2 ^ 63) mod 2 ^ 64)%Z with (z + 2 ^ 63 - 2 ^ 64)%Z in E; [lia|].
    apply Z.mod_unique with (q := 1%Z); [left; lia|lia].
Qed.
Lemma wrap_i64_range z : (- 2 ^ 63 <= wrap_i64 z < 2 ^ 63)%Z.
Proof. unfold wrap_i64. pose proof (Z.mod_pos_bound (z + 2 ^ 63) (2 ^ 64) ltac:(lia)). lia. Qed.
Lemma neg_panic b n : num_wf n -> num_neg b n = Panic -> b = Debug /\ (n = PosInt (2 ^ 63) \/ n = NegInt (- 2 ^ 63)).
Proof.
  intros W H. destruct n as [z|z|f]; cbn [num_neg num_wf] in *; [| |discriminate].
  - destruct (i64_arith b (- wrap_i64 z)) eqn:E; [discriminate|]. apply i64_arith_panic in E. destruct E as [-> E].
    split; [reflexivity|]. left. f_equal. apply wrap_i64_min; [exact W|]. pose proof (wrap_i64_range z). unfold i64_min, i64_max in E. lia.
  - destruct (i64_arith b (- z)) eqn:E; [discriminate|]. apply i64_arith_panic in E. destruct E as [-> E].
    split; [reflexivity|]. right. f_equal. unfold i64_min, i64_max in *. lia.
Qed.
Lemma bad_minus b pf I : bad b pf I -> b = Debug /\ minus_2_63 b pf I.
Proof.
  intros (x & z & d & y & n & E & Hz & Hd & Hn). pose proof (gnum_wf _ _ _ _ Hd) as W.
  destruct (neg_panic _ _ W Hn) as [-> H]. split; [reflexivity|]. exists x, z, d, y, n. auto.
Qed.

(** ** Unique keys *)
Lemma struct_upd_name f x : attr_key (struct_upd f x) = attr_key x.
Proof. now destruct x. Qed.
Lemma attr_names_cons x l : attr_names (x :: l) = opt_list (attr_key x) ++ attr_names l.
Proof. destruct x; reflexivity. Qed.
Definition sub_unique (x : xstruct) : Prop := match x with XBlock _ _ _ bd => unique_keys bd | _ => True end.
Lemma sub_unique_upd f x : sub_unique (struct_upd f x) <-> sub_unique x.
Proof. destruct x; reflexivity. Qed.
Lemma unique_body m l o n : NoDup (attr_names l) -> Forall sub_unique l -> unique_keys (XBody m l o n).
Proof.
  intros H1 H2. constructor; [exact H1|]. intros m' i ls bd Hi. rewrite Forall_forall in H2. exact (H2 _ Hi).
Qed.
Lemma unique_inv m l o n : unique_keys (XBody m l o n) -> NoDup (attr_names l) /\ Forall sub_unique l.
Proof.
  intros H. inversion H as [m' l' o' n' H1 H2]; subst. split; [exact H1|]. apply Forall_forall. intros [|m' i ls bd] Hi; [exact I|].
  eapply H2; eauto.
Qed.
Section Keys.
  Context (u : unicode) (b : build) (pf : str -> f64).
  Context (group : xexpr -> list (oper * xexpr) -> option xexpr).
  Context (obj_add : xitem -> list xitem -> list xitem).
  Notation gstruct := (gstruct u b pf group obj_add).
  Notation gblock := (gblock u b pf group obj_add).
  Notation gbody := (gbody u b pf group obj_add).
  Notation gstructs := (gstructs u b pf group obj_add).
  Lemma all_unique :
    (forall o t x, gstruct o t x -> sub_unique x) /\
    (forall o t x, gblock o t x -> unique_keys x) /\
    (forall o t x, gbody o t x -> unique_keys x) /\
    (forall ks o t l om, gstructs ks o t l om ->
       NoDup (attr_names l) /\ (forall k, In k (attr_names l) -> ~ In k ks) /\ Forall sub_unique l).
  Proof.
    apply gstruct_all; intros; subst.
    - exact I.
    - exact H3.
    - apply unique_body; constructor.
    - apply unique_body; [|repeat constructor; now apply sub_unique_upd].
      rewrite attr_names_cons, app_nil_r, struct_upd_name. destruct (attr_key x); repeat constructor; auto.
    - apply unique_inv in H3. now apply unique_body.
    - apply unique_body; tauto.
    - repeat split; try constructor; auto.
    - destruct H6 as (N & D & F). rewrite attr_names_cons, struct_upd_name. unfold fresh, add_key in *.
      destruct (attr_key x) as [k|] eqn:Ek; cbn [opt_list app] in *.
      + split; [constructor; [|exact N]|split].
        * intros Hk. apply (D k Hk). now left.
        * intros k' [<-|Hk]; [assumption|]. intros Hin. apply (D k' Hk). now right.
        * constructor; [now apply sub_unique_upd|exact F].
      + split; [exact N|]. split; [exact D|]. constructor; [now apply sub_unique_upd|exact F].
    - rewrite attr_names_cons, struct_upd_name. unfold fresh in *. rewrite app_nil_r.
      split; [destruct (attr_key x); repeat constructor; auto|]. split; [|repeat constructor; now apply sub_unique_upd].
      destruct (attr_key x) as [k|]; cbn; [intros k' [<-|[]]; assumption|intros _ []].
  Qed.
End Keys.
Lemma unique_map f g : (forall x, sub_unique x -> sub_unique (struct_map f g x)) /\
  (forall x, unique_keys x -> unique_keys (body_map f g x)).
Proof.
  apply xbody_all.
  - intros. exact I.
  - intros m i l b H Hs. exact (H Hs).
  - intros m l o n H Hu. apply unique_inv in Hu. destruct Hu as [Hn Hf]. cbn. fold (struct_map f g). apply unique_body.
    + replace (attr_names (map (struct_map f g) l)) with (attr_names l); [exact Hn|]. clear.
      induction l as [|x l IH]; [reflexivity|]. cbn [map]. rewrite !attr_names_cons, IH. destruct x; reflexivity.
    + rewrite Forall_map. rewrite Forall_forall in *. intros x Hx. apply H; auto.
Qed.
Lemma parsed_unique u b pf I x : parse_body u b pf I = Parsed x -> unique_keys x.
Proof.
  intros E. pose proof (raw_body_spec u b pf I) as S. destruct (raw_body u b pf I) as [y|k| |] eqn:E2.
  - destruct (body_despan_ok u b pf I y E2) as (E3 & _). rewrite E in E3. injection E3 as ->. apply unique_map.
    destruct (all_unique u b pf pratt_group items_insert) as (_ & _ & H & _). eapply H; exact S.
  - unfold parse_body, parse_body_with in E. unfold raw_body in E2. rewrite E2 in E. discriminate.
  - unfold parse_body, parse_body_with in E. unfold raw_body in E2. rewrite E2 in E. discriminate.
  - destruct S.
Qed.
Lemma resolved_text I l l' : Forall2 (resolved I) l l' -> forall r, In r l' -> ~ is_spanned r.
Proof. induction 1 as [|r r' l l' H _ IH]; intros x Hx; [destruct Hx|]. destruct Hx as [<-|Hx]; [destruct H; intros []|auto]. Qed.
Lemma body_nothing_left u b pf I y : parse_body u b pf I = Parsed y -> forall r, In r (body_raws false y) -> ~ is_spanned r.
Proof.
  intros E. pose proof (raw_body_spec u b pf I) as S. destruct (raw_body u b pf I) as [x|k| |] eqn:E2.
  - destruct (body_despan_ok u b pf I x E2) as (E3 & H2 & _). rewrite E in E3. injection E3 as ->.
    exact (resolved_text _ _ _ H2).
  - unfold parse_body, parse_body_with in E. unfold raw_body in E2. rewrite E2 in E. discriminate.
  - unfold parse_body, parse_body_with in E. unfold raw_body in E2. rewrite E2 in E. discriminate.
  - destruct S.
Qed.

(** * Trees returned by the parser are well-formed *)
From Coq Require Import NArith ZArith Bool String List Lia.
From Verif Require Import Res Str Dec NumberModel NumberProofs FloatProofs PrimModel Ast EAst EAstInd ParseBase ParseModel Grammar
  ParseSoundRec PrattSpec PrattProofs ParseTop ParseSpec ParseFacts EqSpec EqProofs.
Import ListNotations.
Open Scope N_scope.

Section Wf.
  Context (u : unicode) (b : build) (pf : str -> f64).
  Notation gexpr := (gexpr u b pf pratt_group items_insert).
  Notation gdx := (gdx u b pf pratt_group items_insert).
  Notation gpx := (gpx u b pf pratt_group items_insert).
  Notation gargs := (gargs u b pf pratt_group items_insert).
  Notation gmore := (gmore u b pf pratt_group items_insert).
  Notation gitems := (gitems u b pf pratt_group items_insert).
  Notation gitem := (gitem u b pf pratt_group items_insert).
  Notation gtrops := (gtrops u b pf pratt_group items_insert).
  Notation gop := (gop u b pf pratt_group items_insert).
  Notation gops := (gops u b pf pratt_group items_insert).
  Notation gintro := (gintro u b pf pratt_group items_insert).
  Notation gcond := (gcond u b pf pratt_group items_insert).
  Notation gelems := (gelems u b pf pratt_group items_insert).
  Notation gelem := (gelem u b pf pratt_group items_insert).
  Notation gelse := (gelse u b pf pratt_group items_insert).
  Notation tame := (tame b pf).
  Lemma tame_app x y : tame (x ++ y) -> tame x /\ tame y.
  Proof.
    intros H. split; intros p s d q n E Hs Hd.
    - subst x. apply (H p s d (q ++ y) n); auto. now rewrite <- !app_assoc.
    - subst y. apply (H (x ++ p) s d q n); auto. now rewrite <- app_assoc.
  Qed.
  Lemma x_upd_wf f e : x_wf (x_upd f e) <-> x_wf e.
  Proof. destruct e; reflexivity. Qed.
  Lemma x_upd_wf' f e : x_wf e -> x_wf (x_upd f e).
  Proof. apply x_upd_wf. Qed.
  Lemma key_upd_wf f k : key_wf k -> key_wf (key_upd f k).
  Proof. destruct k; cbn; auto. apply x_upd_wf. Qed.
  Lemma key_of_expr_wf e : x_wf e -> key_wf (key_of_expr e).
  Proof. destruct e; cbn; auto. Qed.
  Lemma tree_wf (t : tree) : x_wf (head t) -> Forall (fun p => x_wf (snd p)) (tail t) -> x_wf (tree_expr t).
  Proof.
    induction t as [a|l IHl o r IHr]; cbn [head tail tree_expr]; intros Hh Ht; [exact Hh|].
    apply Forall_app in Ht. destruct Ht as [H1 H2]. inversion H2 as [|? ? H3 H4]; subst. cbn [fst snd] in *.
    unfold infix_expr. cbn. fold x_wf. auto.
  Qed.
  Lemma pratt_wf e l e' : pratt_group e l = Some e' -> x_wf e -> Forall (fun p => x_wf (snd p)) l -> x_wf e'.
  Proof.
    intros E He Hl. destruct (pratt_group_spec e l) as (t & rest & E2 & _ & Hh & Hl2 & _).
    rewrite E in E2. injection E2 as ->. apply tree_wf; [now rewrite Hh|]. rewrite Hl2, Forall_app in Hl. apply Hl.
  Qed.
  Lemma insert_in i l j : In j (items_insert i l) -> exists j', In j' (i :: l) /\ item_key j = item_key j'.
  Proof.
    induction l as [|k l IH]; cbn [items_insert].
    - intros [<-|[]]. exists i. split; [now left|reflexivity].
    - destruct (key_eqb (item_key k) (item_key i)).
      + destruct i as [k1 a1 v1 t1]. intros [<-|H]; [exists k; split; [right; now left|reflexivity]|].
        exists j. split; [right; now right|reflexivity].
      + intros [<-|H]; [exists k; split; [right; now left|reflexivity]|]. destruct (IH H) as (j' & Hj & E). exists j'. split; [|exact E].
        destruct Hj as [<-|Hj]; [now left|right; now right].
  Qed.
  Lemma insert_distinct i l : distinct_keys l -> distinct_keys (items_insert i l).
  Proof.
    induction l as [|k l IH]; cbn [items_insert distinct_keys]; [repeat constructor|]. intros [H1 H2].
    destruct (key_eqb (item_key k) (item_key i)) eqn:E.
    - destruct i as [k1 a1 v1 t1]. cbn [distinct_keys item_key]. auto.
    - cbn [distinct_keys]. split; [|auto]. rewrite lall_Forall, Forall_forall in *. intros j Hj.
      destruct (insert_in _ _ _ Hj) as (j' & [<-|Hj'] & Ek); rewrite Ek; auto.
  Qed.
  Lemma insert_wf i l : item_wf i -> lall item_wf l -> lall item_wf (items_insert i l).
  Proof.
    intros Hi. induction l as [|k l IH]; cbn [items_insert lall]; [auto|]. intros [H1 H2].
    destruct (key_eqb (item_key k) (item_key i)); [|cbn [lall]; auto].
    destruct i as [k1 a1 v1 t1], k as [k2 a2 v2 t2]. cbn [lall item_key]. split; [|exact H2].
    change (key_wf k2 /\ x_wf v2) in H1. change (key_wf k1 /\ x_wf v1) in Hi. change (key_wf k2 /\ x_wf v1). tauto.
  Qed.
  Lemma fold_insert_wf its : forall acc, lall item_wf its -> lall item_wf acc -> distinct_keys acc ->
    distinct_keys (fold_left (fun acc i => items_insert i acc) its acc) /\ lall item_wf (fold_left (fun acc i => items_insert i acc) its acc).
  Proof.
    induction its as [|i its IH]; intros acc H1 H2 H3; cbn [fold_left]; [auto|]. cbn [lall] in H1. destruct H1.
    apply IH; auto using insert_wf, insert_distinct.
  Qed.
  Lemma cond_upd_wf f c : cond_wf c -> cond_wf (cond_upd f c).
  Proof. destruct c. auto. Qed.
  Ltac tm := repeat match goal with H : tame (_ ++ _) |- _ => apply tame_app in H; destruct H end.
  Ltac fwd := repeat match goal with
    | H : tame ?t -> _, H2 : tame ?t |- _ => specialize (H H2)
    | H : _ /\ _ |- _ => destruct H
    end.
  Ltac fin := repeat match goal with |- _ /\ _ => split end;
    auto using x_upd_wf', cond_upd_wf, key_upd_wf, key_of_expr_wf.
  Ltac wf := cbn [x_wf lall oallp cond_wf item_wf key_wf trop_wf op_wf tpl_wf elem_wf else_wf];
    fold x_wf cond_wf item_wf key_wf trop_wf op_wf tpl_wf elem_wf else_wf; fin.
  Lemma all_wf :
    (forall o t e, gexpr o t e -> tame t -> x_wf e) /\ (forall o t e, gdx o t e -> tame t -> x_wf e) /\
    (forall o t e, gpx o t e -> tame t -> x_wf e) /\
    (forall o t l, gargs o t l -> tame t -> lall x_wf l) /\
    (forall o t l, gmore o t l -> tame t -> lall x_wf l) /\
    (forall o t l, gitems o t l -> tame t -> lall item_wf l) /\
    (forall o t i, gitem o t i -> tame t -> item_wf i) /\
    (forall o t l, gtrops o t l -> tame t -> lall trop_wf l) /\
    (forall o t i, gop o t i -> tame t -> op_wf i) /\
    (forall o t l, gops o t l -> tame t -> Forall (fun p => x_wf (snd p)) l) /\
    (forall o t im kv vv c, gintro o t im kv vv c -> tame t -> x_wf c) /\
    (forall o t c, gcond o t c -> tame t -> oallp cond_wf c) /\
    (forall o t l, gelems o t l -> tame t -> lall elem_wf l) /\
    (forall o t e, gelem o t e -> tame t -> elem_wf e) /\
    (forall o t e, gelse o t e -> tame t -> oallp else_wf e).
  Proof.
    apply gexpr_all; intros; subst.
    3: { match goal with HG : gnum _ _ d n, HN : num_neg _ _ = Done _, HT : tame _ |- _ =>
           cbn [x_wf]; apply (num_neg_wf _ _ _ (gnum_wf _ _ _ _ HG) HN); refine (HT [] s d [] n _ _ HG); [now rewrite app_nil_r|assumption] end. }
    all: tm; fwd; try solve [wf].
    - apply x_upd_wf'. unfold keyword. destruct (seqb _ _); [exact I|]. destruct (seqb _ _); [exact I|]. destruct (seqb _ _); exact I.
    - eapply gnum_wf; eassumption.
    - apply (fold_insert_wf its []); auto; exact I.
    - apply x_upd_wf'. eapply pratt_wf; eassumption.
  Qed.
  Notation gstruct := (gstruct u b pf pratt_group items_insert).
  Notation gblock := (gblock u b pf pratt_group items_insert).
  Notation gbody := (gbody u b pf pratt_group items_insert).
  Notation gstructs := (gstructs u b pf pratt_group items_insert).
  Lemma struct_upd_wf f x : struct_wf x -> struct_wf (struct_upd f x).
  Proof. destruct x; auto. Qed.
  Lemma all_struct_wf :
    (forall o t x, gstruct o t x -> tame t -> struct_wf x) /\
    (forall o t x, gblock o t x -> tame t -> body_wf x) /\
    (forall o t x, gbody o t x -> tame t -> body_wf x) /\
    (forall ks o t l om, gstructs ks o t l om -> tame t -> lall struct_wf l).
  Proof.
    destruct all_wf as (_ & _ & HP & _).
    apply gstruct_all; intros; subst; tm; fwd; cbn [body_wf lall]; fold struct_wf body_wf; auto using struct_upd_wf; try exact I.
    - eapply HP; eassumption.
  Qed.
End Wf.

(** ** Resolving spans keeps trees well-formed *)
Section Map.
  Context (f g : raw -> raw).
  Lemma simple_key_map k k' : simple_key (key_map f g k) -> key_eqb (key_map f g k) (key_map f g k') = key_eqb k k'.
  Proof.
    destruct k as [i|e]; [destruct k'; reflexivity|]. destruct e; cbn; intros []; destruct k' as [|e']; try reflexivity; destruct e'; reflexivity.
  Qed.
  Definition KP {A} (sk w : A -> Prop) (m : A -> A) (a : A) : Prop := sk (m a) -> w a -> w (m a).
  Lemma lall_KP {A} (sk w : A -> Prop) m l : Forall (KP sk w m) l -> KP (lall sk) (lall w) (map m) l.
  Proof. unfold KP. induction 1; cbn; auto. intros [] []. auto. Qed.
  Lemma oall_KP {A} (sk w : A -> Prop) m o : oall (KP sk w m) o -> KP (oallp sk) (oallp w) (option_map m) o.
  Proof. unfold KP. destruct o; cbn; auto. Qed.
  Ltac xm := fold (x_map f g) (cond_map f g) (item_map f g) (key_map f g) (trop_map f g) (op_map f g) (tpl_map f g) (elem_map f g) (else_map f g) in *.
  Ltac xw := fold x_wf cond_wf item_wf key_wf trop_wf op_wf tpl_wf elem_wf else_wf in *.
  Ltac xs := fold simple_keys sk_cond sk_item sk_trop sk_op sk_tpl sk_elem sk_else in *.
  Ltac go := intros; repeat match goal with H : Forall _ _ |- _ => apply lall_KP in H | H : oall _ _ |- _ => apply oall_KP in H end;
    intros Hs Hw; cbn in Hs, Hw |- *; xm; xw; xs; repeat match goal with H : _ /\ _ |- _ => destruct H end;
    repeat match goal with |- _ /\ _ => split end; auto.
  Lemma distinct_map l : distinct_keys l -> lall sk_item (map (item_map f g) l) -> distinct_keys (map (item_map f g) l).
  Proof.
    induction l as [|[k a v t] l IH]; [intros; exact I|]. intros [H1 H2] [Hk Hs]. change (simple_key (key_map f g k) /\ simple_keys (x_map f g v)) in Hk.
    cbn [map distinct_keys]. split; [|now apply IH]. rewrite lall_Forall, Forall_map, Forall_forall in *.
    intros [k' a' v' t'] Hj. specialize (H1 _ Hj). cbn [item_key item_map] in *. xm. now rewrite simple_key_map.
  Qed.
  Lemma simple_key_wf k : simple_key (key_map f g k) -> key_wf k -> key_wf (key_map f g k).
  Proof. destruct k as [|e]; [auto|]. destruct e; cbn; intros []; auto. Qed.
  Lemma all_map_wf :
    (forall e, KP simple_keys x_wf (x_map f g) e) /\ (forall e, KP sk_cond cond_wf (cond_map f g) e) /\
    (forall e, KP sk_item item_wf (item_map f g) e) /\ (forall e : xkey, True) /\
    (forall e, KP sk_trop trop_wf (trop_map f g) e) /\ (forall e, KP sk_op op_wf (op_map f g) e) /\
    (forall e, KP sk_tpl tpl_wf (tpl_map f g) e) /\ (forall e, KP sk_elem elem_wf (elem_map f g) e) /\
    (forall e, KP sk_else else_wf (else_map f g) e).
  Proof.
    apply xexpr_all; try solve [go]; try solve [auto].
    - intros m l t H. go. now apply distinct_map.
    - intros k a v t _ H. go. now apply simple_key_wf.
  Qed.
  Lemma body_map_wf : (forall e, KP sk_struct struct_wf (struct_map f g) e) /\ (forall e, KP sk_body body_wf (body_map f g) e).
  Proof.
    destruct all_map_wf as [HE _]. apply xbody_all.
    - intros m k v. exact (HE v).
    - intros m i l b H. exact H.
    - intros m l o n H. exact (lall_KP _ _ _ _ H).
  Qed.
End Map.

Lemma parsed_expr_wf u b pf I e : parse_expr u b pf I = Parsed e -> tame b pf I -> simple_keys e -> x_wf e.
Proof.
  intros E T S. pose proof (raw_expr_spec u b pf I) as H. destruct (raw_expr u b pf I) as [x| | |] eqn:E2.
  - destruct (expr_despan_ok u b pf I x E2) as (E3 & _). rewrite E in E3. injection E3 as ->.
    destruct (all_map_wf (raw_despan I) leave) as [M _]. apply M; [exact S|]. destruct (all_wf u b pf) as [W _]. eapply W; eauto.
  - unfold parse_expr, parse_expr_with in E. unfold raw_expr in E2. rewrite E2 in E. discriminate.
  - unfold parse_expr, parse_expr_with in E. unfold raw_expr in E2. rewrite E2 in E. discriminate.
  - destruct H.
Qed.
Lemma parsed_body_wf u b pf I e : parse_body u b pf I = Parsed e -> tame b pf I -> sk_body e -> body_wf e.
Proof.
  intros E T S. pose proof (raw_body_spec u b pf I) as H. destruct (raw_body u b pf I) as [x| | |] eqn:E2.
  - destruct (body_despan_ok u b pf I x E2) as (E3 & _). rewrite E in E3. injection E3 as ->.
    destruct (body_map_wf (raw_despan I) leave) as [_ M]. apply M; [exact S|]. destruct (all_struct_wf u b pf) as (_ & _ & W & _). eapply W; eauto.
  - unfold parse_body, parse_body_with in E. unfold raw_body in E2. rewrite E2 in E. discriminate.
  - unfold parse_body, parse_body_with in E. unfold raw_body in E2. rewrite E2 in E. discriminate.
  - destruct H.
Qed.

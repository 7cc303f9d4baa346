(** * Parsed documents satisfy the invariants of the types of hcl-rs *)
From Coq Require Import NArith ZArith Bool String List Lia.
From Verif Require Import Res Str Dec NumberModel NumberProofs FloatProofs PrimModel Ast EAst EAstInd ParseBase ParseModel Grammar
  ParseSoundRec PrattSpec PrattProofs ParseTop ParseSpec ParseFacts EqSpec EqProofs EqParse ConvModel ConvFromSpec OwnSpec.
From Verif Require MapModel.
Import ListNotations.
Open Scope N_scope.

(** ** Syntax trees of hcl-edit with valid identifiers and numbers; what is inside templates does not matter *)
Section Valid.
  Context (u : unicode).
  Notation name := (name u).
  Definition vid (i : did) : Prop := name (i_name i).
  Fixpoint valid (e : xexpr) : Prop :=
    match e with
    | XNull _ | XBool _ _ | XStr _ _ | XTpl _ _ => True
    | XNum _ n _ => num_wf n
    | XArr _ l _ _ => lall valid l
    | XObj _ l _ => lall vitem l
    | XHeredoc _ d _ _ _ => name d
    | XVar _ x => name x
    | XParen _ e | XUnary _ _ _ e => valid e
    | XCond _ c t f => valid c /\ valid t /\ valid f
    | XCall _ ns n _ l _ _ _ => lall vid ns /\ vid n /\ lall valid l
    | XTrav _ e o => valid e /\ lall vtrop o
    | XBinary _ l _ _ r => valid l /\ valid r
    | XFor _ _ kv vv c k v _ co => oallp vid kv /\ vid vv /\ valid c /\ oallp valid k /\ valid v /\ oallp vcond co
    end
  with vcond (c : xcond) : Prop := match c with XForCond _ e => valid e end
  with vitem (i : xitem) : Prop := match i with XItem k _ v _ => vkey k /\ valid v end
  with vkey (k : xkey) : Prop := match k with XKId i => vid i | XKExpr e => valid e end
  with vtrop (o : xtrop) : Prop := match o with XTrop _ o => vop o end
  with vop (o : xop) : Prop :=
    match o with XIndex e => valid e | XGetAttr i => vid i | XLegacy _ n => (Z.of_N n <= u64_max)%Z | _ => True end.
  Definition vlabel (l : xlabel) : Prop := match l with XLId i => vid i | XLStr _ _ => True end.
  Fixpoint vstruct (s : xstruct) : Prop :=
    match s with XAttr _ k v => vid k /\ valid v | XBlock _ i ls b => vid i /\ lall vlabel ls /\ vbody b end
  with vbody (b : xbody) : Prop := match b with XBody _ l _ _ => lall vstruct l end.

  (** ** Texts of the grammar *)
  Context (b : build) (pf : str -> f64).
  Notation gexpr := (gexpr u b pf pratt_group items_insert).
  Notation gdx := (gdx u b pf pratt_group items_insert).
  Notation gpx := (gpx u b pf pratt_group items_insert).
  Notation gargs := (gargs u b pf pratt_group items_insert).
  Notation gmore := (gmore u b pf pratt_group items_insert).
  Notation gitems := (gitems u b pf pratt_group items_insert).
  Notation gitem := (gitem u b pf pratt_group items_insert).
  Notation gtrops := (gtrops u b pf pratt_group items_insert).
  Notation gop := (gop u b pf pratt_group items_insert).
  Notation gops := (gops u b pf pratt_group items_insert).
  Notation gintro := (gintro u b pf pratt_group items_insert).
  Notation gcond := (gcond u b pf pratt_group items_insert).
  Notation gelems := (gelems u b pf pratt_group items_insert).
  Notation gelem := (gelem u b pf pratt_group items_insert).
  Notation gelse := (gelse u b pf pratt_group items_insert).
  Notation tame := (tame b pf).

  Lemma upd_valid f e : valid e -> valid (x_upd f e).
  Proof. destruct e; auto. Qed.
  Lemma key_upd_valid f k : vkey k -> vkey (key_upd f k).
  Proof. destruct k; cbn; auto. apply upd_valid. Qed.
  Lemma key_of_expr_valid e : valid e -> vkey (key_of_expr e).
  Proof. destruct e; cbn; auto. Qed.
  Lemma cond_upd_valid f c : vcond c -> vcond (cond_upd f c).
  Proof. destruct c. auto. Qed.
  Lemma tree_valid (t : tree) : valid (head t) -> Forall (fun p => valid (snd p)) (tail t) -> valid (tree_expr t).
  Proof.
    induction t as [a|l IHl o r IHr]; cbn [head tail tree_expr]; intros Hh Ht; [exact Hh|].
    apply Forall_app in Ht. destruct Ht as [H1 H2]. inversion H2 as [|? ? H3 H4]; subst. cbn [fst snd] in *.
    unfold infix_expr. cbn. fold valid. auto.
  Qed.
  Lemma pratt_valid e l e' : pratt_group e l = Some e' -> valid e -> Forall (fun p => valid (snd p)) l -> valid e'.
  Proof.
    intros E He Hl. destruct (pratt_group_spec e l) as (t & rest & E2 & _ & Hh & Hl2 & _).
    rewrite E in E2. injection E2 as ->. apply tree_valid; [now rewrite Hh|]. rewrite Hl2, Forall_app in Hl. apply Hl.
  Qed.
  Lemma insert_valid i l : vitem i -> lall vitem l -> lall vitem (items_insert i l).
  Proof.
    intros Hi. induction l as [|k l IH]; cbn [items_insert lall]; [auto|]. intros [H1 H2].
    destruct (key_eqb (item_key k) (item_key i)); [|cbn [lall]; auto].
    destruct i as [k1 a1 v1 t1], k as [k2 a2 v2 t2]. cbn [lall item_key]. split; [|exact H2].
    change (vkey k2 /\ valid v2) in H1. change (vkey k1 /\ valid v1) in Hi. change (vkey k2 /\ valid v1). tauto.
  Qed.
  Lemma fold_valid its : forall acc, lall vitem its -> lall vitem acc -> lall vitem (fold_left (fun acc i => items_insert i acc) its acc).
  Proof. induction its as [|i its IH]; intros acc H1 H2; cbn [fold_left]; [auto|]. destruct H1. apply IH; auto using insert_valid. Qed.
  Lemma lall_app {A} (P : A -> Prop) l r : lall P (l ++ r) <-> lall P l /\ lall P r.
  Proof. rewrite !lall_Forall. apply Forall_app. Qed.
  Lemma rep_valid {A} (P : N -> str -> A -> Prop) (Q : A -> Prop) o t l : (forall o t a, P o t a -> Q a) -> rep P o t l -> lall Q l.
  Proof. intros H. induction 1; cbn [lall]; eauto. Qed.
  Lemma gsid_valid o t i : gsid u o t i -> vid i.
  Proof. intros (x & z & _ & H & _ & ->). exact H. Qed.
  Lemma gdid_valid o t i : gdid u o t i -> vid i.
  Proof. intros (a & x & z & _ & _ & H & _ & ->). exact H. Qed.
  Lemma gns_valid o t i : gns u o t i -> vid i.
  Proof. intros (t' & _ & H). eapply gdid_valid, H. Qed.
  Lemma gvars_valid o t k v : gvars u o t k v -> oallp vid k /\ vid v.
  Proof.
    intros [[-> H]|(t1 & t2 & i & _ & -> & H1 & H2)]; cbn [oallp]; eauto using gdid_valid.
  Qed.
  Lemma glabel_valid o t l : glabel u o t l -> vlabel l.
  Proof. intros (x & z & _ & _ & [[H ->]|[_ [s ->]]]); [exact H|exact I]. Qed.

  Ltac tm := repeat match goal with H : tame (_ ++ _) |- _ => apply tame_app in H; destruct H end.
  Ltac fwd := repeat match goal with
    | H : tame ?t -> _, H2 : tame ?t |- _ => specialize (H H2)
    | H : gvars _ _ _ _ _ |- _ => apply gvars_valid in H
    | H : _ /\ _ |- _ => destruct H
    end.
  Ltac fin := repeat match goal with |- _ /\ _ => split end;
    auto using upd_valid, cond_upd_valid, key_upd_valid, key_of_expr_valid.
  Ltac wf := cbn [valid lall oallp vcond vitem vkey vtrop vop];
    fold valid vcond vitem vkey vtrop vop; fin.
  Lemma all_valid :
    (forall o t e, gexpr o t e -> tame t -> valid e) /\ (forall o t e, gdx o t e -> tame t -> valid e) /\
    (forall o t e, gpx o t e -> tame t -> valid e) /\
    (forall o t l, gargs o t l -> tame t -> lall valid l) /\
    (forall o t l, gmore o t l -> tame t -> lall valid l) /\
    (forall o t l, gitems o t l -> tame t -> lall vitem l) /\
    (forall o t i, gitem o t i -> tame t -> vitem i) /\
    (forall o t l, gtrops o t l -> tame t -> lall vtrop l) /\
    (forall o t i, gop o t i -> tame t -> vop i) /\
    (forall o t l, gops o t l -> tame t -> Forall (fun p => valid (snd p)) l) /\
    (forall o t im kv vv c, gintro o t im kv vv c -> tame t -> oallp vid kv /\ vid vv /\ valid c) /\
    (forall o t c, gcond o t c -> tame t -> oallp vcond c) /\
    (forall o t l, gelems o t l -> True) /\
    (forall o t e, gelem o t e -> True) /\
    (forall o t e, gelse o t e -> True).
  Proof.
    apply gexpr_all; intros; subst.
    3: { match goal with HG : gnum _ _ d n, HN : num_neg _ _ = Done _, HT : tame _ |- _ =>
           cbn [valid]; apply (num_neg_wf _ _ _ (gnum_wf _ _ _ _ HG) HN); refine (HT [] s d [] n _ _ HG); [now rewrite app_nil_r|assumption] end. }
    all: tm; fwd; try exact I; try solve [wf].
    - apply upd_valid. unfold keyword. destruct (seqb _ _); [exact I|]. destruct (seqb _ _); [exact I|]. destruct (seqb _ _); [exact I|]. assumption.
    - eapply gnum_wf; eassumption.
    - apply (fold_valid its []); auto; exact I.
    - assert (HL : lall vid (i :: ns)) by (split; [eapply gsid_valid; eassumption|eapply rep_valid; [|eassumption]; exact gns_valid]).
      match goal with HE : i :: ns = _ |- _ => rewrite HE in HL end. apply lall_app in HL. destruct HL as [HL [HN _]].
      cbn [valid]. auto.
    - apply upd_valid. eapply pratt_valid; eassumption.
  Qed.
  Notation gstruct := (gstruct u b pf pratt_group items_insert).
  Notation gblock := (gblock u b pf pratt_group items_insert).
  Notation gbody := (gbody u b pf pratt_group items_insert).
  Notation gstructs := (gstructs u b pf pratt_group items_insert).
  Lemma struct_upd_valid f x : vstruct x -> vstruct (struct_upd f x).
  Proof. destruct x; auto. Qed.
  Lemma all_struct_valid :
    (forall o t x, gstruct o t x -> tame t -> vstruct x) /\
    (forall o t x, gblock o t x -> tame t -> vbody x) /\
    (forall o t x, gbody o t x -> tame t -> vbody x) /\
    (forall ks o t l om, gstructs ks o t l om -> tame t -> lall vstruct l).
  Proof.
    destruct all_valid as (_ & _ & HP & _).
    apply gstruct_all; intros; subst; tm; fwd; cbn [vbody lall]; fold vstruct vbody; auto using struct_upd_valid; try exact I.
    - split; [eapply gsid_valid; eassumption|]. eapply HP; eassumption.
    - split; [eapply gsid_valid; eassumption|]. split; [|assumption]. eapply rep_valid; [|eassumption]. exact glabel_valid.
  Qed.

  (** ** Resolving spans *)
  Section Map.
    Context (f g : raw -> raw).
    Definition KV {A} (w : A -> Prop) (m : A -> A) (a : A) : Prop := w a -> w (m a).
    Lemma lall_KV {A} (w : A -> Prop) m l : Forall (KV w m) l -> KV (lall w) (map m) l.
    Proof. unfold KV. induction 1; cbn; auto. intros []. auto. Qed.
    Lemma oall_KV {A} (w : A -> Prop) m o : oall (KV w m) o -> KV (oallp w) (option_map m) o.
    Proof. unfold KV. destruct o; cbn; auto. Qed.
    Lemma lall_vid l : lall vid l -> lall vid (map (did_map f) l).
    Proof. induction l; cbn; auto. intros []. auto. Qed.
    Lemma oall_vid o : oallp vid o -> oallp vid (option_map (did_map f) o).
    Proof. destruct o; auto. Qed.
    Ltac xm := fold (x_map f g) (cond_map f g) (item_map f g) (key_map f g) (trop_map f g) (op_map f g) (tpl_map f g) (elem_map f g) (else_map f g) in *.
    Ltac xv := fold valid vcond vitem vkey vtrop vop in *.
    Ltac go := intros; repeat match goal with H : Forall _ _ |- _ => apply lall_KV in H | H : oall _ _ |- _ => apply oall_KV in H end;
      intros Hw; cbn in Hw |- *; xm; xv; repeat match goal with H : _ /\ _ |- _ => destruct H end;
      repeat match goal with |- _ /\ _ => split end; auto using lall_vid, oall_vid.
    Lemma all_map_valid :
      (forall e, KV valid (x_map f g) e) /\ (forall e, KV vcond (cond_map f g) e) /\
      (forall e, KV vitem (item_map f g) e) /\ (forall e, KV vkey (key_map f g) e) /\
      (forall e, KV vtrop (trop_map f g) e) /\ (forall e, KV vop (op_map f g) e) /\
      (forall e : xtpl, True) /\ (forall e : xelem, True) /\ (forall e : xelse, True).
    Proof. apply xexpr_all; try solve [auto]; try solve [intros; exact (fun H => H)]; try solve [go]. Qed.
    Lemma label_map_valid l : lall vlabel l -> lall vlabel (map (label_map f) l).
    Proof. induction l as [|[] l IH]; cbn; auto; intros []; auto. Qed.
    Lemma body_map_valid : (forall e, KV vstruct (struct_map f g) e) /\ (forall e, KV vbody (body_map f g) e).
    Proof.
      destruct all_map_valid as [HE _]. apply xbody_all.
      - intros m k v [H1 H2]. split; [exact H1|]. now apply HE.
      - intros m i l d H (H1 & H2 & H3). split; [exact H1|]. split; [now apply label_map_valid|]. now apply H.
      - intros m l o n H. exact (lall_KV _ _ _ H).
    Qed.
  End Map.

  Lemma parsed_expr_valid s e : parse_expr u b pf s = Parsed e -> tame s -> valid e.
  Proof.
    intros E T. pose proof (raw_expr_spec u b pf s) as H. destruct (raw_expr u b pf s) as [x| | |] eqn:E2.
    - destruct (expr_despan_ok u b pf s x E2) as (E3 & _). rewrite E in E3. injection E3 as ->.
      destruct (all_map_valid (raw_despan s) leave) as [M _]. apply M. destruct all_valid as [W _]. eapply W; eauto.
    - unfold parse_expr, parse_expr_with in E. unfold raw_expr in E2. rewrite E2 in E. discriminate.
    - unfold parse_expr, parse_expr_with in E. unfold raw_expr in E2. rewrite E2 in E. discriminate.
    - destruct H.
  Qed.
  Lemma parsed_body_valid s x : parse_body u b pf s = Parsed x -> tame s -> vbody x.
  Proof.
    intros E T. pose proof (raw_body_spec u b pf s) as H. destruct (raw_body u b pf s) as [y| | |] eqn:E2.
    - destruct (body_despan_ok u b pf s y E2) as (E3 & _). rewrite E in E3. injection E3 as ->.
      destruct (body_map_valid (raw_despan s) leave) as [_ M]. apply M. destruct all_struct_valid as (_ & _ & W & _). eapply W; eauto.
    - unfold parse_body, parse_body_with in E. unfold raw_body in E2. rewrite E2 in E. discriminate.
    - unfold parse_body, parse_body_with in E. unfold raw_body in E2. rewrite E2 in E. discriminate.
    - destruct H.
  Qed.

  (** ** Converting to hcl-rs *)
  Context (sf : f64 -> str).
  Lemma insert_apart k (v : expr) m : keys_apart m -> keys_apart (fst (MapModel.insert (okey_eqb expr_eqb) k v m)) /\
    forall p, In p (fst (MapModel.insert (okey_eqb expr_eqb) k v m)) -> fst p = k \/ exists q, In q m /\ fst q = fst p.
  Proof.
    unfold keys_apart. induction m as [|[k' v'] m IH]; cbn [MapModel.insert].
    - intros _. split; [repeat constructor|]. intros p [<-|[]]. now left.
    - intros H. inversion H as [|? ? H1 H2]; subst. destruct (IH H2) as [I1 I2]. destruct (okey_eqb expr_eqb k k') eqn:E; cbn [fst].
      + split; [constructor; assumption|]. intros p [<-|Hp]; right; [exists (k', v')|exists p]; split; auto; [now left|now right].
      + destruct (MapModel.insert (okey_eqb expr_eqb) k v m) as [m' o]. cbn [fst] in *. split.
        * constructor; [|assumption]. rewrite Forall_forall in *. intros p Hp. destruct (I2 p Hp) as [Hk|(q & Hq & Hk)].
          -- cbn [fst] in *. now rewrite Hk.
          -- specialize (H1 q Hq). now rewrite <- Hk.
        * intros p [<-|Hp]; [right; exists (k', v'); split; [now left|reflexivity]|].
          destruct (I2 p Hp) as [Hk|(q & Hq & Hk)]; [now left|]. right. exists q. split; [now right|exact Hk].
  Qed.
  Lemma insert_all (P : okey expr -> Prop) (Q : expr -> Prop) k v m : P k -> Q v -> Forall (fun p => P (fst p) /\ Q (snd p)) m ->
    Forall (fun p => P (fst p) /\ Q (snd p)) (fst (MapModel.insert (okey_eqb expr_eqb) k v m)).
  Proof.
    intros Hk Hv. induction m as [|[k' v'] m IH]; cbn [MapModel.insert]; [repeat constructor; auto|].
    intros H. inversion H as [|? ? [H1 H1'] H2]; subst. destruct (okey_eqb expr_eqb k k'); cbn [fst snd] in *.
    - constructor; auto.
    - specialize (IH H2). destruct (MapModel.insert (okey_eqb expr_eqb) k v m). cbn [fst] in *. constructor; auto.
  Qed.
  Lemma collect_fine l : Forall (fun p => fine_key u (fst p) /\ fine u (snd p)) l -> fine u (EObj (eobj_collect l)).
  Proof.
    intros H. assert (X : forall m, keys_apart m -> Forall (fun p => fine_key u (fst p) /\ fine u (snd p)) m ->
      fine u (EObj (MapModel.extend (okey_eqb expr_eqb) l m))).
    { unfold MapModel.extend. induction H as [|[k v] l [H1 H2] _ IH]; intros m A F; cbn [fold_left]; [now constructor|].
      cbn [fst snd] in *. apply IH; [apply insert_apart, A|]. now apply insert_all. }
    apply X; constructor.
  Qed.
  Lemma lall_map_Forall {A B} (P : A -> Prop) (Q : B -> Prop) (h : A -> B) l :
    Forall (fun x => P x -> Q (h x)) l -> lall P l -> Forall Q (map h l).
  Proof. induction 1; cbn; intros; constructor; tauto. Qed.
  Lemma maybe_map {A B} (P : A -> Prop) (Q : B -> Prop) (h : A -> B) o :
    oall (fun x => P x -> Q (h x)) o -> oallp P o -> maybe Q (option_map h o).
  Proof. destruct o; cbn; intros H H2 y E; [injection E as <-; auto|discriminate]. Qed.
  Ltac xo := fold (of_edit sf) (of_cond sf) (of_item sf) (of_key sf) (of_trop sf) (of_op sf) in *.
  Lemma all_fine :
    (forall e, valid e -> fine u (of_edit sf e)) /\ (forall c, vcond c -> fine u (of_cond sf c)) /\
    (forall i, vitem i -> fine_key u (fst (of_item sf i)) /\ fine u (snd (of_item sf i))) /\
    (forall k, vkey k -> fine_key u (of_key sf k)) /\
    (forall o, vtrop o -> fine_op u (of_trop sf o)) /\ (forall o, vop o -> fine_op u (of_op sf o)) /\
    (forall e : xtpl, True) /\ (forall e : xelem, True) /\ (forall e : xelse, True).
  Proof.
    apply xexpr_all; try solve [auto]; intros; cbn in *; xo;
      repeat match goal with H : _ /\ _ |- _ => destruct H end; try solve [constructor; auto]; try solve [auto].
    - constructor. eapply lall_map_Forall; eauto.
    - apply collect_fine. eapply lall_map_Forall; eauto.
    - destruct t. now constructor.
    - constructor; cbn.
      + eapply lall_map_Forall; [|eassumption]. rewrite Forall_forall. auto.
      + assumption.
      + eapply lall_map_Forall; eauto.
    - constructor; [auto|]. eapply lall_map_Forall; eauto.
    - constructor; auto.
      + eapply maybe_map; [|eassumption]. destruct kv; cbn; auto.
      + eapply maybe_map; eassumption.
      + eapply maybe_map; eassumption.
  Qed.
  Lemma body_fine : (forall x, vstruct x -> fine_struct u (of_struct sf x)) /\ (forall x, vbody x -> fine_body u (of_body sf x)).
  Proof.
    apply xbody_all.
    - intros m k v [H1 H2]. constructor; [exact H1|]. now apply all_fine.
    - intros m i ls x H (H1 & H2 & H3). constructor; [exact H1| |now apply H].
      eapply lall_map_Forall; [|exact H2]. rewrite Forall_forall. intros [j|m' s] _ H4; [exact H4|exact I].
    - intros m l o n H Hl. unfold fine_body. eapply lall_map_Forall; eauto.
  Qed.
End Valid.

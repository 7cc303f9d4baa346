(** * Conversions between hcl-rs and hcl-edit: proofs *)
From Coq Require Import NArith ZArith Bool String List Lia.
From Flocq Require Import IEEE754.BinarySingleNaN.
From Verif Require Import Res Str NumberModel PrimModel Utf8 Ast AstInd.
From Verif Require Import ConvSpec.
From Verif Require EAst EAstInd EncModel.
From Verif Require Import ParseBase ConvModel.
From Verif Require MapModel.
Import ListNotations.

Ltac andb := repeat match goal with H : _ && _ = true |- _ => apply andb_true_iff in H; destruct H end.

Lemma f64_eq_sym a b : f64_eq a b = f64_eq b a.
Proof.
  unfold f64_eq, Beqb, SpecFloat.SFeqb. fold (Bcompare a b) (Bcompare b a). rewrite (Bcompare_swap _ _ a b).
  destruct (Bcompare a b) as [[]|]; reflexivity.
Qed.
Lemma num_eqb_sym a b : num_eqb a b = num_eqb b a.
Proof.
  unfold num_eqb, coerce. destruct a, b; try apply Z.eqb_sym; apply f64_eq_sym.
Qed.
Lemma seqb_sym a b : seqb a b = seqb b a.
Proof.
  destruct (seqb a b) eqn:E; symmetry.
  - apply seqb_eq in E. subst. apply seqb_refl.
  - apply seqb_neq in E. apply seqb_neq. congruence.
Qed.
Lemma list_eqb_sym {A} (q : A -> A -> bool) l : Forall (fun a => forall b, q a b = q b a) l ->
  forall l', list_eqb q l l' = list_eqb q l' l.
Proof. induction 1 as [|a l H _ IH]; intros [|b l']; cbn; auto. now rewrite H, IH. Qed.
Lemma opt_eqb_sym {A} (q : A -> A -> bool) o : opt_all (fun a => forall b, q a b = q b a) o ->
  forall o', opt_eqb q o o' = opt_eqb q o' o.
Proof. destruct o; intros H [b|]; cbn; auto. Qed.
Lemma beqb_sym a b : Bool.eqb a b = Bool.eqb b a.
Proof. now destruct a, b. Qed.
Lemma fn_eqb_sym a b : funcname_eqb a b = funcname_eqb b a.
Proof.
  unfold funcname_eqb. rewrite seqb_sym. f_equal. apply list_eqb_sym. apply Forall_forall. intros; apply seqb_sym.
Qed.

Definition SYM (e : expr) : Prop := plain e = true -> forall b, expr_eqb e b = expr_eqb b e.
Lemma forall_plain (P : expr -> Prop) l : Forall (fun e => plain e = true -> P e) l -> forallb plain l = true -> Forall P l.
Proof. induction 1; cbn; intros; andb; constructor; auto. Qed.
Lemma expr_eqb_sym : forall e, SYM e.
Proof.
  apply expr_ind'; unfold SYM; cbn [plain]; intros; try discriminate.
  - destruct b; reflexivity.
  - destruct b0; cbn; auto. apply beqb_sym.
  - destruct b; cbn; auto. apply num_eqb_sym.
  - destruct b; cbn; auto. apply seqb_sym.
  - destruct b; cbn; auto. apply list_eqb_sym. now apply forall_plain.
  - destruct b; cbn; auto. apply seqb_sym.
  - andb. destruct b; cbn; auto. rewrite H by auto. f_equal. apply list_eqb_sym.
    clear H. induction H0 as [|o ops Ho _ IH]; constructor; cbn in H2; andb; auto.
    intros o'. destruct o, o'; cbn; auto; [apply seqb_sym|apply N.eqb_sym].
  - destruct b0; cbn; auto. rewrite fn_eqb_sym, beqb_sym. f_equal. f_equal. apply list_eqb_sym. now apply forall_plain.
  - destruct b; cbn; auto.
  - andb. destruct b0; cbn; auto. now rewrite H, H0, H1.
  - destruct b; cbn; auto. unfold unop_eqb. rewrite seqb_sym. now rewrite H.
  - andb. destruct b; cbn; auto. unfold binop_eqb. rewrite seqb_sym. now rewrite H, H0.
  - andb. destruct b; cbn; auto. rewrite (seqb_sym v), (beqb_sym g), H, H1 by auto.
    rewrite (opt_eqb_sym seqb k) by (destruct k; cbn; auto; intros; apply seqb_sym).
    rewrite (opt_eqb_sym expr_eqb key), (opt_eqb_sym expr_eqb cond); auto.
    + destruct cond; cbn in *; auto.
    + destruct key; cbn in *; auto.
Qed.

Lemma unexpand_plain : forall e, plain (unexpand e) = plain e.
Proof.
  apply expr_ind'; cbn; intros; auto.
  - induction H; cbn; congruence.
  - rewrite H. f_equal. induction H0 as [|o ops Ho _ IH]; cbn; auto. rewrite IH. f_equal. destruct o; cbn in *; auto.
  - induction H; cbn; congruence.
  - congruence.
  - congruence.
  - rewrite H, H1. destruct key, cond; cbn in *; congruence.
Qed.

(** Equal expressions without objects and templates stay equal. *)
Lemma list_unexpand (l : list expr) :
  Forall (fun e => plain e = true -> forall b, expr_eqb e b = true -> expr_eqb (unexpand e) (unexpand b) = true) l ->
  forallb plain l = true ->
  forall l', list_eqb expr_eqb l l' = true -> list_eqb expr_eqb (map unexpand l) (map unexpand l') = true.
Proof.
  induction 1 as [|x l H _ IH]; cbn [forallb]; intros P [|y l'] E; cbn in *; auto; try discriminate. andb.
  rewrite H, IH; auto.
Qed.
Lemma expr_eqb_unexpand : forall e, plain e = true -> forall b, expr_eqb e b = true -> expr_eqb (unexpand e) (unexpand b) = true.
Proof.
  apply (expr_ind' (fun e => plain e = true -> forall b, expr_eqb e b = true -> expr_eqb (unexpand e) (unexpand b) = true));
    cbn [plain]; intros; try discriminate.
  - destruct b; auto.
  - destruct b0; auto.
  - destruct b; auto.
  - destruct b; auto.
  - destruct b; cbn in *; auto; try discriminate. now apply list_unexpand.
  - destruct b; auto.
  - destruct b; cbn in *; auto; try discriminate. andb. rewrite H by auto. cbn. clear H H2 H1 e.
    revert ops0 H3. induction H0 as [|o ops Ho _ IH]; intros [|o' ops0] E; cbn in *; auto; try discriminate.
    andb. rewrite IH by auto. destruct o, o'; cbn in *; try discriminate; auto; try now rewrite andb_true_r.
    rewrite Ho; auto.
  - destruct b0; cbn in *; auto; try discriminate. andb. rewrite H1. cbn. rewrite list_unexpand; auto.
  - destruct b; cbn in *; auto; try discriminate.
  - destruct b0; cbn in *; auto; try discriminate. andb. rewrite H, H0, H1; auto.
  - destruct b; cbn in *; auto; try discriminate. andb. rewrite H1, H; auto.
  - destruct b; cbn in *; auto; try discriminate. andb. rewrite H, H0, H4; auto.
  - destruct b; cbn in *; auto; try discriminate. andb.
    repeat match goal with HH : _ = true |- _ => rewrite HH end. rewrite H, H1 by auto. cbn.
    destruct key, key0, cond, cond0; cbn in *; try discriminate; auto; rewrite ?H0, ?H2; auto.
Qed.

Section Conv.
  Context (sf : f64 -> str) (ptp : str -> parsed EAst.xtpl).
  Notation of_edit := (of_edit sf). Notation to_edit := (to_edit ptp).
  Notation X := (fun e => unexpand (of_edit e)).

  (** Equal hcl-edit expressions convert to expressions that are equal up to [...]. *)
  Definition LE (x : EAst.xexpr) : Prop := forall y, plain (of_edit x) = true -> EAst.x_eqb x y = true ->
    expr_eqb (unexpand (of_edit x)) (unexpand (of_edit y)) = true.
  Lemma list_loose l : Forall LE l -> forall l', forallb plain (map of_edit l) = true -> list_eqb EAst.x_eqb l l' = true ->
    list_eqb expr_eqb (map unexpand (map of_edit l)) (map unexpand (map of_edit l')) = true.
  Proof.
    induction 1 as [|x l H _ IH]; intros [|y l'] P E; cbn in *; auto; try discriminate. andb. rewrite H, IH; auto.
  Qed.
  Lemma names_loose l : forall l', list_eqb EAst.did_eqb l l' = true -> list_eqb seqb (map EAst.i_name l) (map EAst.i_name l') = true.
  Proof. induction l as [|x l IH]; intros [|y l'] E; cbn in *; auto. andb. rewrite IH; auto. unfold EAst.did_eqb in *. now rewrite H. Qed.
  Definition pl (o : trop expr) : bool := match o with Index e => plain e | _ => true end.
  Definition un (o : trop expr) : trop expr := match o with Index e => Index (unexpand e) | o => o end.
  Lemma x_loose_all : (forall x, LE x) /\
    (forall c : EAst.xcond, forall c', plain (of_cond sf c) = true -> EAst.cond_eqb c c' = true ->
       expr_eqb (unexpand (of_cond sf c)) (unexpand (of_cond sf c')) = true) /\
    (forall i : EAst.xitem, True) /\
    (forall k : EAst.xkey, forall k', plain_key (of_key sf k) = true -> EAst.key_eqb k k' = true ->
       okey_eqb expr_eqb (unexpand_key (of_key sf k)) (unexpand_key (of_key sf k')) = true) /\
    (forall t : EAst.xtrop, forall t',
       pl (of_trop sf t) = true -> EAst.trop_eqb t t' = true ->
       trop_eqb expr_eqb (un (of_trop sf t))
                         (un (of_trop sf t')) = true) /\
    (forall o : EAst.xop, forall o',
       pl (of_op sf o) = true -> EAst.op_eqb o o' = true ->
       trop_eqb expr_eqb (un (of_op sf o))
                         (un (of_op sf o')) = true) /\
    (forall t : EAst.xtpl, True) /\ (forall e : EAst.xelem, True) /\ (forall e : EAst.xelse, True).
  Proof.
    apply EAstInd.xexpr_all; unfold LE; intros; auto;
      try (destruct y; cbn in *; try discriminate; auto; fail); try discriminate.
    - destruct y; try discriminate. cbn in *. andb. now apply list_loose.
    - destruct t; discriminate.
    - destruct y; try discriminate. cbn in *. andb. rewrite H, H0, H1; auto.
    - destruct y; try discriminate. cbn in *. unfold funcname_eqb. cbn. andb. rewrite names_loose by auto.
      unfold EAst.did_eqb in *. rewrite H5. cbn. rewrite andb_true_r. now apply list_loose.
    - destruct y; try discriminate. change (EAst.x_eqb e y && list_eqb EAst.trop_eqb l ops = true) in H2. change (plain (of_edit e) && forallb pl (map (of_trop sf) l) = true) in H1.
      andb. change (expr_eqb (unexpand (of_edit e)) (unexpand (of_edit y)) &&
                    list_eqb (trop_eqb expr_eqb) (map un (map (of_trop sf) l)) (map un (map (of_trop sf) ops)) = true).
      rewrite H by auto. cbn [andb]. clear H H1 H2 m e. rename H3 into E, H4 into P.
      revert ops E. induction H0 as [|o l Ho _ IH]; intros [|o' ops] E; cbn [map forallb list_eqb] in *; auto; try discriminate. andb.
      rewrite IH by auto. rewrite andb_true_r. now apply Ho.
    - destruct y; try discriminate. cbn in *. andb. rewrite H, H1; auto.
    - destruct y; try discriminate. cbn in *. andb. rewrite H, H0, H4; auto.
    - destruct y; try discriminate.
      change (opt_eqb EAst.did_eqb kv kv0 && EAst.did_eqb vv vv0 && EAst.x_eqb c y1 && opt_eqb EAst.x_eqb k key &&
              EAst.x_eqb v y2 && Bool.eqb g grouping && opt_eqb EAst.cond_eqb co cond = true) in H4.
      change (plain (of_edit c) && (match option_map of_edit k with Some k => plain k | None => true end) && plain (of_edit v)
              && (match option_map (of_cond sf) co with Some k => plain k | None => true end) = true) in H3.
      andb. change (opt_eqb seqb (option_map EAst.i_name kv) (option_map EAst.i_name kv0) && EAst.did_eqb vv vv0 &&
        expr_eqb (unexpand (of_edit c)) (unexpand (of_edit y1)) &&
        opt_eqb expr_eqb (option_map unexpand (option_map of_edit k)) (option_map unexpand (option_map of_edit key)) &&
        expr_eqb (unexpand (of_edit v)) (unexpand (of_edit y2)) && Bool.eqb g grouping &&
        opt_eqb expr_eqb (option_map unexpand (option_map (of_cond sf) co)) (option_map unexpand (option_map (of_cond sf) cond)) = true).
      rewrite H, H1 by auto.
      assert (Ek : opt_eqb seqb (option_map EAst.i_name kv) (option_map EAst.i_name kv0) = true) by (destruct kv, kv0; auto).
      assert (Eo : opt_eqb expr_eqb (option_map unexpand (option_map of_edit k)) (option_map unexpand (option_map of_edit key)) = true)
        by (destruct k, key; try discriminate; auto; cbn [option_map opt_eqb]; apply H0; auto).
      assert (Ec : opt_eqb expr_eqb (option_map unexpand (option_map (of_cond sf) co)) (option_map unexpand (option_map (of_cond sf) cond)) = true)
        by (destruct co, cond; try discriminate; auto; cbn [option_map opt_eqb]; apply H2; auto).
      rewrite Ek, Eo, Ec. repeat match goal with HH : _ = true |- _ => rewrite HH; clear HH end. reflexivity.
    - destruct c'. cbn in *. auto.
    - destruct k'; cbn in *; auto.
    - destruct k'; cbn in *; try discriminate; auto.
    - destruct t'. cbn in *. auto.
    - destruct o'; cbn in *; try discriminate; auto.
    - destruct o'; cbn in *; try discriminate; auto.
    - destruct o'; cbn in *; try discriminate; auto.
    - destruct o'; cbn in *; try discriminate; auto.
    - destruct o'; cbn in *; try discriminate; auto.
  Qed.
  Definition x_loose : forall x, LE x := proj1 x_loose_all.
  Definition key_loose := proj1 (proj2 (proj2 (proj2 x_loose_all))).

  (** Expressions without objects and templates survive. *)
  Lemma plain_keeps ok : forall e, plain e = true -> keeps ok e.
  Proof.
    apply (expr_ind' (fun e => plain e = true -> keeps ok e)); cbn [plain]; intros; try discriminate; andb;
      try (constructor; auto; fail).
    - constructor. now apply forall_plain.
    - constructor; auto. intros i Hi. rewrite Forall_forall in H0. specialize (H0 _ Hi). cbn in H0. apply H0.
      rewrite forallb_forall in H2. exact (H2 _ Hi).
    - constructor. now apply forall_plain.
    - constructor; auto; intros x ->; auto.
  Qed.

  Lemma insert_apart i l : Forall (fun j => EAst.key_eqb (EAst.item_key j) (EAst.item_key i) = false) l ->
    EAst.items_insert i l = l ++ [i].
  Proof. induction 1 as [|j l H _ IH]; cbn [EAst.items_insert app]; auto. now rewrite H, IH. Qed.
  Lemma items_collect_apart l : ForallOrdPairs (fun i j => EAst.key_eqb (EAst.item_key i) (EAst.item_key j) = false) l ->
    items_collect l = l.
  Proof.
    unfold items_collect. enough (H : forall acc,
      Forall (fun i => Forall (fun j => EAst.key_eqb (EAst.item_key i) (EAst.item_key j) = false) l) acc ->
      ForallOrdPairs (fun i j => EAst.key_eqb (EAst.item_key i) (EAst.item_key j) = false) l ->
      fold_left (fun acc i => EAst.items_insert i acc) l acc = acc ++ l) by (intros; now apply (H [])).
    clear. induction l as [|i l IH]; intros acc Ha Ho; cbn [fold_left]; [now rewrite app_nil_r|].
    inversion Ho as [|? ? Hi Hl]; subst. rewrite insert_apart.
    - rewrite IH; auto; [now rewrite <- app_assoc|]. apply Forall_app. split.
      + eapply Forall_impl; [|exact Ha]. cbn. intros a H. now inversion H.
      + constructor; auto.
    - eapply Forall_impl; [|exact Ha]. cbn. intros a H. now inversion H.
  Qed.
  Lemma collect_apart l : ForallOrdPairs (fun i j => okey_eqb expr_eqb (fst j) (fst i) = false) l -> eobj_collect l = l.
  Proof.
    unfold eobj_collect, MapModel.from_iter, MapModel.extend. enough (H : forall acc,
      Forall (fun i => Forall (fun j => okey_eqb expr_eqb (fst j) (fst i) = false) l) acc ->
      ForallOrdPairs (fun i j => okey_eqb expr_eqb (fst j) (fst i) = false) l ->
      fold_left (fun m e => fst (MapModel.insert (okey_eqb expr_eqb) (fst e) (snd e) m)) l acc = acc ++ l)
      by (intros; now apply (H [])).
    clear. induction l as [|[k v] l IH]; intros acc Ha Ho; cbn [fold_left]; [now rewrite app_nil_r|].
    inversion Ho as [|? ? Hi Hl]; subst.
    replace (fst (MapModel.insert (okey_eqb expr_eqb) (fst (k, v)) (snd (k, v)) acc)) with (acc ++ [(k, v)]).
    - rewrite IH; auto; [now rewrite <- app_assoc|]. apply Forall_app. split.
      + eapply Forall_impl; [|exact Ha]. cbn. intros a H. now inversion H.
      + constructor; auto.
    - clear - Ha. cbn [fst snd]. induction Ha as [|[k' v'] acc H _ IH]; cbn [app MapModel.insert fst]; auto.
      inversion H as [|? ? H1 _]. cbn [fst] in H1. rewrite H1. rewrite IH.
      destruct (MapModel.insert (okey_eqb expr_eqb) k v acc). reflexivity.
  Qed.

  Lemma okey_eqb_unexpand k k' : plain_key k = true -> okey_eqb expr_eqb k k' = true ->
    okey_eqb expr_eqb (unexpand_key k) (unexpand_key k') = true.
  Proof. destruct k, k'; cbn; auto. intros. now apply expr_eqb_unexpand. Qed.
  Lemma okey_eqb_sym k k' : plain_key k = true -> okey_eqb expr_eqb k k' = okey_eqb expr_eqb k' k.
  Proof. destruct k, k'; cbn; auto; intros; [apply seqb_sym|now apply expr_eqb_sym]. Qed.
  Lemma apart_distinct k k' : plain_key k = true -> apart_keys k k' -> okey_eqb expr_eqb k' k = false.
  Proof.
    intros P A. unfold apart_keys in A. rewrite <- okey_eqb_sym by auto. destruct (okey_eqb expr_eqb k k') eqn:E; auto.
    apply okey_eqb_unexpand in E; auto. congruence.
  Qed.

  (** Templates that the detour keeps: parsing and printing the text gives it back, and heredocs do
      not strip indentation. *)
  Definition template_kept (t : tplexpr) : Prop :=
    tpl_string sf (template_or_default ptp (tpl_text t)) = tpl_text t /\
    match t with Heredoc _ _ m => m = HdNone | QuotedString _ => True end.

  Lemma map_id_Forall {A} (f : A -> A) l : Forall (fun x => f x = x) l -> map f l = l.
  Proof. induction 1; cbn; congruence. Qed.
  Lemma FOP_map {A B} (f : A -> B) (R : B -> B -> Prop) l :
    ForallOrdPairs (fun x y => R (f x) (f y)) l <-> ForallOrdPairs R (map f l).
  Proof.
    induction l as [|x l IH]; cbn; [split; constructor|]. split; intros H; inversion H; subst; constructor; auto.
    - now apply Forall_map.
    - now apply IH.
    - now apply (proj1 (Forall_map f (R (f x)) l)).
    - now apply IH.
  Qed.
  Lemma FOP_impl {A} (P : A -> Prop) (R R' : A -> A -> Prop) l :
    (forall x y, P x -> P y -> R x y -> R' x y) -> Forall P l -> ForallOrdPairs R l -> ForallOrdPairs R' l.
  Proof.
    intros HR Hl. induction Hl as [|x l Hx Hl IH]; intros H; inversion H; subst; constructor; auto.
    rewrite Forall_forall in *. intros y Hy. apply HR; auto.
  Qed.

  Definition back_key (k : okey expr) : Prop := of_key sf (to_key ptp k) = k.
  Lemma apart_edit k k' : plain_key k = true -> back_key k -> back_key k' -> apart_keys k k' ->
    EAst.key_eqb (to_key ptp k) (to_key ptp k') = false.
  Proof.
    intros P B B' A. destruct (EAst.key_eqb (to_key ptp k) (to_key ptp k')) eqn:E; auto.
    apply key_loose in E; [|now rewrite B]. unfold back_key in *. rewrite B, B' in E. unfold apart_keys in A. congruence.
  Qed.

  Lemma to_obj m : to_edit (EObj m) =
    EAst.XObj EAst.no_meta (items_collect (map (fun p => item_new (to_key ptp (fst p)) (to_edit (snd p))) m)) EAst.REmpty.
  Proof. reflexivity. Qed.
  Lemma of_obj m l t : of_edit (EAst.XObj m l t) = EObj (eobj_collect (map (of_item sf) l)).
  Proof. reflexivity. Qed.
  Lemma to_trav e l : to_edit (ETrav e l) = EAst.XTrav EAst.no_meta (to_edit e) (map (to_trop ptp) l).
  Proof. reflexivity. Qed.
  Lemma of_trav m e l : of_edit (EAst.XTrav m e l) = ETrav (of_edit e) (map (of_trop sf) l).
  Proof. reflexivity. Qed.

  Lemma back : forall e, keeps template_kept e -> of_edit (to_edit e) = e.
  Proof.
    apply (expr_ind' (fun e => keeps template_kept e -> of_edit (to_edit e) = e)); intros; try reflexivity;
      match goal with H : keeps _ _ |- _ => inversion H; subst; clear H end.
    - cbn. f_equal. rewrite map_map. apply map_id_Forall. rewrite Forall_forall in *. auto.
    - rewrite to_obj, of_obj.
      assert (B : Forall (fun p => plain_key (fst p) = true /\ back_key (fst p) /\ of_edit (to_edit (snd p)) = snd p) m).
      { rewrite Forall_forall in *. intros [k v] Hp. specialize (H _ Hp) as [H1 H2']. specialize (H2 _ Hp) as [H2 H4].
        cbn [fst snd] in *. split; auto. split; auto. destruct k; unfold back_key; cbn in *; auto.
        f_equal. apply H1. now apply plain_keeps. }
      f_equal. rewrite items_collect_apart, map_map.
      + rewrite map_id_Forall.
        * apply collect_apart. apply FOP_map in H3. eapply FOP_impl; [|exact B|exact H3]. cbn beta.
          intros p q [] _. now apply apart_distinct.
        * eapply Forall_impl; [|exact B]. intros [k v] (_ & B1 & B2). cbn [fst snd] in *.
          change (of_key sf (to_key ptp k), of_edit (to_edit v)) with (of_item sf (item_new (to_key ptp k) (to_edit v))).
          cbn [of_item item_new]. change ((of_key sf (to_key ptp k), of_edit (to_edit v)) = (k, v)). unfold back_key in B1. now rewrite B1, B2.
      + apply FOP_map. apply FOP_map in H3. eapply FOP_impl; [|exact B|exact H3]. cbn beta.
        intros p q (P & B1 & _) (_ & B2 & _) A. now apply apart_edit.
    - destruct t, H1 as [E H]; cbn in *; rewrite E; auto. now subst.
    - rewrite to_trav, of_trav, H, map_map by auto. f_equal. apply map_id_Forall.
      rewrite Forall_forall in *. intros o Ho. specialize (H0 _ Ho). destruct o; cbn in *; auto. f_equal. auto.
    - cbn. destruct f. cbn. rewrite !map_map. cbn. rewrite map_id. f_equal. apply map_id_Forall. rewrite Forall_forall in *. auto.
    - cbn. f_equal. auto.
    - cbn. rewrite H, H0, H1; auto.
    - cbn. f_equal. auto.
    - cbn. rewrite H, H0; auto.
    - assert (E1 : option_map EAst.i_name (option_map ident_new k) = k) by (destruct k; auto).
      assert (E2 : option_map of_edit (option_map to_edit key) = key) by (destruct key; cbn in *; auto; rewrite H0; auto).
      assert (E3 : option_map (of_cond sf) (option_map (fun c => EAst.XForCond EAst.no_meta (to_edit c)) cond) = cond)
        by (destruct cond; auto; cbn [option_map]; f_equal; apply H2; auto).
      change (EFor (option_map EAst.i_name (option_map ident_new k)) v (of_edit (to_edit coll))
        (option_map of_edit (option_map to_edit key)) (of_edit (to_edit val)) g
        (option_map (of_cond sf) (option_map (fun c => EAst.XForCond EAst.no_meta (to_edit c)) cond)) = EFor k v coll key val g cond).
      rewrite E1, E2, E3, H, H1; auto.
  Qed.

  Lemma elem_back : forall e, keeps_elem template_kept e -> of_elem sf (to_elem ptp e) = e.
  Proof.
    apply (elem_ind' (fun e => keeps_elem template_kept e -> of_elem sf (to_elem ptp e) = e)); intros; try reflexivity;
      match goal with H : keeps_elem _ _ |- _ => inversion H; subst; clear H end.
    - cbn. rewrite back; auto.
    - assert (E1 : map (of_elem sf) (map (to_elem ptp) t) = t).
      { rewrite map_map. apply map_id_Forall. rewrite Forall_forall in *. auto. }
      destruct f as [t'|].
      + assert (E2 : map (of_elem sf) (map (to_elem ptp) t') = t').
        { rewrite map_map. apply map_id_Forall. specialize (H10 _ eq_refl). cbn in H0. rewrite Forall_forall in *. auto. }
        change (ElIf (of_edit (to_edit e)) (map (of_elem sf) (map (to_elem ptp) t)) (Some (map (of_elem sf) (map (to_elem ptp) t'))) s1 s2 s3
                = ElIf e t (Some t') s1 s2 s3).
        rewrite E1, E2, back; auto.
      + change (ElIf (of_edit (to_edit e)) (map (of_elem sf) (map (to_elem ptp) t)) None s1 StripNone s3
                = ElIf e t None s1 s2 s3).
        rewrite E1, back, H11; auto.
    - assert (E1 : map (of_elem sf) (map (to_elem ptp) t) = t).
      { rewrite map_map. apply map_id_Forall. rewrite Forall_forall in *. auto. }
      assert (E2 : option_map EAst.i_name (option_map ident_new k) = k) by (destruct k; auto).
      change (ElFor (option_map EAst.i_name (option_map ident_new k)) v (of_edit (to_edit e)) (map (of_elem sf) (map (to_elem ptp) t)) s1 s2
              = ElFor k v e t s1 s2).
      rewrite E1, E2, back; auto.
  Qed.
  Lemma tpl_back t : Forall (keeps_elem template_kept) t -> of_tpl sf (to_tpl ptp t) = t.
  Proof.
    intros H. change (map (of_elem sf) (map (to_elem ptp) t) = t). rewrite map_map. apply map_id_Forall.
    eapply Forall_impl; [|exact H]. apply elem_back.
  Qed.

  Definition xattr_keys (l : list EAst.xstruct) : list str :=
    flat_map (fun s => match s with EAst.XAttr _ k _ => [EAst.i_name k] | EAst.XBlock _ _ _ _ => [] end) l.
  Lemma has_attr k l : existsb (is_attr k) l = true -> In k (xattr_keys l).
  Proof.
    induction l as [|s l IH]; cbn; [discriminate|]. rewrite orb_true_iff, in_app_iff. intros [H|H]; [left|right; auto].
    destruct s; cbn in *; [|discriminate]. apply seqb_eq in H. auto.
  Qed.
  Lemma structs_collect_id l : NoDup (xattr_keys l) -> structs_collect l = l.
  Proof.
    unfold structs_collect. enough (H : forall acc, NoDup (xattr_keys (acc ++ l)) -> fold_left push_struct l acc = acc ++ l)
      by (intros; now apply (H [])).
    induction l as [|s l IH]; intros acc N; cbn [fold_left]; [now rewrite app_nil_r|].
    assert (E : push_struct acc s = acc ++ [s]).
    { destruct s; cbn [push_struct]; auto. destruct (existsb (is_attr (EAst.i_name k)) acc) eqn:E; auto. exfalso.
      apply has_attr in E. unfold xattr_keys in N. rewrite flat_map_app in N. cbn [flat_map app] in N.
      apply NoDup_remove_2 in N. apply N. apply in_app_iff. now left. }
    rewrite E, IH; rewrite <- app_assoc; auto.
  Qed.
  Lemma xattr_keys_to b : xattr_keys (map (to_struct ptp) b) = attr_keys b.
  Proof. unfold xattr_keys, attr_keys. induction b as [|s b IH]; cbn; auto. rewrite IH. destruct s; reflexivity. Qed.
  Lemma label_back l : of_label (to_label l) = l.
  Proof. destruct l; reflexivity. Qed.
  Lemma struct_back : forall s, keeps_struct template_kept s -> of_struct sf (to_struct ptp s) = s.
  Proof.
    apply (struct_ind' (fun s => keeps_struct template_kept s -> of_struct sf (to_struct ptp s) = s)); intros;
      match goal with H : keeps_struct _ _ |- _ => inversion H; subst; clear H end.
    - cbn. rewrite back; auto.
    - change (SBlk i (map of_label (map to_label ls)) (map (of_struct sf) (structs_collect (map (to_struct ptp) b))) = SBlk i ls b).
      rewrite structs_collect_id by now rewrite xattr_keys_to. rewrite !map_map. f_equal; apply map_id_Forall.
      + apply Forall_forall. intros; apply label_back.
      + rewrite Forall_forall in *. auto.
  Qed.
  Lemma body_back b : keeps_body template_kept b -> of_body sf (to_body ptp b) = b.
  Proof.
    intros [H N]. change (map (of_struct sf) (structs_collect (map (to_struct ptp) b)) = b).
    rewrite structs_collect_id by now rewrite xattr_keys_to. rewrite map_map. apply map_id_Forall.
    eapply Forall_impl; [|exact H]. apply struct_back.
  Qed.
End Conv.

(** Evaluation results are well-formed, and panics come from arithmetic only. *)
From Coq Require Import ZArith NArith Bool String List Lia.
From Verif Require Import Res Str NumberModel PrimModel Ast AstInd EvalModel EvalSpec EvalProofs.
From Verif Require MapModel MapProofs.
Import ListNotations.
Open Scope nat_scope.

Lemma wf_arr l : wf_value (VArr l) <-> Forall wf_value l.
Proof. cbn [wf_value]. induction l as [|v l IH]; cbn; split; intros H; auto.
  - constructor; tauto.
  - inversion H; subst. tauto.
Qed.
Lemma wf_obj m : wf_value (VObj m) <-> NoDup (map fst m) /\ Forall (fun e => wf_value (snd e)) m.
Proof.
  cbn [wf_value]. assert (H : fold_right (fun e P => wf_value (snd e) /\ P) True m <-> Forall (fun e => wf_value (snd e)) m).
  { induction m as [|v m IH]; cbn; split; intros H; auto.
    - constructor; tauto.
    - inversion H; subst. tauto. }
  tauto.
Qed.
Lemma fold_or {A} (P : A -> Prop) l : fold_right (fun a Q => P a \/ Q) False l <-> exists a, In a l /\ P a.
Proof.
  induction l as [|a l IH]; cbn; split; intros H.
  - destruct H.
  - destruct H as [a [[] _]].
  - destruct H as [H|H]; [exists a; auto|]. apply IH in H. destruct H as [b [H1 H2]]. exists b. auto.
  - destruct H as [b [[<-|H1] H2]]; auto. right. apply IH. eauto.
Qed.

(** *** Maps with string keys *)
Lemma insert_keys {V} k (v : V) m :
  map fst (fst (MapModel.insert seqb k v m)) =
  if MapModel.contains_key seqb k m then map fst m else map fst m ++ [k].
Proof.
  unfold MapModel.contains_key. induction m as [|[k' v'] m IH]; cbn [MapModel.insert MapModel.get_key_value]; auto.
  destruct (seqb k k'); cbn; auto. destruct (MapModel.insert seqb k v m) as [m' o]. cbn in *.
  rewrite IH. destruct (MapModel.get_key_value seqb k m); reflexivity.
Qed.
Lemma contains_in {V} k (m : list (str * V)) : MapModel.contains_key seqb k m = true <-> In k (map fst m).
Proof.
  unfold MapModel.contains_key. induction m as [|[k' v'] m IH]; cbn [MapModel.get_key_value map fst].
  - split; [discriminate|intros []].
  - destruct (seqb k k') eqn:E.
    + apply seqb_eq in E. subst. split; auto. intros _. left. reflexivity.
    + rewrite IH. split; [right; auto|]. intros [H|H]; auto. apply seqb_neq in E. congruence.
Qed.
Lemma insert_nodup {V} k (v : V) m : NoDup (map fst m) -> NoDup (map fst (fst (MapModel.insert seqb k v m))).
Proof.
  intros H. rewrite insert_keys. destruct (MapModel.contains_key seqb k m) eqn:E; auto.
  assert (N : ~ In k (map fst m)) by (intros I; apply contains_in in I; congruence).
  clear E. induction (map fst m) as [|x l IH]; cbn; constructor; auto.
  - inversion H; subst. intros I. apply in_app_or in I. destruct I as [I|[I|[]]]; auto. subst. apply N. left. auto.
  - apply IH; [inversion H; auto|]. intros I. apply N. right. auto.
Qed.
Lemma insert_forall {V} (P : V -> Prop) k v m :
  P v -> Forall (fun e => P (snd e)) m -> Forall (fun e => P (snd e)) (fst (MapModel.insert seqb k v m)).
Proof.
  intros Hv H. induction H as [|[k' v'] m H1 H2 IH]; cbn [MapModel.insert].
  - cbn. auto.
  - destruct (seqb k k'); cbn; auto. destruct (MapModel.insert seqb k v m) as [m' o]. cbn in *. auto.
Qed.
Lemma extend_wf {V} (P : V -> Prop) l : forall m,
  NoDup (map fst m) -> Forall (fun e => P (snd e)) m -> Forall (fun e => P (snd e)) l ->
  NoDup (map fst (MapModel.extend seqb l m)) /\ Forall (fun e => P (snd e)) (MapModel.extend seqb l m).
Proof.
  unfold MapModel.extend. induction l as [|[k v] l IH]; intros m H1 H2 H3; cbn [fold_left]; auto.
  inversion H3; subst. apply IH; auto.
  - apply insert_nodup. exact H1.
  - apply insert_forall; auto.
Qed.
Lemma get_in {V} k (m : list (str * V)) v : MapModel.get seqb k m = Some v -> exists k', In (k', v) m.
Proof.
  unfold MapModel.get. induction m as [|[k' v'] m IH]; cbn; [discriminate|].
  destruct (seqb k k'); cbn.
  - intros H. injection H as ->. eauto.
  - intros H. destruct (IH H) as [k2 Hk]. eauto.
Qed.

(** *** Postconditions *)
Definition post {A} (F : fail -> Prop) (P : A -> Prop) (x : eres A) : Prop :=
  match x with Ok a => P a | Fail f => F f end.
Lemma post_bind {A B} F (P : A -> Prop) (R : B -> Prop) x f :
  post F P x -> (forall a, P a -> post F R (f a)) -> post F R (ebind x f).
Proof. destruct x; cbn; auto. Qed.
Lemma post_map {A B} F (P : A -> Prop) (R : B -> Prop) x f :
  post F P x -> (forall a, P a -> R (f a)) -> post F R (emap f x).
Proof. destruct x; cbn; auto. Qed.
Lemma post_collect {A B} F (P : B -> Prop) (f : A -> eres B) l :
  (forall a, In a l -> post F P (f a)) -> post F (Forall P) (collect f l).
Proof.
  induction l as [|a l IH]; intros H; cbn [collect].
  - constructor.
  - eapply post_bind; [apply H; left; reflexivity|]. intros b Hb.
    eapply post_map; [apply IH; intros; apply H; right; assumption|]. intros bs Hbs. constructor; auto.
Qed.
Lemma post_for_loop {A} F (I : A -> Prop) mk cond body items acc :
  (forall k v, In (k, v) items -> post F (fun _ => True) (cond (mk k v))) ->
  (forall a k v, In (k, v) items -> I a -> post F I (body a (mk k v))) -> I acc ->
  post F I (for_loop mk cond body items acc).
Proof.
  revert acc. induction items as [|[k v] items IH]; intros acc Hc Hb Ha; cbn [for_loop]; auto.
  assert (IH' : forall acc, I acc -> post F I (for_loop mk cond body items acc)).
  { intros a H. apply IH; auto; intros; [apply Hc|apply Hb]; try right; auto. }
  eapply post_bind; [apply Hc; left; reflexivity|]. intros [] _; auto.
  eapply post_bind; [apply Hb; [left; reflexivity|exact Ha]|]. auto.
Qed.

Section Post.
  Context (bd : build) (show_value : value -> str) (show_num : num -> str) (parse_tpl : str -> option template).
  Context (F : fail -> Prop).
  Hypothesis Herr : forall k, F (FErr k).
  Hypothesis Hfuel : F FFuel.
  Notation vpost := (post F wf_value).

  Lemma post_object_value v k : wf_value v -> vpost (object_value v k).
  Proof.
    intros H. destruct v; cbn [object_value]; try apply Herr.
    destruct (MapModel.get seqb k m) eqn:E; [|apply Herr]. apply get_in in E. destruct E as [k' E].
    apply wf_obj in H. destruct H as [_ H]. rewrite Forall_forall in H. apply (H _ E).
  Qed.
  Lemma post_array_value v i : wf_value v -> vpost (array_value v i).
  Proof.
    intros H. destruct v; cbn [array_value]; try apply Herr.
    destruct (N.ltb_spec i (N.of_nat (length l))) as [L|L]; [|apply Herr].
    destruct (nth_error l (N.to_nat i)) eqn:E.
    - apply nth_error_In in E. apply wf_arr in H. rewrite Forall_forall in H. apply (H _ E).
    - apply nth_error_None in E. lia.
  Qed.
  Lemma post_index_value v i : wf_value v -> vpost (index_value v i).
  Proof.
    intros H. destruct i; cbn [index_value]; try apply Herr.
    - destruct (as_u64 n); [apply post_array_value; auto|apply Herr].
    - apply post_object_value. auto.
  Qed.
  Lemma post_splat f v : (forall x, wf_value x -> vpost (f x)) -> wf_value v -> vpost (splat f v).
  Proof.
    intros Hf H. assert (G : vpost (emap (fun x => VArr [x]) (f v))).
    { eapply post_map; [apply Hf; exact H|]. intros a Ha. apply wf_arr. auto. }
    destruct v; cbn [splat]; try exact G.
    - cbn. exact I.
    - eapply post_map; [apply post_collect|].
      + intros a Ha. apply Hf. apply wf_arr in H. rewrite Forall_forall in H. auto.
      + intros l' Hl. apply wf_arr. exact Hl.
  Qed.
  Lemma post_attr_path ops v : wf_value v -> vpost (attr_path ops v).
  Proof.
    revert v. induction ops as [|o ops IH]; intros v H; cbn [attr_path]; auto.
    destruct o; auto. eapply post_bind; [apply post_object_value; exact H|]. auto.
  Qed.
  Lemma post_traverse ops : forall (skip : bool) v,
    Forall (fun o => match o with Index r => post F (fun _ => True) r | _ => True end) ops ->
    wf_value v -> vpost (traverse skip ops v).
  Proof.
    induction ops as [|o ops IH]; intros skip v Ho H; cbn [traverse]; auto.
    inversion Ho as [|? ? Ho1 Ho2]; subst. destruct o as [| |s|r|i].
    - eapply post_bind; [apply post_splat; [apply post_attr_path|exact H]|]. auto.
    - apply post_splat; auto.
    - destruct skip; auto. eapply post_bind; [apply post_object_value; exact H|]. auto.
    - eapply post_bind; [eapply post_bind; [exact Ho1|]|].
      + intros. apply post_index_value. exact H.
      + auto.
    - eapply post_bind; [apply post_array_value; exact H|]. auto.
  Qed.
  Lemma post_as_array v : wf_value v -> post F (Forall wf_value) (as_array v).
  Proof. intros H. destruct v; cbn; try apply Herr. apply wf_arr. exact H. Qed.
  Lemma post_as_bool v : post F (fun _ => True) (as_bool v).
  Proof. destruct v; cbn; auto; apply Herr. Qed.
  Lemma post_call_args (b : bool) l : Forall (post F wf_value) l -> post F (Forall wf_value) (call_args b l).
  Proof.
    intros H. induction H as [|x l H1 H2 IH]; cbn [call_args].
    - constructor.
    - destruct l as [|y l].
      + destruct b; [eapply post_bind; [exact H1|apply post_as_array]|].
        eapply post_map; [exact H1|]. auto.
      + eapply post_bind; [exact H1|]. intros v Hv. eapply post_map; [exact IH|]. auto.
  Qed.
  Lemma post_object_key v : post F (fun _ => True) (object_key show_num v).
  Proof. destruct v; cbn; auto; apply Herr. Qed.
  Lemma enumerate_wf l : forall i, Forall wf_value l ->
    Forall (fun p => wf_value (fst p) /\ wf_value (snd p)) (enumerate i l).
  Proof.
    induction l as [|v l IH]; intros i H; cbn [enumerate]; [constructor|].
    inversion H; subst. constructor; auto. cbn. auto.
  Qed.
  Lemma post_collection v : wf_value v ->
    post F (Forall (fun p => wf_value (fst p) /\ wf_value (snd p))) (collection v).
  Proof.
    intros H. destruct v; cbn; try apply Herr.
    - apply enumerate_wf. apply wf_arr. exact H.
    - apply wf_obj in H. destruct H as [_ H]. rewrite Forall_forall in *. intros p Hp.
      apply in_map_iff in Hp. destruct Hp as [e [<- He]]. split; [exact I|]. apply (H _ He).
  Qed.
  Lemma wf_next c kv vv k v : wf_ctx c -> wf_value k -> wf_value v -> wf_ctx (next_ctx c kv vv k v).
  Proof.
    intros [H1 H2] Hk Hv. split.
    - intros x w. rewrite var_next. destruct (seqb x vv); [intros E; injection E as <-; exact Hv|].
      destruct (match kv with Some y => seqb x y | None => false end); [intros E; injection E as <-; exact Hk|].
      apply H1.
    - intros f d a w. rewrite func_next. apply H2.
  Qed.
  Definition obj_inv (g : bool) (m : list (str * value)) : Prop :=
    NoDup (map fst m) /\ Forall (fun e => wf_value (snd e)) m /\
    (g = true -> Forall (fun e => match snd e with VArr _ => True | _ => False end) m).
  Lemma post_entry (g : bool) k v m : obj_inv g m -> wf_value v -> post F (obj_inv g) (entry_insert g k v m).
  Proof.
    intros [H1 [H2 H3]] Hv. unfold entry_insert, group_push. destruct g.
    - specialize (H3 eq_refl).
      destruct (MapModel.get seqb k m) as [w|] eqn:E.
      + apply get_in in E. destruct E as [k' E].
        pose proof (proj1 (Forall_forall _ _) H3 _ E) as A. cbn in A. destruct w; try contradiction.
        pose proof (proj1 (Forall_forall _ _) H2 _ E) as W. cbn [snd] in W.
        split; [apply insert_nodup; exact H1|]. split.
        * apply (insert_forall wf_value); auto. apply wf_arr. apply wf_arr in W. apply Forall_app. auto.
        * intros _. apply (insert_forall (fun v => match v with VArr _ => True | _ => False end)); cbn; auto.
      + split; [apply insert_nodup; exact H1|]. split.
        * apply (insert_forall wf_value); auto. apply wf_arr. auto.
        * intros _. apply (insert_forall (fun v => match v with VArr _ => True | _ => False end)); cbn; auto.
    - destruct (MapModel.get seqb k m); [apply Herr|].
      split; [apply insert_nodup; exact H1|]. split; [|discriminate].
      apply (insert_forall wf_value); auto.
  Qed.
  Lemma post_call fd args f : Forall wf_value args ->
    (forall a v, Forall wf_value (fa_values a) -> fd_func fd a = inl v -> wf_value v) ->
    vpost (match call_func fd args with inl v => Ok v | inr err => Err (KFuncCall f err) end).
  Proof.
    intros H Hf. unfold call_func.
    repeat match goal with |- context [if ?b then _ else _] => destruct b; [apply Herr|] end.
    destruct (bad_positional 0 _ _); [apply Herr|].
    destruct (match fd_variadic fd with Some p => _ | None => None end); [apply Herr|].
    destruct (fd_func fd _) eqn:E; [|apply Herr]. cbn. eapply Hf; [|exact E]. exact H.
  Qed.

  Definition op_ok (o : unop + binop) : Prop := op_panics bd o -> F FPanic.
  Lemma post_unary o v : op_ok (inl o) -> vpost (eval_unary bd o v).
  Proof.
    intros H. destruct o, v; cbn [eval_unary]; try apply Herr.
    - destruct (num_neg bd n) eqn:E; cbn; auto. apply H. cbn. eauto.
    - exact I.
  Qed.
  Lemma post_binary o l r : op_ok (inr o) -> vpost (eval_binary bd l o r).
  Proof.
    intros H. unfold eval_binary.
    destruct o; try exact I; destruct l; try apply Herr; destruct r; try apply Herr; try exact I.
    - destruct (num_add bd n n0) eqn:E; cbn; auto. apply H. cbn. eauto.
    - destruct (num_sub bd n n0) eqn:E; cbn; auto. apply H. cbn. eauto.
    - destruct (num_mul bd n n0) eqn:E; cbn; auto. apply H. cbn. eauto.
    - destruct (num_div bd n n0) eqn:E; cbn; auto. apply H. cbn. eauto.
    - destruct (num_rem bd n n0) eqn:E; cbn; auto. apply H. cbn. eauto.
  Qed.

  Section Expr.
    Context (ft : unop + binop -> str -> Prop) (tpl : ctx -> str -> eres value).
    Hypothesis Htpl : forall c s, wf_ctx c -> (forall o, ft o s -> op_ok o) -> vpost (tpl c s).

    Lemma eval_expr_post e : forall c, wf_ctx c -> (forall o, op_expr o (ft o) e -> op_ok o) ->
      vpost (eval_expr bd show_num tpl c e).
    Proof.
      induction e as [ |b|n|s|l IH|m IH|t|x|e ops IHe IH|f args b IH|e IH|a b d IHa IHb IHd|o e IH
                     |l o r IHl IHr|kv vv coll key val g cond IHcoll IHkey IHval IHcond] using expr_ind';
        intros c W HO; cbn [EvalModel.eval_expr]; try exact I.
      - eapply post_map; [apply post_collect|intros vs; apply wf_arr].
        intros e He. rewrite Forall_forall in IH. apply IH; auto. intros o Ho. apply HO. cbn [op_expr].
        apply fold_or. eauto.
      - rewrite Forall_forall in IH.
        eapply (post_map F (Forall (fun p => wf_value (snd p)))).
        + apply post_collect. intros [k v] He. destruct (IH _ He) as [IHk IHv]. cbn [fst snd] in *.
          assert (HO' : forall o, match k with KIdent _ => False | KExpr e => op_expr o (ft o) e end
                          \/ op_expr o (ft o) v -> op_ok o).
          { intros o Ho. apply HO. cbn [op_expr]. clear -He Ho. induction m as [|p m IH]; [destruct He|].
            cbn [fold_right]. destruct He as [->|He]; cbn [fst snd]; [tauto|]. right. right. auto. }
          eapply (post_bind F (fun _ => True)).
          * destruct k as [s|e]; [exact I|]. eapply post_bind; [apply IHk; auto|intros; apply post_object_key].
          * intros s _. eapply post_map; [apply IHv; auto|]. auto.
        + intros l Hl. apply wf_obj. apply (extend_wf wf_value); auto. constructor.
      - apply Htpl; auto.
      - unfold lookup_var. destruct (ctx_var c x) eqn:E; [|apply Herr]. apply (proj1 W _ _ E).
      - eapply post_bind; [apply IHe; auto; intros o Ho; apply HO; cbn [op_expr]; auto|].
        intros v Hv. apply post_traverse; auto. rewrite Forall_forall in *. intros o Ho.
        apply in_map_iff in Ho. destruct Ho as [o' [<- Ho]]. specialize (IH _ Ho).
        destruct o' as [| | |e'|]; auto.
        assert (G : vpost (eval_expr bd show_num tpl c e')).
        { apply IH; auto. intros o2 Ho2. apply HO. cbn [op_expr]. right. apply fold_or. eauto. }
        destruct (eval_expr bd show_num tpl c e'); cbn in *; auto.
      - unfold lookup_func. destruct (ctx_func c f) eqn:E; [|apply Herr]. cbn [ebind].
        eapply post_bind.
        + apply post_call_args. rewrite Forall_forall in *. intros r Hr. apply in_map_iff in Hr.
          destruct Hr as [e [<- He]]. apply IH; auto. intros o Ho. apply HO. cbn [op_expr]. apply fold_or. eauto.
        + intros vs Hvs. apply post_call; auto. intros a v. apply (proj2 W _ _ _ _ E).
      - apply IH; auto.
      - eapply post_bind; [apply IHa; auto; intros o Ho; apply HO; cbn [op_expr]; auto|]. intros v _.
        eapply post_bind; [apply post_as_bool|]. intros [] _; [apply IHb|apply IHd]; auto;
          intros o Ho; apply HO; cbn [op_expr]; auto.
      - eapply post_bind; [apply IH; auto; intros o2 Ho; apply HO; cbn [op_expr]; auto|]. intros v _.
        apply post_unary. apply HO. cbn [op_expr]. auto.
      - eapply post_bind; [apply IHl; auto; intros o2 Ho; apply HO; cbn [op_expr]; auto|]. intros v _.
        eapply post_bind; [apply IHr; auto; intros o2 Ho; apply HO; cbn [op_expr]; auto|]. intros v2 _.
        apply post_binary. apply HO. cbn [op_expr]. auto.
      - eapply post_bind.
        { eapply post_bind; [apply IHcoll; auto; intros o2 Ho; apply HO; cbn [op_expr]; auto|].
          intros v Hv. apply post_collection. exact Hv. }
        intros items Hit. rewrite Forall_forall in Hit.
        assert (WN : forall k v, In (k, v) items -> wf_ctx (next_ctx c kv vv k v)).
        { intros k v Hin. destruct (Hit _ Hin). apply wf_next; auto. }
        assert (HC : forall k v, In (k, v) items -> post F (fun _ => True)
            match cond with None => Ok true
            | Some e => ebind (eval_expr bd show_num tpl (next_ctx c kv vv k v) e) as_bool end).
        { intros k v Hin. destruct cond as [cond|]; [|exact I].
          eapply post_bind; [apply IHcond; auto; intros o Ho; apply HO; cbn [op_expr]; auto|].
          intros. apply post_as_bool. }
        destruct key as [key|].
        + eapply post_map; [apply (post_for_loop F (obj_inv g))|].
          * exact HC.
          * intros a k v Hin Ha. eapply post_bind.
            -- eapply post_bind; [apply IHkey; auto; intros o Ho; apply HO; cbn [op_expr]; auto|].
               intros. apply post_object_key.
            -- intros s _. eapply post_bind; [apply IHval; auto; intros o Ho; apply HO; cbn [op_expr]; auto|].
               intros w Hw. apply post_entry; auto.
          * split; [constructor|]. split; [constructor|]. intros _. constructor.
          * intros m [H1 [H2 _]]. apply wf_obj. auto.
        + eapply post_map; [apply (post_for_loop F (Forall wf_value))|].
          * exact HC.
          * intros a k v Hin Ha. eapply post_map; [apply IHval; auto; intros o Ho; apply HO; cbn [op_expr]; auto|].
            intros w Hw. apply Forall_app. auto.
          * constructor.
          * intros l. apply wf_arr.
    Qed.
  End Expr.

  (** *** Template element access stays in range *)
  Lemma post_neighbours els prev next i : i < length els -> post F (fun _ => True) (neighbours els prev next i).
  Proof.
    intros L. unfold neighbours.
    assert (A : forall j, j < length els ->
      post F (fun _ => True) (match nth_error els j with Some el => Ok (elem_strip el) | None => Fail FPanic end)).
    { intros j Hj. destruct (nth_error els j) eqn:E; [exact I|]. apply nth_error_None in E. lia. }
    destruct (Nat.eqb_spec i 0) as [->|N0]; destruct (Nat.eqb_spec (length els) 1) as [E1|N1]; cbn [andb].
    - exact I.
    - eapply post_map; [apply A; lia|]. auto.
    - rewrite E1. replace (Nat.eqb i (1 - 1)) with false by (symmetry; apply Nat.eqb_neq; lia).
      lia.
    - destruct (Nat.eqb_spec i (length els - 1)).
      + eapply post_map; [apply A; lia|]. auto.
      + eapply post_bind; [apply A; lia|]. intros p _. eapply post_map; [apply A; lia|]. auto.
  Qed.
  Lemma post_tpl_loop out all prev next els : forall i acc,
    i + length els = length all ->
    (forall el p n, In el els -> post F (fun _ => True) (out el p n)) ->
    post F (fun _ => True) (tpl_loop out all prev next i els acc).
  Proof.
    induction els as [|el els IH]; intros i acc L H; cbn [tpl_loop]; [exact I|]. cbn [length] in L.
    eapply post_bind; [apply post_neighbours; lia|]. intros pn _.
    eapply post_bind; [apply H; left; reflexivity|]. intros s _. apply IH; [lia|].
    intros. apply H. right. assumption.
  Qed.

  Section Tpl.
    Context (fe : unop + binop -> expr -> Prop) (ev : ctx -> expr -> eres value).
    Hypothesis Hev : forall c e, wf_ctx c -> (forall o, fe o e -> op_ok o) -> vpost (ev c e).
    Lemma vpost_true (x : eres value) : vpost x -> post F (fun _ => True) x.
    Proof. destruct x; cbn; auto. Qed.

    Lemma eval_elem_post el : forall c p n, wf_ctx c -> (forall o, op_elem (fe o) el -> op_ok o) ->
      post F (fun _ => True) (eval_elem show_value ev c el p n).
    Proof.
      induction el as [s|e s|e t f s1 s2 s3 IHt IHf|kv vv e t s1 s2 IHt] using elem_ind';
        intros c p n W HO; cbn [EvalModel.eval_elem].
      - exact I.
      - eapply post_map; [apply Hev; auto|]. auto.
      - eapply (post_bind F (fun _ => True)).
        + eapply post_bind; [apply Hev; auto; intros o Ho; apply HO; cbn [op_elem]; auto|]. intros. apply post_as_bool.
        + intros [] _.
          * apply post_tpl_loop; [reflexivity|]. intros el p' n' Hel. rewrite Forall_forall in IHt.
            apply IHt; auto. intros o Ho. apply HO. cbn [op_elem]. right. left. apply fold_or. eauto.
          * destruct f as [f|]; [|exact I]. cbn [opt_all] in IHf. rewrite Forall_forall in IHf.
            apply post_tpl_loop; [reflexivity|]. intros el p' n' Hel.
            apply IHf; auto. intros o Ho. apply HO. cbn [op_elem]. right. right. apply fold_or. eauto.
      - eapply post_bind.
        { eapply post_bind; [apply Hev; auto; intros o Ho; apply HO; cbn [op_elem]; auto|].
          intros v Hv. apply post_collection. exact Hv. }
        intros items Hit. rewrite Forall_forall in Hit.
        apply post_for_loop; [intros; exact I| |exact I].
        intros a k v Hin _. eapply post_map; [|auto].
        apply post_tpl_loop; [reflexivity|]. intros el p' n' Hel. rewrite Forall_forall in IHt.
        apply IHt; auto.
        + destruct (Hit _ Hin). apply wf_next; auto.
        + intros o Ho. apply HO. cbn [op_elem]. right. apply fold_or. eauto.
    Qed.
    Lemma eval_template_post t c : wf_ctx c -> (forall o el, In el t -> op_elem (fe o) el -> op_ok o) ->
      post F (fun _ => True) (eval_template show_value ev c t).
    Proof.
      intros W HO. apply post_tpl_loop; [reflexivity|]. intros. apply eval_elem_post; eauto.
    Qed.
    Lemma eval_tpl_text_post s c : wf_ctx c -> (forall o, op_text parse_tpl (fe o) s -> op_ok o) ->
      vpost (eval_tpl_text parse_tpl show_value ev c s).
    Proof.
      intros W. unfold op_text, eval_tpl_text. destruct (parse_tpl s) as [t|]; intros HO; [|apply Herr].
      assert (T : vpost (emap VStr (eval_template show_value ev c t))).
      { eapply post_map; [apply eval_template_post; eauto|]. intros. exact I. }
      destruct t as [|el t]; [exact T|]. destruct el as [s0|e st|? ? ? ? ? ?|? ? ? ? ? ?];
        destruct t as [|? ?]; try exact T.
      apply Hev; auto. intros o Ho. apply HO. exists (ElInterp e st). split; [left; reflexivity|exact Ho].
    Qed.
  End Tpl.

  Lemma eval_post n : forall c e, wf_ctx c -> (forall o, op_occurs parse_tpl o n e -> op_ok o) ->
    vpost (eval bd parse_tpl show_value show_num n c e).
  Proof.
    induction n as [|n IH]; intros c e W HO; cbn [EvalModel.eval].
    - apply (eval_expr_post (fun _ _ => False)); auto.
    - apply (eval_expr_post (fun o => op_text parse_tpl (op_occurs parse_tpl o n))); auto.
      intros c' s W' HO'. apply (eval_tpl_text_post (fun o => op_occurs parse_tpl o n)); auto.
  Qed.
End Post.

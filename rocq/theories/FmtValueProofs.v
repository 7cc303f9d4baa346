(** * Formatted values are read back: proofs *)
From Coq Require Import NArith ZArith Arith Bool String List Lia.
From Verif Require Import Res Str Dec NumberModel PrimModel PrimProofs Ast AstInd EAst EqSpec.
From Verif Require Import EvalModel EvalSpec EvalProofs EvalWf EvalIp.
From Verif Require Import ConvModel ConvSpec ConvProofs FmtModel FmtSpec FmtLayout.
From Verif Require Import ParseBase ParseModel EatLeaf FmtReadSpec FmtReadProofs.
Import ListNotations.
Open Scope N_scope.

Lemma lall_Forall {A} (P : A -> Prop) l : lall P l <-> Forall P l.
Proof. induction l as [|a l IH]; cbn [lall]; [split; [constructor|exact (fun _ => I)]|]. rewrite IH. split; [intros [H1 H2]; now constructor|]. intros H. now inversion H. Qed.

(** [is_templated] finds the markers. *)
Definition starts (prev : chr) (s : str) : bool :=
  match s with m :: x :: _ => ((m =? 36) || (m =? 37)) && (x =? 123) && (prev =? m) | _ => false end.
Lemma last_cons (p : str) : forall a d, last (a :: p) d = last p a.
Proof.
  induction p as [|y p IH]; intros a d; [reflexivity|].
  change (last (a :: y :: p) d) with (last (y :: p) d). rewrite !IH. reflexivity.
Qed.
Lemma templated_starts s : forall prev, templated (starts prev s) s = true <->
  exists p m x r, s = p ++ m :: 123 :: x :: r /\ (m = 36 \/ m = 37) /\ last p prev <> m.
Proof.
  induction s as [|a s IH]; intros prev.
  { split; [discriminate|]. intros (p & m & x & r & E & _). destruct p; discriminate. }
  destruct s as [|b [|c s]].
  { split; [discriminate|]. intros (p & m & x & r & E & _). destruct p as [|? [|? ?]]; discriminate. }
  { split; [discriminate|]. intros (p & m & x & r & E & _). destruct p as [|? [|? [|? ?]]]; discriminate. }
  assert (REST : (exists p m x r, b :: c :: s = p ++ m :: 123 :: x :: r /\ (m = 36 \/ m = 37) /\ last p a <> m) ->
                 exists p m x r, a :: b :: c :: s = p ++ m :: 123 :: x :: r /\ (m = 36 \/ m = 37) /\ last p prev <> m).
  { intros (p & m & x & r & -> & M & L). exists (a :: p), m, x, r. split; [reflexivity|]. split; [exact M|].
    rewrite last_cons. exact L. }
  assert (BACK : (exists p m x r, a :: b :: c :: s = p ++ m :: 123 :: x :: r /\ (m = 36 \/ m = 37) /\ last p prev <> m) ->
                 (a <> prev /\ (a = 36 \/ a = 37) /\ b = 123) \/
                 exists p m x r, b :: c :: s = p ++ m :: 123 :: x :: r /\ (m = 36 \/ m = 37) /\ last p a <> m).
  { intros (p & m & x & r & E & M & L). destruct p as [|y p].
    - injection E as -> -> _. left. cbn in L. auto.
    - injection E as -> E. right. exists p, m, x, r. split; [exact E|]. split; [exact M|]. rewrite last_cons in L. exact L. }
  specialize (IH a). cbn [templated]. cbn [starts] in IH |- *.
  destruct (((a =? 36) || (a =? 37)) && (b =? 123) && (prev =? a)) eqn:SK.
  - apply andb_true_iff in SK. destruct SK as [SK P]. apply andb_true_iff in SK. destruct SK as [A B].
    apply N.eqb_eq in B, P. subst b prev.
    replace (((123 =? 36) || (123 =? 37)) && (c =? 123) && (a =? 123)) with false in IH by reflexivity.
    rewrite IH. split; [exact REST|]. intros H. destruct (BACK H) as [(X & _)|X]; [contradiction|exact X].
  - destruct (((a =? 36) && (b =? 36) || (a =? 37) && (b =? 37)) && (c =? 123)) eqn:D.
    + apply andb_true_iff in D. destruct D as [D C]. apply N.eqb_eq in C. subst c.
      assert (AB : a = b /\ (a = 36 \/ a = 37)).
      { apply orb_true_iff in D. destruct D as [D|D]; apply andb_true_iff in D; destruct D as [D1 D2];
          apply N.eqb_eq in D1, D2; subst; auto. }
      destruct AB as [-> M].
      replace (((b =? 36) || (b =? 37)) && (123 =? 123) && (b =? b)) with true in IH
        by (destruct M; subst b; reflexivity).
      rewrite IH. split; [exact REST|]. intros H. destruct (BACK H) as [(_ & _ & X)|X]; [|exact X].
      destruct M; subst b; discriminate.
    + destruct (((a =? 36) || (a =? 37)) && (b =? 123)) eqn:M.
      * split; [|reflexivity]. intros _. apply andb_true_iff in M. destruct M as [M B].
        cbn [andb] in SK. apply N.eqb_neq in SK. apply N.eqb_eq in B. subst b.
        exists [], a, c, s. split; [reflexivity|]. split; [|exact SK].
        apply orb_true_iff in M. destruct M as [M|M]; apply N.eqb_eq in M; auto.
      * replace (((b =? 36) || (b =? 37)) && (c =? 123) && (a =? b)) with false in IH.
        -- rewrite IH. split; [exact REST|]. intros H. destruct (BACK H) as [(_ & X & ->)|X]; [|exact X].
           destruct X; subst a; discriminate.
        -- symmetry. destruct (a =? b) eqn:E; [|apply andb_false_r]. apply N.eqb_eq in E. subst b.
           destruct (a =? 36), (a =? 37), (c =? 123); try discriminate; reflexivity.
Qed.
Lemma templated_marked s : is_templated s = true <-> marked s.
Proof.
  unfold is_templated, marked. rewrite <- (templated_starts s 0).
  replace (starts 0 s) with false; [reflexivity|]. unfold starts.
  destruct s as [|m [|x s]]; try reflexivity. destruct m as [|m]; [reflexivity|]. cbn [N.eqb]. rewrite andb_false_r. reflexivity.
Qed.
Lemma unmarked s : ~ marked s -> is_templated s = false.
Proof. intros H. destruct (is_templated s) eqn:E; [|reflexivity]. apply templated_marked in E. contradiction. Qed.

Section Value.
Context (u : unicode) (b : build) (pf : str -> f64) (sf : f64 -> str) (c : cfg).
Notation vread := (value_readable u b pf sf c).
Lemma vread_wf v : vread v -> wf_value v.
Proof.
  induction v as [ |d|n|s|l IH|m IH] using value_ind'; cbn [value_readable]; intros H; try exact I.
  - apply wf_arr. apply lall_Forall in H. rewrite Forall_forall in *. auto.
  - apply wf_obj. destruct H as [H1 H2]. split; [exact H2|]. apply lall_Forall in H1. rewrite Forall_forall in *. intros p Hp. apply IH; [exact Hp|]. now apply H1.
Qed.
Lemma vread_show v : vread v -> forall k n, show_value u sf c k n v = show u sf c k n (expr_of_value v).
Proof.
  induction v as [ |d|x|s|l IH|m IH] using value_ind'; cbn [value_readable]; intros H k n; try reflexivity.
  - cbn [show_value expr_of_value FmtSpec.show]. destruct H as [_ H]. rewrite (unmarked _ H). reflexivity.
  - cbn [show_value expr_of_value FmtSpec.show]. f_equal. rewrite map_map. apply map_ext_in. intros v Hv. apply lall_Forall in H. rewrite Forall_forall in *. auto.
  - destruct H as [H1 H2]. cbn [show_value expr_of_value]. rewrite obj_literal by exact H2. cbn [FmtSpec.show]. f_equal. rewrite map_map. apply map_ext_in. intros p Hp. cbn [fst snd].
    apply lall_Forall in H1. rewrite Forall_forall in *. f_equal. apply IH; [exact Hp|]. now apply H1.
Qed.
Lemma chain_all {A} (R : A -> A -> Prop) l : (forall a b, In b l -> R a b) -> chain R l.
Proof. induction l as [|a l IH]; intros H; [exact I|]. destruct l as [|a' l]; [exact I|]. split; [apply H; now right; left|]. apply IH. intros. apply H. now right. Qed.
Lemma keys_apart l : NoDup l -> ForallOrdPairs apart_keys (map (fun s => read_key u c (KExpr (EStr s))) l).
Proof.
  induction 1 as [|s l Hs _ IH]; cbn [map]; constructor; [|exact IH]. apply Forall_forall. intros k Hk. apply in_map_iff in Hk. destruct Hk as (t & <- & Ht).
  assert (E : seqb s t = false) by (apply seqb_neq; intros ->; contradiction).
  unfold apart_keys, read_key. destruct (c_ident_keys c && is_ident u s), (c_ident_keys c && is_ident u t); cbn; auto.
Qed.
Lemma vread_readable v : vread v -> readable u b pf sf c (expr_of_value v).
Proof.
  induction v as [ |d|x|s|l IH|m IH] using value_ind'; cbn [value_readable expr_of_value]; intros H; try exact I.
  - exact H.
  - exact (proj1 H).
  - cbn [readable]. apply lall_Forall. apply lall_Forall in H. rewrite Forall_forall in *. intros e He. apply in_map_iff in He. destruct He as (v & <- & Hv). auto.
  - destruct H as [H1 H2]. rewrite obj_literal by exact H2. cbn [readable]. split; [|split].
    + apply lall_Forall. apply lall_Forall in H1. rewrite Forall_forall in *. intros e He. apply in_map_iff in He. destruct He as (p & <- & Hp). cbn [fst snd].
      destruct (H1 p Hp) as [K V]. split; [exact K|]. now apply (IH p).
    + rewrite map_map. cbn [fst]. rewrite <- (map_map fst (fun s => read_key u c (KExpr (EStr s)))). now apply keys_apart.
    + apply chain_all. intros p q Hq _. apply in_map_iff in Hq. destruct Hq as (p' & <- & _). reflexivity.
Qed.
(** The value of the expression which is read is the value that was printed. *)
Lemma vread_eval tpl sn x v : vread v -> eval_expr b sn tpl x (as_read u c (expr_of_value v)) = Ok v.
Proof.
  induction v as [ |d|n|s|l IH|m IH] using value_ind'; cbn [value_readable expr_of_value]; intros H; try reflexivity.
  - cbn [as_read eval_expr]. rewrite !collect_map. apply lall_Forall in H. rewrite Forall_forall in *. rewrite collect_ok; auto.
  - destruct H as [H1 H2]. rewrite obj_literal by exact H2. cbn [as_read eval_expr]. rewrite !collect_map. rewrite (collect_ext _ (fun e => Ok e)).
    + rewrite collect_ok by auto. cbn [emap]. rewrite from_iter_nodup by exact H2. reflexivity.
    + intros [k v] Hin. apply lall_Forall in H1. rewrite Forall_forall in *. destruct (H1 _ Hin) as [_ V]. specialize (IH _ Hin V). cbn [fst snd] in *.
      unfold read_key. destruct (c_ident_keys c && is_ident u k); cbn [eval_expr object_key ebind]; rewrite IH; reflexivity.
Qed.
End Value.

(** Values have no heredocs. *)
Lemma value_strict : forall v, strict (expr_of_value v).
Proof.
  assert (HI : forall k v m, strict v -> lall (fun p : okey expr * expr => strict (snd p)) m -> lall (fun p => strict (snd p)) (eobj_insert k v m)).
  { intros k v m Hv. unfold eobj_insert. induction m as [|[k' v'] m IH]; cbn [MapModel.insert]; [cbn; auto|]. intros [H1 H2].
    destruct (okey_eqb expr_eqb k k'); [cbn [fst lall snd]; auto|]. specialize (IH H2). destruct (MapModel.insert (okey_eqb expr_eqb) k v m). cbn [fst lall snd] in *. auto. }
  induction v as [| | | |l IH|m IH] using value_ind'; try exact I; cbn [expr_of_value strict].
  - induction IH; cbn; auto.
  - unfold eobj_collect, MapModel.from_iter, MapModel.extend. assert (HA : lall (fun p : okey expr * expr => strict (snd p)) []) by exact I. revert HA.
    generalize (@nil (okey expr * expr)) as acc. induction IH as [|[k v] m Hv _ IHm]; intros acc HA; cbn [map fold_left fst snd] in *; [exact HA|].
    apply IHm. now apply HI.
Qed.

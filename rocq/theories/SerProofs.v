From Coq Require Import NArith ZArith Bool String List Lia.
From Verif Require Import Res Str NumberModel NumberProofs PrimModel Ast AstInd EvalSpec EvalIp SerModel SerSpec.
From Verif Require MapModel.
Import ListNotations.
Open Scope list_scope.

Section Ind.
  Context (P : sd -> Prop).
  Context (Hbool : forall b, P (DBool b)) (Hi : forall z, P (DI64 z)) (Hu : forall z, P (DU64 z)) (Hf : forall f, P (DF64 f))
    (Hc : forall c, P (DChar c)) (Hs : forall s, P (DStr s)) (Hb : forall l, P (DBytes l)) (Hun : P DUnit) (Hno : P DNone)
    (Hso : forall d, P d -> P (DSome d)) (Hus : P DUnitStruct) (Huv : forall v, P (DUnitVariant v))
    (Hns : forall n d, P d -> P (DNewtypeStruct n d)) (Hnv : forall v d, P d -> P (DNewtypeVariant v d))
    (Hseq : forall l, Forall P l -> P (DSeq l)) (Htv : forall v l, Forall P l -> P (DTupleVariant v l))
    (Hmap : forall l, Forall (fun e => P (fst e) /\ P (snd e)) l -> P (DMap l))
    (Hst : forall n l, Forall (fun e => P (snd e)) l -> P (DStruct n l))
    (Hsv : forall v l, Forall (fun e => P (snd e)) l -> P (DStructVariant v l))
    (Hh : forall h d, P d -> P (DHandle h d)) (Hm : forall l d, P d -> P (DMarked l d)) (Hfail : P DFail) (Hp : P DPanic)
    (Hcall : forall t d ok bad, P d -> P ok -> P bad -> P (DCall t d ok bad)).
  Fixpoint sd_all (d : sd) : P d :=
    let fix go (l : list sd) : Forall P l :=
      match l with [] => Forall_nil _ | x :: l => Forall_cons _ (sd_all x) (go l) end in
    let fix gos (l : list (str * sd)) : Forall (fun e => P (snd e)) l :=
      match l with [] => Forall_nil _ | (k, x) :: l => Forall_cons (k, x) (sd_all x) (gos l) end in
    match d with
    | DBool b => Hbool b | DI64 z => Hi z | DU64 z => Hu z | DF64 f => Hf f | DChar c => Hc c | DStr s => Hs s | DBytes l => Hb l
    | DUnit => Hun | DNone => Hno | DSome d => Hso d (sd_all d) | DUnitStruct => Hus | DUnitVariant v => Huv v
    | DNewtypeStruct n d => Hns n d (sd_all d) | DNewtypeVariant v d => Hnv v d (sd_all d)
    | DSeq l => Hseq l (go l) | DTupleVariant v l => Htv v l (go l)
    | DMap l => Hmap l ((fix gom (l : list (sd * sd)) : Forall (fun e => P (fst e) /\ P (snd e)) l :=
        match l with [] => Forall_nil _ | (k, x) :: l => Forall_cons (k, x) (conj (sd_all k) (sd_all x)) (gom l) end) l)
    | DStruct n l => Hst n l (gos l) | DStructVariant v l => Hsv v l (gos l)
    | DHandle h d => Hh h d (sd_all d) | DMarked l d => Hm l d (sd_all d) | DFail => Hfail | DPanic => Hp
    | DCall t d ok bad => Hcall t d ok bad (sd_all d) (sd_all ok) (sd_all bad)
    end.
End Ind.

(** ** What all computations keep, whatever the data *)
Definition step (s s' : tls) : Prop :=
  flag s' = flag s /\ (last (exprs s) <= last (exprs s'))%N /\ (last (structs s) <= last (structs s'))%N /\ (fresh s -> fresh s').
Lemma step_refl s : step s s.
Proof. repeat split; try lia; apply H. Qed.
Lemma step_trans s s' s'' : step s s' -> step s' s'' -> step s s''.
Proof. intros (A & B & C & D) (A' & B' & C' & D'). repeat split; try congruence; try lia; apply D', D, H. Qed.
Definition keeps {A} (m : M A) : Prop := forall s, step s (snd (m s)).
Lemma keeps_ret {A} (x : A) : keeps (ret x). Proof. intros s. apply step_refl. Qed.
Lemma keeps_err {A} : keeps (@err A). Proof. intros s. apply step_refl. Qed.
Lemma keeps_panic {A} : keeps (@panic A). Proof. intros s. apply step_refl. Qed.
Lemma keeps_internal : keeps internal. Proof. intros s. apply step_refl. Qed.
Lemma keeps_bind {A B} (m : M A) (f : A -> M B) : keeps m -> (forall x, keeps (f x)) -> keeps (bind m f).
Proof.
  intros Hm Hf s. unfold bind. specialize (Hm s). destruct (m s) as [[x| | |] s1]; cbn [snd] in *; auto.
  eapply step_trans; [exact Hm|apply Hf].
Qed.
Lemma keeps_opt {A} (o : option A) : keeps (from_opt o).
Proof. destruct o; [apply keeps_ret|apply keeps_err]. Qed.
Lemma keeps_fmap {A B} (f : A -> B) m : keeps m -> keeps (fmap f m).
Proof. intros H. apply keeps_bind; [exact H|]. intros x. apply keeps_ret. Qed.
Lemma keeps_mapm {A B} (f : A -> M B) l : Forall (fun x => keeps (f x)) l -> keeps (mapm f l).
Proof.
  induction 1 as [|x l Hx _ IH]; cbn [mapm]; [apply keeps_ret|]. apply keeps_bind; [exact Hx|]. intros y.
  apply keeps_bind; [exact IH|]. intros ys. apply keeps_ret.
Qed.
Lemma keeps_concatm {A B} (f : A -> M (list B)) l : Forall (fun x => keeps (f x)) l -> keeps (concatm f l).
Proof. intros H. now apply keeps_fmap, keeps_mapm. Qed.
Lemma fresh_put {T} (x : T) r : fresh_reg r -> fresh_reg (reg_put x r).
Proof. intros H h y [E|Hi]; cbn; [injection E as <- <-; lia|]. specialize (H h y Hi). lia. Qed.
Lemma fresh_del {T} h (r : reg T) : fresh_reg r -> fresh_reg (reg_del h r).
Proof. intros H h' y Hi. cbn in *. apply filter_In in Hi as [Hi _]. exact (H h' y Hi). Qed.
Lemma keeps_handle {A} h (k : N -> M A) : (forall n, keeps (k n)) -> keeps (with_handle h k).
Proof.
  intros Hk s. unfold with_handle. destruct h as [e|x].
  - eapply step_trans; [|apply Hk]. repeat split; cbn; try lia; [apply fresh_put|]; apply H.
  - eapply step_trans; [|apply Hk]. repeat split; cbn; try lia; [|apply fresh_put]; apply H.
Qed.
Lemma keeps_take_expr h : keeps (take_expr h).
Proof.
  intros s. unfold take_expr. destruct (reg_get h (exprs s)); [|apply step_refl].
  repeat split; cbn; try lia; [apply fresh_del|]; apply H.
Qed.
Lemma keeps_take_struct h : keeps (take_struct h).
Proof.
  intros s. unfold take_struct. destruct (reg_get h (structs s)); [|apply step_refl].
  repeat split; cbn; try lia; [|apply fresh_del]; apply H.
Qed.
Lemma keeps_with_internal {A} (m : M A) : keeps m -> keeps (with_internal m).
Proof.
  intros Hm s. unfold with_internal. specialize (Hm (set_flag true s)). destruct (m (set_flag true s)) as [r s'].
  destruct Hm as (A1 & B & C & D). cbn in *. repeat split; cbn; auto; apply D; exact H.
Qed.
Lemma keeps_attempt {A} (m : M A) : keeps m -> keeps (attempt m).
Proof. intros Hm s. specialize (Hm s). unfold attempt. destruct (m s) as [[x| | |] s']; exact Hm. Qed.

Section Keeps.
  Context (u : unicode) (b : build) (nested : top -> sd -> M bool) (Hn : forall t d, keeps (nested t d)).
  Lemma keeps_f64 {A} (x : A) g f : keeps (of_f64 b x g f).
  Proof. unfold of_f64. destruct (num_from_f64 b f) as [[n|]|]; auto using keeps_ret, keeps_panic. Qed.
  Ltac kp := repeat first
    [ apply keeps_ret | apply keeps_err | apply keeps_panic | apply keeps_internal | apply keeps_opt | apply keeps_f64
    | apply keeps_take_expr | apply keeps_take_struct | apply Hn | assumption
    | apply keeps_fmap | apply keeps_bind; [|intros ?] | apply keeps_handle; intros ? | apply keeps_mapm | apply keeps_concatm
    | match goal with |- keeps (if ?c then _ else _) => destruct c end ].
  Lemma keeps_string d : keeps (ser_string nested d).
  Proof. induction d using sd_all; cbn [ser_string]; kp. Qed.
  Lemma keeps_ident d : keeps (ser_ident u nested d).
  Proof. induction d using sd_all; cbn [ser_ident]; unfold ident_new; kp. Qed.
  Lemma keeps_u64 d : keeps (ser_u64 nested d).
  Proof. induction d using sd_all; cbn [ser_u64]; kp. Qed.
  Lemma keeps_key d : keeps (ser_key u nested d).
  Proof. induction d using sd_all; cbn [ser_key]; unfold ident_new; kp. Qed.
  Lemma keeps_handle_fields {F} (f : F -> M N) acc l : Forall (fun e => keeps (f (snd e))) l -> keeps (handle_fields f acc l).
  Proof.
    intros H. revert acc. induction H as [|[k x] l Hx _ IH]; intros acc; cbn [handle_fields]; [destruct acc; kp|].
    kp. apply IH.
  Qed.
  Lemma Forall_trivial {A} (P : A -> Prop) l : (forall x, P x) -> Forall P l.
  Proof. intros H. apply Forall_forall. auto. Qed.
  Lemma keeps_expr_struct {F} (u64 : F -> M N) (ex : F -> M expr) n l :
    Forall (fun e => keeps (u64 (snd e))) l -> Forall (fun e => keeps (ex (snd e))) l -> keeps (expr_struct u64 ex n l).
  Proof.
    intros H1 H2. unfold expr_struct. kp; [now apply keeps_handle_fields|].
    eapply Forall_impl; [|exact H2]. intros [k x] Hx. kp.
  Qed.
  Lemma keeps_value d : keeps (ser_value b nested d).
  Proof.
    induction d as [x|z|z|f|c|s|l| | |d IH| |v|n d IH|v d IH|l IH|v l IH|l IH|n l IH|v l IH|h d IH|lb d IH| | |t d ok bad IH IH1 IH2] using sd_all;
    cbn [ser_value]; kp; auto; eapply Forall_impl; try exact IH; intros [k x]; cbn; [intros [Hk Hx]|intros Hx|intros Hx]; kp.
    apply keeps_string.
  Qed.
  Lemma keeps_expr d : keeps (ser_expr u b nested d).
  Proof.
    induction d as [x|z|z|f|c|s|l| | |d IH| |v|n d IH|v d IH|l IH|v l IH|l IH|n l IH|v l IH|h d IH|lb d IH| | |t d ok bad IH IH1 IH2] using sd_all;
    cbn [ser_expr]; unfold ident_new; kp; auto.
    - eapply Forall_impl; try exact IH; intros [k x]; cbn; intros [Hk Hx]; kp. apply keeps_key.
    - apply keeps_expr_struct; [|exact IH]. apply Forall_trivial. intros e. apply keeps_u64.
    - eapply Forall_impl; try exact IH; intros [k x]; cbn; intros Hx; kp.
    - apply keeps_expr_struct; apply Forall_cons; auto using Forall_nil; cbn; kp.
  Qed.
  Lemma keeps_prim m k : keeps m -> keeps (prim m k).
  Proof. intros H. destruct k; cbn; kp. Qed.
  Lemma keeps_attrs e : keeps (attrs_of_expr u e).
  Proof.
    destruct e; cbn; kp. apply Forall_trivial. intros [[s|[]] v]; cbn; kp.
  Qed.
  Lemma keeps_structs_struct {F} (u64 : F -> M N) (ex : F -> M expr) (sub : F -> skind -> M (list struct_)) n l k :
    Forall (fun e => keeps (u64 (snd e))) l -> Forall (fun e => keeps (ex (snd e))) l ->
    Forall (fun e => forall k, keeps (sub (snd e) k)) l -> keeps (structs_struct u u64 ex sub n l k).
  Proof.
    intros H1 H2 H3. assert (Hf : keeps (concatm (fun p => match p with (k, x) => do! i <- ident_new u k; sub x (KStructure i) end) l)).
    { kp. eapply Forall_impl; [|exact H3]. intros [k0 x] Hx. unfold ident_new. kp. apply Hx. }
    unfold structs_struct. destruct k; kp; auto using keeps_handle_fields, keeps_attrs, keeps_expr_struct.
    eapply Forall_impl; [|exact H3]. intros [k0 x] Hx. kp. apply Hx.
  Qed.
  Lemma keeps_structs d : forall k, keeps (ser_structs u b nested d k).
  Proof.
    induction d as [x|z|z|f|c|s|l| | |d IH| |v|n d IH|v d IH|l IH|v l IH|l IH|n l IH|v l IH|h d IH|lb d IH| | |t d ok bad IH IH1 IH2] using sd_all;
    intros k; cbn [ser_structs]; unfold ident_new;
    try (apply keeps_prim; first [apply keeps_expr|cbn; kp]; fail); try (kp; auto; fail).
    - destruct (newtype_kind n k); [apply IH|apply keeps_prim, keeps_expr].
    - destruct k; [|apply keeps_fmap, keeps_expr| |]; kp; auto.
    - destruct k; kp; try (eapply Forall_impl; [|exact IH]; cbn; auto; fail). apply Forall_trivial. apply keeps_expr.
    - destruct k; [|apply keeps_fmap, keeps_expr| |]; kp; try (apply Forall_trivial; apply keeps_expr);
      (eapply Forall_impl; [|exact IH]; cbn; intros; kp; auto).
    - destruct k; [|apply keeps_fmap, keeps_expr| |]; kp; (eapply Forall_impl; [|exact IH]; cbn; intros [k0 x] [_ Hx]; kp; auto using keeps_ident, keeps_string).
    - apply keeps_structs_struct; [| |exact IH]; apply Forall_trivial; intros e; [apply keeps_u64|apply keeps_expr].
    - destruct k; [|apply keeps_fmap, keeps_expr| |]; kp; (eapply Forall_impl; [|exact IH]; cbn; intros [k1 y] Hy; kp; auto).
    - kp; auto. apply keeps_structs_struct; apply Forall_cons; auto using Forall_nil; cbn; intros; try apply keeps_prim; kp.
    - kp; auto. destruct (newtype_kind _ k); auto. apply keeps_prim, keeps_expr.
  Qed.
  Lemma keeps_call t d : keeps (call u b nested t d).
  Proof.
    destruct t; cbn; apply keeps_attempt; try apply keeps_with_internal; auto using keeps_expr, keeps_structs, keeps_value.
  Qed.
End Keeps.
Lemma keeps_calls u b n : forall t d, keeps (calls u b n t d).
Proof. induction n as [|n IH]; intros t d; cbn [calls]; [intros s; apply step_refl|]. now apply keeps_call. Qed.
Lemma keeps_run u b t d s : step s (run_top u b t d s).
Proof.
  destruct t; cbn.
  - apply keeps_with_internal, keeps_expr. apply keeps_calls.
  - apply keeps_with_internal, keeps_structs. apply keeps_calls.
  - apply keeps_value. apply keeps_calls.
Qed.

(** ** Balance *)
Definition ok_m (i np : bool) {A} (m : M A) : Prop := forall s, fresh s -> flag s = i ->
  balanced s (snd (m s)) /\ fresh (snd (m s)) /\ (np = true -> fst (m s) <> SPanic) /\ fst (m s) <> SFuel.
Lemma balanced_refl s : balanced s s. Proof. repeat split. Qed.
Lemma balanced_trans s s' s'' : balanced s s' -> balanced s' s'' -> balanced s s''.
Proof. unfold balanced. intuition congruence. Qed.
Section OkM.
  Context (i np : bool).
  Notation ok m := (ok_m i np m).
  Lemma ok_ret {A} (x : A) : ok (ret x).
  Proof. intros s Hs Hf. cbn. repeat split; auto using balanced_refl; try apply Hs; discriminate. Qed.
  Lemma ok_err {A} : ok (@err A).
  Proof. intros s Hs Hf. cbn. repeat split; auto using balanced_refl; try apply Hs; discriminate. Qed.
  Lemma ok_panic {A} : np = false -> ok (@panic A).
  Proof. intros E s Hs Hf. cbn. repeat split; auto using balanced_refl; try apply Hs; congruence. Qed.
  Lemma ok_opt {A} (o : option A) : ok (from_opt o).
  Proof. destruct o; [apply ok_ret|apply ok_err]. Qed.
  Lemma ok_bind {A B} (m : M A) (f : A -> M B) : ok m -> (forall x, ok (f x)) -> ok (bind m f).
  Proof.
    intros Hm Hf s Hs Ei. unfold bind. destruct (Hm s Hs Ei) as (B1 & F1 & P1 & U1).
    destruct (m s) as [[x| | |] s1]; cbn [fst snd] in *; try congruence.
    - destruct (Hf x s1 F1) as (B2 & F2 & P2 & U2); [unfold balanced in B1; intuition congruence|].
      repeat split; auto; try apply F2; eapply balanced_trans; eauto.
    - repeat split; auto; try apply F1; try apply B1; discriminate.
    - repeat split; auto; try apply F1; try apply B1; try discriminate. intros E. now destruct (P1 E).
  Qed.
  Lemma ok_fmap {A B} (f : A -> B) m : ok m -> ok (fmap f m).
  Proof. intros H. apply ok_bind; [exact H|]. intros x. apply ok_ret. Qed.
  Lemma ok_mapm {A B} (f : A -> M B) l : Forall (fun x => ok (f x)) l -> ok (mapm f l).
  Proof.
    induction 1 as [|x l Hx _ IH]; cbn [mapm]; [apply ok_ret|]. apply ok_bind; [exact Hx|]. intros y.
    apply ok_bind; [exact IH|]. intros ys. apply ok_ret.
  Qed.
  Lemma ok_concatm {A B} (f : A -> M (list B)) l : Forall (fun x => ok (f x)) l -> ok (concatm f l).
  Proof. intros H. now apply ok_fmap, ok_mapm. Qed.
  Lemma ok_with_internal {A} (m : M A) : ok_m true np m -> ok (with_internal m).
  Proof.
    intros Hm s Hs Ei. unfold with_internal. destruct (Hm (set_flag true s)) as (B1 & F1 & P1 & U1); [exact Hs|reflexivity|].
    destruct (m (set_flag true s)) as [r s']. unfold balanced, fresh in *. cbn in *. intuition.
  Qed.
  Lemma ok_attempt {A} (m : M A) : ok m -> ok (attempt m).
  Proof.
    intros Hm s Hs Ei. unfold attempt. destruct (Hm s Hs Ei) as (B1 & F1 & P1 & U1).
    destruct (m s) as [[x| | |] s']; cbn [fst snd] in *; repeat split; auto; try apply F1; try apply B1; try discriminate; try congruence;
    intros E; now destruct (P1 E).
  Qed.
  Lemma ok_internal {A} (f : bool -> M A) : ok (f i) -> ok (bind internal f).
  Proof. intros H s Hs Ei. cbn. rewrite Ei. apply H; auto. Qed.
End OkM.

Lemma reg_get_put {T} (x : T) r : reg_get (last r) (reg_put x r) = Some x.
Proof. unfold reg_get, reg_put. cbn. now rewrite N.eqb_refl. Qed.
Lemma reg_del_put {T} (x : T) r : fresh_reg r -> reg_del (last r) (reg_put x r) = Reg (N.succ (last r)) (live r).
Proof.
  intros H. unfold reg_del, reg_put. cbn. rewrite N.eqb_refl. cbn. f_equal.
  unfold fresh_reg in H. induction (live r) as [|[h y] l IH]; [reflexivity|]. cbn.
  assert (h < last r)%N by (apply (H h y); now left). destruct (N.eqb_spec h (last r)); [lia|]. cbn. f_equal. apply IH.
  intros h' y' Hi. apply (H h' y'). now right.
Qed.
(** A handle that is taken back at once. *)
Definition used_expr (s : tls) : tls := Tls (flag s) (Reg (N.succ (last (exprs s))) (live (exprs s))) (structs s).
Definition used_struct (s : tls) : tls := Tls (flag s) (exprs s) (Reg (N.succ (last (structs s))) (live (structs s))).
Lemma handle_expr {A} e (k : expr -> M A) s : fresh s ->
  with_handle (HExpr e) (fun n => do! h <- handle_fields ret None [(lit "handle", n)]; do! e <- take_expr h; k e) s = k e (used_expr s).
Proof.
  intros [Hs _]. unfold with_handle. cbn [handle_fields]. replace (seqb (lit "handle") (lit "handle")) with true by reflexivity.
  unfold bind, ret, take_expr. cbn [exprs flag structs]. now rewrite reg_get_put, reg_del_put by exact Hs.
Qed.
Lemma handle_struct {A} x (k : struct_ -> M A) s : fresh s ->
  with_handle (HStruct x) (fun n => do! h <- handle_fields ret None [(lit "handle", n)]; do! e <- take_struct h; k e) s = k x (used_struct s).
Proof.
  intros [_ Hs]. unfold with_handle. cbn [handle_fields]. replace (seqb (lit "handle") (lit "handle")) with true by reflexivity.
  unfold bind, ret, take_struct. cbn [exprs flag structs]. now rewrite reg_get_put, reg_del_put by exact Hs.
Qed.
Lemma handle_expr0 e s : fresh s ->
  with_handle (HExpr e) (fun n => do! h <- handle_fields ret None [(lit "handle", n)]; take_expr h) s = (SOk e, used_expr s).
Proof.
  intros Hs. change (SOk e, used_expr s) with (ret e (used_expr s)). rewrite <- (handle_expr e ret s Hs). unfold with_handle, bind.
  destruct (handle_fields _ _ _ _) as [[] t]; try reflexivity. now destruct (take_expr x t) as [[]].
Qed.
Lemma fresh_used_expr s : fresh s -> fresh (used_expr s).
Proof. intros [H1 H2]. split; [|exact H2]. intros h x Hi. cbn in *. specialize (H1 h x Hi). lia. Qed.
Lemma fresh_used_struct s : fresh s -> fresh (used_struct s).
Proof. intros [H1 H2]. split; [exact H1|]. intros h x Hi. cbn in *. specialize (H2 h x Hi). lia. Qed.
Lemma ok_from {A} i np (m : M A) (s' : tls -> tls) (m' : M A) :
  (forall s, fresh s -> m s = m' (s' s)) -> (forall s, fresh s -> fresh (s' s)) -> (forall s, balanced s (s' s)) -> ok_m i np m' -> ok_m i np m.
Proof.
  intros E Hf Hb H s Hs Ei. rewrite E by exact Hs. destruct (H (s' s)) as (B1 & F1 & P1 & U1); [auto|rewrite <- Ei; apply Hb|].
  repeat split; auto; try apply F1; eapply balanced_trans; eauto.
Qed.
Lemma bind_ret_r {A} (m : M A) s : bind m ret s = m s.
Proof. unfold bind, ret. now destruct (m s) as [[]]. Qed.

(** *** Good data *)
Section Good.
  Local Open Scope nat_scope.
  Context (u : unicode) (b : build) (np : bool) (n : nat).
  Definition good (i : bool) (p : pos) (d : sd) : Prop :=
    placed i p d = true /\ (np = true -> calm d = true) /\ depth d <= n.
  Lemma good_seq i p l : good i p (DSeq l) -> Forall (good i (inner_seq p)) l.
  Proof.
    intros (H1 & H2 & H3). cbn [placed calm] in *. cbn [depth] in H3. rewrite forallb_forall in H1.
    induction l as [|x l IH]; [constructor|]. apply Forall_cons.
    - split; [apply H1; now left|]. split; [intros E; specialize (H2 E); cbn in H2; now apply andb_true_iff in H2|lia].
    - apply IH; [intros y Hy; apply H1; now right| |lia]. intros E. specialize (H2 E). cbn in H2. now apply andb_true_iff in H2.
  Qed.
  Lemma good_tuple i p v l : good i p (DTupleVariant v l) -> Forall (good i (inner_tuple p)) l.
  Proof.
    intros (H1 & H2 & H3). cbn [placed calm] in *. cbn [depth] in H3. rewrite forallb_forall in H1.
    induction l as [|x l IH]; [constructor|]. apply Forall_cons.
    - split; [apply H1; now left|]. split; [intros E; specialize (H2 E); cbn in H2; now apply andb_true_iff in H2|lia].
    - apply IH; [intros y Hy; apply H1; now right| |lia]. intros E. specialize (H2 E). cbn in H2. now apply andb_true_iff in H2.
  Qed.
  Lemma good_map i p l : good i p (DMap l) -> Forall (fun e => good i AtKey (fst e) /\ good i (inner p) (snd e)) l.
  Proof.
    intros (H1 & H2 & H3). cbn [placed calm] in *. cbn [depth] in H3. rewrite forallb_forall in H1.
    induction l as [|[k x] l IH]; [constructor|]. apply Forall_cons.
    - assert (G := H1 (k, x) (or_introl eq_refl)). cbn in G. apply andb_true_iff in G as [G1 G2].
      split; (split; [assumption|]; split; [|cbn; lia]); intros E; specialize (H2 E); cbn in H2;
      apply andb_true_iff in H2 as [H2 _]; now apply andb_true_iff in H2.
    - apply IH; [intros y Hy; apply H1; now right| |lia]. intros E. specialize (H2 E). cbn in H2. now apply andb_true_iff in H2.
  Qed.
  Lemma good_fields i p l :
    forallb (fun e : str * sd => match e with (_, d) => placed i (inner p) d end) l = true ->
    (np = true -> forallb (fun e : str * sd => match e with (_, d) => calm d end) l = true) ->
    depth (DStruct [] l) <= n -> Forall (fun e => good i (inner p) (snd e)) l.
  Proof.
    intros H1 H2 H3. cbn [depth] in H3. rewrite forallb_forall in H1.
    induction l as [|[k x] l IH]; [constructor|]. apply Forall_cons.
    - assert (G := H1 (k, x) (or_introl eq_refl)). cbn in G. split; [exact G|]. split; [|cbn; lia].
      intros E; specialize (H2 E); cbn in H2. now apply andb_true_iff in H2.
    - apply IH; [intros y Hy; apply H1; now right| |lia]. intros E. specialize (H2 E). cbn in H2. now apply andb_true_iff in H2.
  Qed.
  Lemma good_struct i p name l : good i p (DStruct name l) ->
    seqb name expr_marker = false /\ seqb name struct_marker = false /\ Forall (fun e => good i (inner p) (snd e)) l.
  Proof.
    intros (H1 & H2 & H3). cbn [placed calm] in *. apply andb_true_iff in H1 as [H1 H1']. apply andb_true_iff in H1 as [Ha Hb].
    apply negb_true_iff in Ha, Hb. split; [exact Ha|]. split; [exact Hb|]. now apply good_fields.
  Qed.
  Lemma good_struct_variant i p v l : good i p (DStructVariant v l) -> Forall (fun e => good i (inner p) (snd e)) l.
  Proof. intros (H1 & H2 & H3). cbn [placed calm] in *. now apply good_fields. Qed.
  Lemma good_some i p d : good i p (DSome d) -> good i p d. Proof. intros (H1 & H2 & H3). repeat split; auto. Qed.
  Lemma good_newtype i p m d : good i p (DNewtypeStruct m d) -> good i (inner_newtype m p) d. Proof. intros (H1 & H2 & H3). repeat split; auto. Qed.
  Lemma good_variant i p v d : good i p (DNewtypeVariant v d) -> good i (inner p) d. Proof. intros (H1 & H2 & H3). repeat split; auto. Qed.
  Lemma good_marked i p l d : good i p (DMarked l d) ->
    good i (if i then inner_newtype (if l then labeled_marker else block_marker) p else p) d.
  Proof. intros (H1 & H2 & H3). repeat split; auto. Qed.
  Lemma good_handle_on p h d : good true p (DHandle h d) -> accepts p h = true. Proof. intros (H1 & _). exact H1. Qed.
  Lemma good_handle_off p h d : good false p (DHandle h d) -> good false p d. Proof. intros (H1 & H2 & H3). repeat split; auto. Qed.
  Lemma good_panic i p : good i p DPanic -> np = false.
  Proof. intros (_ & H & _). destruct np; [discriminate (H eq_refl)|reflexivity]. Qed.
  Lemma good_call i p t d ok bad : good i p (DCall t d ok bad) ->
    (placed (match t with ToValue => i | _ => true end) (pos_of t) d = true /\ (np = true -> calm d = true) /\ S (depth d) <= n) /\
    good i p ok /\ good i p bad.
  Proof.
    intros (H1 & H2 & H3). cbn [placed calm] in *. cbn [depth] in H3. apply andb_true_iff in H1 as [H1 H1c]. apply andb_true_iff in H1 as [H1a H1b].
    assert (np = true -> calm d = true /\ calm ok = true /\ calm bad = true).
    { intros E. specialize (H2 E). apply andb_true_iff in H2 as [H2 H2c]. apply andb_true_iff in H2 as [H2a H2b]. auto. }
    repeat split; auto; try lia; intros E; now apply H.
  Qed.

  Context (nested : top -> sd -> M bool).
  Context (Hn : forall i t d, placed (match t with ToValue => i | _ => true end) (pos_of t) d = true ->
    (np = true -> calm d = true) -> S (depth d) <= n -> ok_m i np (nested t d)).
  Lemma ok_f64 {A} i (x : A) g f : ok_m i np (of_f64 b x g f).
  Proof.
    unfold of_f64. destruct (num_from_f64 b f) as [[m|]|] eqn:E; [apply ok_ret|apply ok_ret|].
    exfalso. unfold num_from_f64, f64_finite in E. destruct (BinarySingleNaN.is_finite f) eqn:F; [|discriminate].
    destruct (from_finite_f64_spec b f F) as (m & Em & _). now rewrite Em in E.
  Qed.

  Ltac kg := repeat first
    [ apply ok_ret | apply ok_err | apply ok_opt | apply ok_f64
    | apply ok_fmap | apply ok_bind; [|intros]
    | apply ok_concatm | apply ok_mapm
    | match goal with |- ok_m _ _ (if ?c then _ else _) => destruct c end ].
  Lemma ok_nested i p t d ok bad A (f : sd -> M A) : good i p (DCall t d ok bad) ->
    (good i p ok -> ok_m i np (f ok)) -> (good i p bad -> ok_m i np (f bad)) ->
    ok_m i np (do! r <- nested t d; if r then f ok else f bad).
  Proof.
    intros G H1 H2. apply good_call in G as ((Ga & Gb & Gc) & Gok & Gbad). apply ok_bind; [now apply Hn|].
    intros []; auto.
  Qed.
  Lemma ok_key_handle i h d A (m m' : M A) : good i AtKey (DHandle h d) ->
    (good i AtKey d -> ok_m i np m') -> ok_m i np (do! i <- internal; if i then m else m').
  Proof.
    intros G H. apply ok_internal. destruct i.
    - apply good_handle_on in G. discriminate.
    - apply H. now apply good_handle_off in G.
  Qed.
  Lemma ok_string i d : good i AtKey d -> ok_m i np (ser_string nested d).
  Proof.
    induction d as [x|z|z|f|c|s|l| | |d IH| |v|m d IH|v d IH|l IH|v l IH|l IH|m l IH|v l IH|h d IH|lb d IH| | |t d ok bad IH IH1 IH2] using sd_all;
    intros G; cbn [ser_string]; try (kg; fail).
    - apply IH. now apply good_some.
    - apply IH. now apply good_newtype in G.
    - eapply ok_key_handle; eauto.
    - apply IH. apply good_marked in G. now destruct i.
    - apply ok_panic. eapply good_panic; eauto.
    - eapply ok_nested; eauto.
  Qed.
  Lemma ok_ident i d : good i AtKey d -> ok_m i np (ser_ident u nested d).
  Proof.
    induction d as [x|z|z|f|c|s|l| | |d IH| |v|m d IH|v d IH|l IH|v l IH|l IH|m l IH|v l IH|h d IH|lb d IH| | |t d ok bad IH IH1 IH2] using sd_all;
    intros G; cbn [ser_ident]; unfold ident_new; try (kg; fail).
    - apply IH. now apply good_some.
    - apply IH. now apply good_newtype in G.
    - eapply ok_key_handle; eauto.
    - apply IH. apply good_marked in G. now destruct i.
    - apply ok_panic. eapply good_panic; eauto.
    - eapply ok_nested; eauto.
  Qed.
  Lemma ok_key i d : good i AtKey d -> ok_m i np (ser_key u nested d).
  Proof.
    induction d as [x|z|z|f|c|s|l| | |d IH| |v|m d IH|v d IH|l IH|v l IH|l IH|m l IH|v l IH|h d IH|lb d IH| | |t d ok bad IH IH1 IH2] using sd_all;
    intros G; cbn [ser_key]; unfold ident_new; try (kg; fail).
    - apply IH. now apply good_some.
    - apply IH. now apply good_newtype in G.
    - apply IH. now apply good_variant in G.
    - eapply ok_key_handle; eauto.
    - apply IH. apply good_marked in G. now destruct i.
    - apply ok_panic. eapply good_panic; eauto.
    - eapply ok_nested; eauto.
  Qed.
  Lemma ok_value i d : good i AtValue d -> ok_m i np (ser_value b nested d).
  Proof.
    induction d as [x|z|z|f|c|s|l| | |d IH| |v|m d IH|v d IH|l IH|v l IH|l IH|m l IH|v l IH|h d IH|lb d IH| | |t d ok bad IH IH1 IH2] using sd_all;
    intros G; cbn [ser_value]; try (kg; fail).
    - apply IH. now apply good_some.
    - apply IH. now apply good_newtype in G.
    - kg. apply IH. now apply good_variant in G.
    - apply good_seq in G. kg. rewrite Forall_forall in *. auto.
    - apply good_tuple in G. kg. rewrite Forall_forall in *. auto.
    - apply good_map in G. kg. rewrite Forall_forall in *. intros [k x] Hi. destruct (G _ Hi), (IH _ Hi). kg; auto using ok_string.
    - apply good_struct in G as (_ & _ & G). kg. rewrite Forall_forall in *. intros [k x] Hi. specialize (G _ Hi). specialize (IH _ Hi). kg; auto.
    - apply good_struct_variant in G. kg. rewrite Forall_forall in *. intros [k x] Hi. specialize (G _ Hi). specialize (IH _ Hi). kg; auto.
    - apply ok_internal. destruct i; [apply good_handle_on in G; destruct h; discriminate|]. apply IH. now apply good_handle_off in G.
    - apply IH. apply good_marked in G. now destruct i.
    - apply ok_panic. eapply good_panic; eauto.
    - eapply ok_nested; eauto.
  Qed.
  Lemma ok_expr i d : good i AtExpr d -> ok_m i np (ser_expr u b nested d).
  Proof.
    induction d as [x|z|z|f|c|s|l| | |d IH| |v|m d IH|v d IH|l IH|v l IH|l IH|m l IH|v l IH|h d IH|lb d IH| | |t d ok bad IH IH1 IH2] using sd_all;
    intros G; cbn [ser_expr]; unfold ident_new; try (kg; fail).
    - apply IH. now apply good_some.
    - apply IH. now apply good_newtype in G.
    - kg. apply IH. now apply good_variant in G.
    - apply good_seq in G. kg. rewrite Forall_forall in *. auto.
    - apply good_tuple in G. kg. rewrite Forall_forall in *. auto.
    - apply good_map in G. kg. rewrite Forall_forall in *. intros [k x] Hi. destruct (G _ Hi), (IH _ Hi). kg; auto using ok_key.
    - apply good_struct in G as (Ea & _ & G). unfold expr_struct. rewrite Ea. kg. rewrite Forall_forall in *. intros [k x] Hi.
      specialize (G _ Hi). specialize (IH _ Hi). kg; auto.
    - apply good_struct_variant in G. kg. rewrite Forall_forall in *. intros [k x] Hi. specialize (G _ Hi). specialize (IH _ Hi). kg; auto.
    - apply ok_internal. destruct i.
      + apply good_handle_on in G. destruct h as [e|x]; [|discriminate]. cbn [marker]. unfold expr_struct.
        rewrite seqb_refl. eapply (ok_from _ _ _ used_expr (ret e)); [|exact fresh_used_expr| |apply ok_ret].
        * intros s Hs. exact (handle_expr0 e s Hs).
        * intros s. repeat split.
      + apply IH. now apply good_handle_off in G.
    - apply IH. apply good_marked in G. now destruct i, lb.
    - apply ok_panic. eapply good_panic; eauto.
    - eapply ok_nested; eauto.
  Qed.
  Definition kpos (k : skind) : pos :=
    match k with KBody => AtBody | KStructure _ => AtStructure | KBlock _ => AtBlock | KLabeled _ => AtLabeled end.
  Lemma ok_attrs i e : ok_m i np (attrs_of_expr u e).
  Proof. destruct e; cbn; kg. apply Forall_trivial. intros [[s|[]] v]; cbn; kg. Qed.
  Lemma ok_prim i m k : ok_m i np m -> ok_m i np (prim m k).
  Proof. intros H. destruct k; cbn; kg. exact H. Qed.
  Lemma newtype_kpos name k : match newtype_kind name k with Some k' => inner_newtype name (kpos k) = kpos k' | None => inner_newtype name (kpos k) = AtExpr end.
  Proof. destruct k; cbn; try reflexivity; repeat destruct (seqb _ _); reflexivity. Qed.
  Lemma ok_structs i d : forall k, good i (kpos k) d -> ok_m i np (ser_structs u b nested d k).
  Proof.
    induction d as [x|z|z|f|c|s|l| | |d IH| |v|m d IH|v d IH|l IH|v l IH|l IH|m l IH|v l IH|h d IH|lb d IH| | |t d ok bad IH IH1 IH2] using sd_all;
    intros k G; cbn [ser_structs]; unfold ident_new;
    try (apply ok_prim; cbn; kg; fail); try (kg; fail).
    - apply IH. now apply good_some.
    - apply good_newtype in G. assert (E := newtype_kpos m k). destruct (newtype_kind m k); rewrite E in G; [now apply IH|].
      now apply ok_prim, ok_expr.
    - destruct k as [|id|id|id]; [|apply ok_fmap, ok_expr, G| |]; apply good_variant in G; kg; apply IH; exact G.
    - apply good_seq in G. rewrite Forall_forall in *. destruct k as [|id|id|id]; kg; rewrite Forall_forall; intros; try (apply IH; auto; fail).
      apply ok_expr; auto.
    - destruct k as [|id|id|id]; [|apply ok_fmap, ok_expr, G| |]; apply good_tuple in G; rewrite Forall_forall in *; kg;
      rewrite Forall_forall; intros; kg; solve [apply IH; auto|apply ok_expr; auto].
    - destruct k as [|id|id|id]; [|apply ok_fmap, ok_expr, G| |]; apply good_map in G; rewrite Forall_forall in *; kg;
      rewrite Forall_forall; intros [k0 x0] Hi; destruct (G _ Hi), (IH _ Hi); kg; solve [apply H2; auto|auto using ok_ident, ok_string].
    - assert (G' := G). apply good_struct in G' as (Ea & Eb & G'). rewrite Forall_forall in *. unfold structs_struct, ident_new.
      destruct k as [|id|id|id]; rewrite ?Ea, ?Eb; [|apply ok_fmap; apply (ok_expr i (DStruct m l)); exact G| |];
      kg; rewrite Forall_forall; intros [k0 x0] Hi; specialize (G' _ Hi); specialize (IH _ Hi); kg; now apply IH.
    - destruct k as [|id|id|id]; [|apply ok_fmap, ok_expr, G| |]; apply good_struct_variant in G; rewrite Forall_forall in *; kg;
      rewrite Forall_forall; intros [k0 x0] Hi; specialize (G _ Hi); specialize (IH _ Hi); kg; now apply IH.
    - apply ok_internal. destruct i; [|apply IH; now apply good_handle_off in G]. apply good_handle_on in G.
      unfold structs_struct. destruct k as [|id|id|id], h as [e|y]; try discriminate; cbn [marker].
      + replace (seqb expr_marker struct_marker) with false by reflexivity. rewrite seqb_refl.
        eapply (ok_from _ _ _ used_expr (attrs_of_expr u e)); [|exact fresh_used_expr| |apply ok_attrs]; [|repeat split].
        intros s Hs. exact (handle_expr e (attrs_of_expr u) s Hs).
      + rewrite seqb_refl. eapply (ok_from _ _ _ used_struct (ret [y])); [|exact fresh_used_struct| |apply ok_ret]; [|repeat split].
        intros s Hs. exact (handle_struct y (fun y => ret [y]) s Hs).
      + unfold expr_struct. rewrite seqb_refl. eapply (ok_from _ _ _ used_expr (ret (attr id e))); [|exact fresh_used_expr| |apply ok_ret]; [|repeat split].
        intros s Hs. rewrite <- (handle_expr e (fun e => ret (attr id e)) s Hs). unfold with_handle, fmap, bind.
        now destruct (handle_fields _ _ _ _) as [[]].
    - apply ok_internal. apply good_marked in G. destruct i; [|now apply IH].
      assert (E := newtype_kpos (if lb then labeled_marker else block_marker) k).
      destruct (newtype_kind _ k); rewrite E in G; [now apply IH|]. now apply ok_prim, ok_expr.
    - apply ok_panic. eapply good_panic; eauto.
    - apply (ok_nested i (kpos k) t d ok bad _ (fun d => ser_structs u b nested d k)); auto.
  Qed.
  Lemma ok_call i t d : placed (match t with ToValue => i | _ => true end) (pos_of t) d = true ->
    (np = true -> calm d = true) -> depth d <= n -> ok_m i np (call u b nested t d).
  Proof.
    intros H1 H2 H3. destruct t; cbn [call pos_of] in *; apply ok_attempt; try apply ok_with_internal.
    - apply ok_expr. repeat split; auto.
    - apply (ok_structs _ _ KBody). repeat split; auto.
    - apply ok_value. repeat split; auto.
  Qed.
End Good.
Lemma ok_calls u b np n : forall i t d, placed (match t with ToValue => i | _ => true end) (pos_of t) d = true ->
  (np = true -> calm d = true) -> (S (depth d) <= n)%nat -> ok_m i np (calls u b n t d).
Proof.
  induction n as [|n IH]; intros i t d H1 H2 H3; [lia|]. cbn [calls]. apply (ok_call u b np n); auto. lia.
Qed.

Lemma ok_run u b t d s : placed (match t with ToValue => flag s | _ => true end) (pos_of t) d = true -> fresh s ->
  balanced s (run_top u b t d s) /\ fresh (run_top u b t d s).
Proof.
  intros H Hs. enough (G : ok_m (flag s) false (call u b (calls u b (depth d)) t d)).
  { destruct (G s Hs eq_refl) as (G1 & G2 & _). unfold run_top, run_expr, run_body, run_value. destruct t; cbn [call] in *; unfold attempt in *;
    match goal with |- balanced _ (snd (?m s)) /\ _ => destruct (m s) as [[] s'] end; cbn in *; auto. }
  apply (ok_call u b false (depth d)); auto; [|discriminate]. intros i t0 d0 P1 P2 P3. now apply ok_calls.
Qed.
Lemma ok_run_calm u b d s : calm d = true -> fresh s ->
  (placed true AtExpr d = true -> fst (run_expr u b d s) <> SPanic /\ fst (run_expr u b d s) <> SFuel) /\
  (placed true AtBody d = true -> fst (run_body u b d s) <> SPanic /\ fst (run_body u b d s) <> SFuel) /\
  (placed (flag s) AtValue d = true -> fst (run_value u b d s) <> SPanic /\ fst (run_value u b d s) <> SFuel).
Proof.
  intros Hc Hs.
  assert (Hn : forall i t d0, placed (match t with ToValue => i | _ => true end) (pos_of t) d0 = true ->
    (true = true -> calm d0 = true) -> (S (depth d0) <= depth d)%nat -> ok_m i true (calls u b (depth d) t d0)) by (intros; now apply ok_calls).
  assert (G : forall p i, placed i p d = true -> good true (depth d) i p d) by (intros; repeat split; auto).
  split; [|split]; intros Hp.
  - destruct (ok_with_internal (flag s) true _ (ok_expr u b true (depth d) _ Hn true d (G _ _ Hp)) s Hs eq_refl) as (_ & _ & H1 & H2). auto.
  - destruct (ok_with_internal (flag s) true _ (ok_structs u b true (depth d) _ Hn true d KBody (G _ _ Hp)) s Hs eq_refl) as (_ & _ & H1 & H2). auto.
  - destruct (ok_value b true (depth d) _ Hn (flag s) d (G _ _ Hp) s Hs eq_refl) as (_ & _ & H1 & H2). auto.
Qed.

(** ** The crate's own types *)
Section OwnTypes.
  Context (u : unicode) (b : build) (nested : top -> sd -> M bool) (interp : expr -> str).
  Lemma run_own_expr e s : fresh s -> flag s = true -> ser_expr u b nested (sd_expr interp e) s = (SOk e, used_expr s).
  Proof.
    intros Hs Hf. unfold sd_expr. cbn [ser_expr]. unfold bind, internal. rewrite Hf. cbn [marker]. unfold expr_struct.
    rewrite seqb_refl. now apply handle_expr0.
  Qed.
  Lemma run_own_struct x s : fresh s -> flag s = true -> ser_structs u b nested (sd_struct interp x) KBody s = (SOk [x], used_struct s).
  Proof.
    intros Hs Hf. unfold sd_struct. cbn [ser_structs]. unfold bind, internal. rewrite Hf. cbn [marker]. unfold structs_struct.
    rewrite seqb_refl. exact (handle_struct x (fun y => ret [y]) s Hs).
  Qed.
  Lemma run_own_attr id e s : fresh s -> flag s = true -> ser_structs u b nested (sd_expr interp e) (KStructure id) s = (SOk (attr id e), used_expr s).
  Proof.
    intros Hs Hf. unfold sd_expr. cbn [ser_structs]. unfold bind at 1, internal. rewrite Hf. cbn [marker]. unfold structs_struct, expr_struct.
    rewrite seqb_refl. change (SOk (attr id e), used_expr s) with (ret (attr id e) (used_expr s)). rewrite <- (handle_expr e (fun e => ret (attr id e)) s Hs).
    unfold with_handle, fmap, bind. now destruct (handle_fields _ _ _ _) as [[]].
  Qed.
  Lemma run_own_body l : forall s, fresh s -> flag s = true -> exists s', balanced s s' /\ fresh s' /\
    ser_structs u b nested (sd_body interp l) KBody s = (SOk l, s').
  Proof.
    cbn [sd_body ser_structs newtype_kind]. unfold concatm, fmap. intros s Hs Hf.
    enough (exists s', balanced s s' /\ fresh s' /\ mapm (fun x => ser_structs u b nested x KBody) (map (sd_struct interp) l) s = (SOk (map (fun x => [x]) l), s')) as (s' & H1 & H2 & E).
    { exists s'. repeat split; auto; try apply H1; try apply H2. unfold sd_body. cbn [ser_structs newtype_kind]. unfold concatm, fmap, bind, ret.
      rewrite E. do 2 f_equal. clear. induction l as [|x l IH]; cbn; congruence. }
    revert s Hs Hf. induction l as [|x l IH]; intros s Hs Hf; cbn [map mapm].
    - exists s. split; [apply balanced_refl|]. split; [exact Hs|reflexivity].
    - unfold bind at 1. rewrite run_own_struct by assumption.
      destruct (IH (used_struct s)) as (s' & H1 & H2 & E); [now apply fresh_used_struct|exact Hf|].
      exists s'. split; [exact H1|]. split; [exact H2|]. unfold bind. now rewrite E.
  Qed.
End OwnTypes.

(** ** Values *)
Lemma mapm_pure {A B C} (f : B -> M C) (h : A -> B) (g : A -> C) l :
  Forall (fun x => forall s, f (h x) s = (SOk (g x), s)) l -> forall s, mapm f (map h l) s = (SOk (map g l), s).
Proof.
  induction 1 as [|x l Hx _ IH]; intros s; [reflexivity|]. cbn [map mapm]. unfold bind. now rewrite Hx, IH.
Qed.
Lemma of_f64_num {A} b (null : A) f g s : of_f64 b null f g s = (SOk (match num_from_f64 b g with Done (Some n) => f n | _ => null end), s).
Proof.
  unfold of_f64. destruct (num_from_f64 b g) as [[m|]|] eqn:E; try reflexivity.
  exfalso. unfold num_from_f64, f64_finite in E. destruct (BinarySingleNaN.is_finite g) eqn:F; [|discriminate].
  destruct (from_finite_f64_spec b g F) as (m & Em & _). now rewrite Em in E.
Qed.
Lemma ser_value_value b nested v : forall s, ser_value b nested (sd_value v) s = (SOk (de_value b v), s).
Proof.
  induction v as [|x|n|x|l IH|m IH] using value_ind'; intros s; cbn [sd_value ser_value de_value]; try reflexivity.
  - destruct n as [z|z|f]; cbn; try reflexivity. rewrite of_f64_num. now destruct (num_from_f64 b f) as [[]|].
  - unfold fmap, bind. now rewrite (mapm_pure _ sd_value (de_value b)).
  - unfold fmap, bind. rewrite (mapm_pure _ _ (fun p => (fst p, de_value b (snd p)))); [reflexivity|].
    rewrite Forall_forall in *. intros p Hp s0. cbn. now rewrite IH.
Qed.
Lemma numbers_all P (l : list value) : fold_right (fun v Q => numbers P v /\ Q) True l <-> Forall (numbers P) l.
Proof. induction l as [|x l IH]; cbn; split; intros H; auto; [apply Forall_cons; tauto|inversion H; subst; tauto]. Qed.
Lemma numbers_all_obj P (l : list (str * value)) : fold_right (fun e Q => numbers P (snd e) /\ Q) True l <-> Forall (fun e => numbers P (snd e)) l.
Proof. induction l as [|x l IH]; cbn; split; intros H; auto; [apply Forall_cons; tauto|inversion H; subst; tauto]. Qed.
Lemma wf_all (l : list value) : fold_right (fun v Q => wf_value v /\ Q) True l <-> Forall wf_value l.
Proof. induction l as [|x l IH]; cbn; split; intros H; auto; [apply Forall_cons; tauto|inversion H; subst; tauto]. Qed.
Lemma wf_all_obj (l : list (str * value)) : fold_right (fun e Q => wf_value (snd e) /\ Q) True l <-> Forall (fun e => wf_value (snd e)) l.
Proof. induction l as [|x l IH]; cbn; split; intros H; auto; [apply Forall_cons; tauto|inversion H; subst; tauto]. Qed.
Lemma hcl_num_wf b n : num_wf n -> DeModel.hcl_num b n = VNum n.
Proof.
  destruct n as [z|z|f]; cbn; [reflexivity| |].
  - intros H. unfold num_of_i64. destruct (Z.ltb_spec z 0); [reflexivity|lia].
  - intros [F H]. unfold num_from_f64, f64_finite. rewrite F. destruct (from_finite_f64_spec b f F) as (n & E & _ & _ & Hn).
    rewrite E. cbn. now rewrite Hn.
Qed.
Lemma from_iter_keys (g : value -> value) m : NoDup (map fst m) ->
  MapModel.from_iter seqb (map (fun p : str * value => (fst p, g (snd p))) m) = map (fun p => (fst p, g (snd p))) m.
Proof. intros H. apply from_iter_nodup. now rewrite map_map. Qed.
Lemma de_value_same b v : wf_value v -> numbers num_wf v -> de_value b v = v.
Proof.
  induction v as [|x|n|x|l IH|m IH] using value_ind'; cbn [wf_value numbers de_value]; try reflexivity; intros W N.
  - now apply hcl_num_wf.
  - apply wf_all in W. apply numbers_all in N. f_equal. rewrite <- (map_id l) at 2. apply map_ext_in. rewrite Forall_forall in *. auto.
  - destruct W as [W1 W]. apply wf_all_obj in W. apply numbers_all_obj in N. rewrite from_iter_keys by exact W1.
    f_equal. rewrite <- (map_id m) at 2. apply map_ext_in. rewrite Forall_forall in *. intros [k x] Hi. cbn. f_equal. apply (IH (k, x)); auto.
Qed.
Lemma hcl_num_again b n : match DeModel.hcl_num b n with VNum n => DeModel.hcl_num b n = VNum n | VNull => True | _ => False end.
Proof.
  destruct n as [z|z|f]; cbn; [reflexivity| |].
  - unfold num_of_i64. destruct (Z.ltb_spec z 0); cbn; [|reflexivity]. unfold num_of_i64. destruct (Z.ltb_spec z 0); [reflexivity|lia].
  - unfold num_from_f64, f64_finite. destruct (BinarySingleNaN.is_finite f) eqn:F; [|exact I].
    destruct (from_finite_f64_spec b f F) as (n & E & W & _). rewrite E. cbn. now apply hcl_num_wf.
Qed.
(** One pass makes every number canonical. *)
Lemma de_value_twice b v : wf_value v -> de_value b (de_value b v) = de_value b v.
Proof.
  induction v as [|x|n|x|l IH|m IH] using value_ind'; cbn [wf_value de_value]; try reflexivity; intros W.
  - assert (H := hcl_num_again b n). destruct (DeModel.hcl_num b n); try contradiction; [reflexivity|exact H].
  - apply wf_all in W. cbn. f_equal. rewrite map_map. apply map_ext_in. rewrite Forall_forall in *. auto.
  - destruct W as [W1 W]. apply wf_all_obj in W. rewrite (from_iter_keys (de_value b) m W1).
    rewrite from_iter_keys by now rewrite map_map. rewrite map_map.
    f_equal. apply map_ext_in. rewrite Forall_forall in *. intros [k x] Hi. cbn. f_equal. apply (IH (k, x)); auto.
Qed.

(** [to_expression] of a value is [Expression::from] of it. *)
Lemma ser_expr_value u b nested v : wf_value v -> forall s, ser_expr u b nested (sd_value v) s = (SOk (expr_of_value (de_value b v)), s).
Proof.
  induction v as [|x|n|x|l IH|m IH] using value_ind'; intros W s; cbn [sd_value ser_expr de_value expr_of_value]; try reflexivity.
  - destruct n as [z|z|f]; cbn; try reflexivity. rewrite of_f64_num. now destruct (num_from_f64 b f) as [[]|].
  - cbn in W. apply wf_all in W. unfold fmap, bind. rewrite (mapm_pure _ sd_value (fun v => expr_of_value (de_value b v))).
    + unfold ret. now rewrite map_map.
    + rewrite Forall_forall in *. auto.
  - cbn in W. destruct W as [W1 W]. apply wf_all_obj in W. rewrite (from_iter_keys (de_value b) m W1).
    unfold fmap, bind. rewrite (mapm_pure _ _ (fun p => (skey (fst p), expr_of_value (de_value b (snd p))))).
    + unfold ret, expr_obj. now rewrite map_map.
    + rewrite Forall_forall in *. intros p Hp s0. cbn. now rewrite IH by auto.
Qed.

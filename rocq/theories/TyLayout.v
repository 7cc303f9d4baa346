(** * Which structures a document made of typed data consists of (C48)

    Documentation of [ser::Block] and [ser::LabeledBlock], ser/blocks.rs. *)
From Coq Require Import NArith ZArith Bool String List Lia.
From Verif Require Import Res Str NumberModel PrimModel Ast AstInd EvalSpec EqSpec JsonModel EqProofs ConvSpec FmtModel FmtReadSpec SerModel SerSpec SerProofs SerText TyModel TySpec TyBase TyProofs.
Import ListNotations.
Open Scope list_scope.

(** A document without its expressions. *)
Inductive plan := Attr (id : str) | Blk (id : str) (labels : list str) (body : list plan).
Fixpoint plan_of (x : struct_) : plan :=
  match x with
  | SAttribute id _ => Attr id
  | SBlk id ls body => Blk id (map (fun l => match l with BLIdent s | BLString s => s end) ls) (map plan_of body)
  end.

(** The text of a key. *)
Fixpoint key_name (k : ty) (x : tv) : str :=
  match k, x with
  | TStr, XStr s => s
  | TChar, XChar c => [c]
  | TEnum vs, XVar i _ => pick (fun v : str * shape ty => match v with (n, _) => n end) [] vs i
  | TOption k, XSome x => key_name k x
  | TNew _ k, x | TBlock _ k, x => key_name k x
  | TValue, XValue (VStr s) => s
  | _, _ => []
  end.
(** One more label in front of each block. *)
Definition put (s : str) (l : list plan) : list plan :=
  flat_map (fun p => match p with Attr _ => [] | Blk id ls body => [Blk id (s :: ls) body] end) l.

(** Where data is written: as a document; for the field [id]; as blocks named [id], or as blocks with one more
    label. *)
Fixpoint value_plan (k : skind) (v : value) : list plan :=
  let entries := map (fun p : str * value => Attr (fst p)) in
  match k, v with
  | KStructure id, _ => [Attr id]
  | k, VArr l => flat_map (value_plan k) l
  | KBody, VObj m => entries m
  | KBlock id, VObj m => [Blk id [] (entries m)]
  | KLabeled id, VObj m => flat_map (fun p => match p with (s, v) => put s (value_plan (KBlock id) v) end) m
  | _, _ => []
  end.
Fixpoint plan_for (k : skind) (t : ty) (x : tv) : list plan :=
  let fields fs l := concat (zip (fun f x => match f with (n, t) => plan_for (KStructure n) t x end) fs l) in
  let labels id fs l := concat (zip (fun f x => match f with (n, t) => put n (plan_for (KBlock id) t x) end) fs l) in
  match t, x with
  | TOption t, XSome x => plan_for k t x
  | TBlock labeled t, x =>
      match k with
      | KBody => plan_for KBody t x
      | KStructure id => plan_for (if labeled then KLabeled id else KBlock id) t x
      | KBlock id => plan_for (if labeled then KLabeled id else KBlock id) t x
      | KLabeled id => plan_for (KLabeled id) t x
      end
  | TValue, XValue v => value_plan k v
  | _, _ =>
      match k with
      | KStructure id => [Attr id]
      | _ =>
          match t, x with
          | TNew _ t, x => plan_for k t x
          | TSeq t, XList l => flat_map (plan_for k t) l
          | TTuple ts, XList l => concat (zip (plan_for k) ts l)
          | TStruct _ fs, XList l =>
              match k with
              | KBlock id => [Blk id [] (fields fs l)]
              | KLabeled id => labels id fs l
              | _ => fields fs l
              end
          | TMap kt t, XMap l =>
              let entries := flat_map (fun p => plan_for (KStructure (key_name kt (fst p))) t (snd p)) l in
              match k with
              | KBlock id => [Blk id [] entries]
              | KLabeled id => flat_map (fun p => put (key_name kt (fst p)) (plan_for (KBlock id) t (snd p))) l
              | _ => entries
              end
          | TEnum vs, XVar i l =>
              pick (fun v => match v with (n, s) =>
                match s, k with
                | ShUnit, _ => []
                | ShNew t, KBlock id => [Blk id [] (flat_map (plan_for (KStructure n) t) l)]
                | ShNew t, KLabeled id => put n (flat_map (plan_for (KBlock id) t) l)
                | ShNew t, _ => flat_map (plan_for (KStructure n) t) l
                | ShTuple ts, KBlock id => [Blk id [] (concat (zip (plan_for (KBlock n)) ts l))]
                | ShTuple ts, KLabeled id => put n (concat (zip (plan_for (KBlock id)) ts l))
                | ShTuple ts, _ => [Attr n]
                | ShStruct fs, KBlock id => [Blk id [] [Blk n [] (fields fs l)]]
                | ShStruct fs, KLabeled id => put n (labels id fs l)
                | ShStruct fs, _ => [Blk n [] (fields fs l)]
                end end) [] vs i
          | _, _ => []
          end
      end
  end.

(** ** Proof *)
(** What a computation returns, if it does; the flag is set before and after. *)
Definition yields {A} (m : M A) (P : A -> Prop) : Prop := forall s y s', flag s = true -> m s = (SOk y, s') -> flag s' = true /\ P y.
Lemma yields_ret {A} (x : A) (P : A -> Prop) : P x -> yields (ret x) P.
Proof. intros H s y s' Hs E. injection E as <- <-. auto. Qed.
Lemma yields_err {A} (P : A -> Prop) : yields err P. Proof. intros s y s' _ E. discriminate. Qed.
Lemma yields_panic {A} (P : A -> Prop) : yields panic P. Proof. intros s y s' _ E. discriminate. Qed.
Lemma yields_bind {A B} (m : M A) (f : A -> M B) P Q : yields m P -> (forall x, P x -> yields (f x) Q) -> yields (bind m f) Q.
Proof.
  intros H1 H2 s y s' Hs E. unfold bind in E. destruct (m s) as [[x| | |] s1] eqn:Em; try discriminate. destruct (H1 _ _ _ Hs Em) as [Hs1 Hx]. now apply (H2 x Hx s1).
Qed.
Lemma yields_fmap {A B} (f : A -> B) (m : M A) (P : A -> Prop) (Q : B -> Prop) : yields m P -> (forall x, P x -> Q (f x)) -> yields (fmap f m) Q.
Proof. intros H1 H2. eapply yields_bind; [exact H1|]. intros x Hx. now apply yields_ret, H2. Qed.
Lemma yields_impl {A} (m : M A) (P Q : A -> Prop) : (forall x, P x -> Q x) -> yields m P -> yields m Q.
Proof. intros H1 H2 s y s' Hs E. destruct (H2 _ _ _ Hs E). auto. Qed.
Lemma yields_keeps {A} (m : M A) : keeps m -> yields m (fun _ => True).
Proof. intros H s y s' Hs E. specialize (H s). rewrite E in H. destruct H as [H _]. cbn in H. split; [congruence|exact I]. Qed.
Lemma yields_mapm {A B} (f : A -> M B) (R : A -> B -> Prop) l : Forall (fun x => yields (f x) (R x)) l -> yields (mapm f l) (Forall2 R l).
Proof.
  induction 1 as [|x l Hx _ IH]; cbn [mapm]; [apply yields_ret; constructor|]. eapply yields_bind; [exact Hx|]. intros y Hy.
  eapply yields_bind; [exact IH|]. intros ys Hys. apply yields_ret. now constructor.
Qed.
Notation plans := (map plan_of).
Lemma yields_concatm {A} (f : A -> M (list struct_)) (g : A -> list plan) l :
  Forall (fun x => yields (f x) (fun ss => plans ss = g x)) l -> yields (concatm f l) (fun ss => plans ss = flat_map g l).
Proof.
  intros H. eapply yields_fmap; [apply (yields_mapm f (fun x ss => plans ss = g x)), H|]. cbn. intros yss. clear H. induction 1 as [|x ss l yss Hx _ IH]; [reflexivity|]. cbn [concat flat_map].
  now rewrite map_app, Hx, IH.
Qed.
Lemma plans_relabel s ss : plans (relabel (cons (BLString s)) ss) = put s (plans ss).
Proof. induction ss as [|x ss IH]; [reflexivity|]. destruct x; cbn; [exact IH|]. now f_equal. Qed.
Lemma plans_relabel2 v s ss : plans (relabel (fun ls => BLString v :: BLString s :: ls) ss) = put v (put s (plans ss)).
Proof. induction ss as [|x ss IH]; [reflexivity|]. destruct x; cbn; [exact IH|]. now f_equal. Qed.
Lemma put_concat s l : put s (concat l) = concat (map (put s) l).
Proof. induction l as [|x l IH]; [reflexivity|]. cbn [concat map]. unfold put at 1. rewrite flat_map_app. now rewrite <- IH. Qed.

Lemma concatm_map {A B C} (f : B -> M (list C)) (h : A -> B) l : concatm f (map h l) = concatm (fun x => f (h x)) l.
Proof. unfold concatm. f_equal. induction l as [|x l IH]; [reflexivity|]. cbn [map mapm]. now rewrite IH. Qed.

Section Layout.
  Context (u : unicode) (b : build) (nested : top -> sd -> M bool) (Hn : forall t d, keeps (nested t d)).
  Notation ser_structs := (ser_structs u b nested).
  Notation ser_expr := (ser_expr u b nested).
  Definition lays (t : ty) : Prop := forall k x, proper t -> has t x -> yields (ser_structs (ser t x) k) (fun ss => plans ss = plan_for k t x).

  Lemma yields_ident n : yields (ident_new u n) (fun m => m = n).
  Proof.
    unfold ident_new, ident_try_new. destruct (is_ident u n); [apply yields_ret; reflexivity|apply yields_err].
  Qed.
  Lemma yields_attr id d : yields (fmap (attr id) (ser_expr d)) (fun ss => plans ss = [Attr id]).
  Proof. eapply yields_fmap; [apply yields_keeps, (keeps_expr u b nested Hn)|]. reflexivity. Qed.
  Lemma yields_prim k d : yields (prim (ser_expr d) k) (fun ss => plans ss = match k with KStructure id => [Attr id] | _ => [] end).
  Proof. destruct k; cbn [prim]; try apply yields_err. apply yields_attr. Qed.
  Lemma yields_attrs id ds : yields (do! es <- mapm ser_expr ds; ret (attr id (EArr es))) (fun ss => plans ss = [Attr id]).
  Proof.
    eapply yields_bind; [apply yields_keeps, keeps_mapm, Forall_forall; intros d _; apply (keeps_expr u b nested Hn)|]. intros es _. now apply yields_ret.
  Qed.
  (** The text of a key. *)
  Lemma yields_key k x : has k x -> proper k ->
    yields (ser_string nested (ser k x)) (fun s => s = key_name k x) /\ yields (ser_ident u nested (ser k x)) (fun s => s = key_name k x).
  Proof.
    revert x. induction k as [|w| | | | | |t IH|t IH|ts IH|k t IHk IH|n t IH|n fs IH|vs IH|lb t IH|] using ty_all; intros x H P;
      destruct x as [d|z|f|ch|st| | |x|l|l|i l|v]; try contradiction; cbn [ser ser_string ser_ident key_name];
      try (split; apply yields_err); try (split; [apply yields_ret; reflexivity|apply yields_ident]); try (apply IH; [exact H|apply P]).
    - destruct (signed w); split; apply yields_err.
    - change (pick (fun v : str * shape ty => match v with (n, _) => n end) [] vs i) with (key_name (TEnum vs) (XVar i l)).
      cbn [has] in H. unfold at_index in H. rewrite pick_nth in H. rewrite pick_nth. destruct (nth_error vs i) as [[n s]|] eqn:E; [|contradiction].
      assert (K : key_name (TEnum vs) (XVar i l) = n) by (cbn [key_name]; rewrite pick_nth, E; reflexivity). rewrite K.
      destruct s as [|t|ts|fs]; [split; [apply yields_ret; reflexivity|apply yields_ident]| | |]; try (destruct l as [|? [|]]); split; apply yields_err.
    - destruct v; try (split; apply yields_err); [destruct n; split; apply yields_err|split; [apply yields_ret; reflexivity|apply yields_ident]].
  Qed.

  Lemma yields_field n d P : yields (ser_structs d (KStructure n)) P -> yields (do! i <- ident_new u n; ser_structs d (KStructure i)) P.
  Proof. intros H. eapply yields_bind; [apply yields_ident|]. cbn. intros ? ->. exact H. Qed.
  Lemma yields_label n id d p : yields (ser_structs d (KBlock id)) (fun ss => plans ss = p) ->
    yields (fmap (relabel (cons (BLString n))) (ser_structs d (KBlock id))) (fun ss => plans ss = put n p).
  Proof. intros H. eapply yields_fmap; [exact H|]. cbn. intros ss <-. apply plans_relabel. Qed.
  Lemma yields_block id (m : M (list struct_)) p : yields m (fun ss => plans ss = p) -> yields (do! ss <- m; ret [SBlk id [] ss]) (fun ss => plans ss = [Blk id [] p]).
  Proof. intros H. eapply yields_bind; [exact H|]. cbn. intros ss <-. now apply yields_ret. Qed.

  Lemma lays_value v : forall k, yields (ser_structs (sd_value v) k) (fun ss => plans ss = value_plan k v).
  Proof.
    induction v as [ |d|n|s|l IH|m IH] using value_ind'; intros k; cbn [sd_value].
    - eapply yields_impl; [|apply (yields_prim k DUnit)]. cbn. intros ss ->. now destruct k.
    - eapply yields_impl; [|apply (yields_prim k (DBool d))]. cbn. intros ss ->. now destruct k.
    - eapply yields_impl; [|destruct n as [z|z|f]; [apply (yields_prim k (DU64 z))|apply (yields_prim k (DI64 z))|apply (yields_prim k (DF64 f))]]; cbn; intros ss ->; now destruct k.
    - eapply yields_impl; [|apply (yields_prim k (DStr s))]. cbn. intros ss ->. now destruct k.
    - assert (A : forall k, yields (concatm (fun x => ser_structs x k) (map sd_value l)) (fun ss => plans ss = flat_map (value_plan k) l)).
      { intros k'. rewrite concatm_map. apply yields_concatm. eapply Forall_impl; [|exact IH]. cbn. auto. }
      destruct k; cbn [SerModel.ser_structs value_plan]; try apply A. apply yields_attrs.
    - assert (A : yields (concatm (fun p => match p with (k, x) => do! i <- ser_ident u nested k; ser_structs x (KStructure i) end)
          (map (fun p => (DStr (fst p), sd_value (snd p))) m)) (fun ss => plans ss = map (fun p => Attr (fst p)) m)).
      { rewrite concatm_map. replace (map (fun p => Attr (fst p)) m) with (flat_map (fun p => [Attr (fst p)]) m) by (clear; induction m as [|? ? E]; cbn; [reflexivity|now rewrite E]).
        apply yields_concatm. eapply Forall_impl; [|exact IH]. cbn. intros [s v] H. cbn [ser_ident fst snd] in *. apply yields_field. eapply yields_impl; [|apply H].
        cbn. intros ss ->. now destruct v. }
      destruct k; cbn [SerModel.ser_structs value_plan].
      + exact A.
      + apply yields_attr.
      + now apply yields_block.
      + rewrite concatm_map. apply yields_concatm. eapply Forall_impl; [|exact IH]. cbn. intros [s v] H. cbn [ser_string fst snd] in *.
        apply (yields_bind _ _ (fun m => m = s)); [apply yields_ret; reflexivity|]. intros ? ->. apply yields_label. apply H.
  Qed.

  Lemma flat_map_zip {T} (f : T -> tv -> list plan) ts l : flat_map (fun p => f (fst p) (snd p)) (combine ts l) = concat (zip f ts l).
  Proof. revert l. induction ts as [|t ts IH]; intros [|x l]; cbn; try reflexivity. now rewrite IH. Qed.
  Lemma yields_zip {T A} (g : T -> tv -> A) (f : A -> M (list struct_)) (h : T -> tv -> list plan) ts l :
    Forall (fun p => yields (f (g (fst p) (snd p))) (fun ss => plans ss = h (fst p) (snd p))) (combine ts l) ->
    yields (concatm f (zip g ts l)) (fun ss => plans ss = concat (zip h ts l)).
  Proof.
    intros H. rewrite zip_combine, concatm_map. rewrite <- flat_map_zip. apply yields_concatm. exact H.
  Qed.
  Lemma lays_tuple ts l k : Forall lays ts -> lall proper ts -> all2 has ts l ->
    yields (concatm (fun x => ser_structs x k) (zip ser ts l)) (fun ss => plans ss = concat (zip (plan_for k) ts l)).
  Proof.
    intros IH P H. apply all2_combine in H as [_ H]. apply lall_Forall in P. apply yields_zip.
    assert (A := combine_In_l _ _ l (TyProofs.Forall_and2 _ _ _ IH P)). rewrite Forall_forall in *. intros p Hp. destruct (A p Hp) as [A1 A2]. now apply A1, H.
  Qed.
  Lemma lays_fields fs l : Forall (fun f => lays (snd f)) fs -> lall (fun f : str * ty => match f with (_, t) => proper t end) fs ->
    all2 (fun f => match f with (_, t) => has t end) fs l ->
    yields (concatm (fun p => match p with (k, x) => do! i <- ident_new u k; ser_structs x (KStructure i) end)
        (zip (fun f x => match f with (n, t) => (n, ser t x) end) fs l))
      (fun ss => plans ss = concat (zip (fun f x => match f with (n, t) => plan_for (KStructure n) t x end) fs l)) /\
    forall id, yields (concatm (fun p => match p with (k, x) => fmap (relabel (cons (BLString k))) (ser_structs x (KBlock id)) end)
        (zip (fun f x => match f with (n, t) => (n, ser t x) end) fs l))
      (fun ss => plans ss = concat (zip (fun f x => match f with (n, t) => put n (plan_for (KBlock id) t x) end) fs l)).
  Proof.
    intros IH P H. apply all2_combine in H as [_ H]. apply lall_Forall in P. assert (A := combine_In_l _ _ l (TyProofs.Forall_and2 _ _ _ IH P)). rewrite Forall_forall in A, H.
    split; [|intros id]; apply yields_zip; apply Forall_forall; intros [[n t] x] Hp; cbn [fst snd]; destruct (A _ Hp) as [A1 A2]; [apply yields_field|apply yields_label]; apply A1; auto; now apply (H _ Hp).
  Qed.

  Lemma lays_type t : lays t.
  Proof.
    induction t as [|w| | | | | |t IH|t IH|ts IH|kt t IHk IH|n t IH|n fs IH|vs IH|lb t IH|] using ty_all; intros k x P H.
    1-7: destruct x as [d|z|f|ch|st| | |x|l|l|i l|v]; try contradiction;
      [eapply yields_impl; [|first [apply (yields_prim k (DBool d))|apply (yields_prim k (DF64 f))|apply (yields_prim k (DChar ch))|apply (yields_prim k (DStr st))
         |apply (yields_prim k DUnit)|apply (yields_prim k DUnitStruct)|cbn [ser]; destruct (signed w); [apply (yields_prim k (DI64 z))|apply (yields_prim k (DU64 z))]]];
       cbn; intros ss ->; now destruct k].
    - (* TOption *)
      destruct x as [d|z|f|ch|st| | |x|l|l|i l|v]; try contradiction.
      + eapply yields_impl; [|apply (yields_prim k DNone)]. cbn. intros ss ->. now destruct k.
      + now apply IH.
    - (* TSeq *)
      destruct x as [d|z|f|ch|st| | |x|l|l|i l|v]; try contradiction. cbn [has] in H. apply lall_Forall in H.
      assert (A : forall k, yields (concatm (fun x => ser_structs x k) (map (ser t) l)) (fun ss => plans ss = flat_map (plan_for k t) l)).
      { intros k'. rewrite concatm_map. apply yields_concatm. eapply Forall_impl; [|exact H]. cbn. intros x Hx. now apply IH. }
      destruct k; cbn [ser SerModel.ser_structs plan_for]; try apply A. apply yields_attrs.
    - (* TTuple *)
      destruct x as [d|z|f|ch|st| | |x|l|l|i l|v]; try contradiction.
      destruct k; cbn [ser SerModel.ser_structs plan_for]; try (now apply lays_tuple). apply yields_attrs.
    - (* TMap *)
      destruct x as [d|z|f|ch|st| | |x|l|l|i l|v]; try contradiction. destruct P as [Pk P]. destruct H as [H _]. apply lall_Forall in H.
      assert (A : yields (concatm (fun p => match p with (k, x) => do! i <- ser_ident u nested k; ser_structs x (KStructure i) end)
          (map (fun p => (ser kt (fst p), ser t (snd p))) l)) (fun ss => plans ss = flat_map (fun p => plan_for (KStructure (key_name kt (fst p))) t (snd p)) l)).
      { rewrite concatm_map. apply yields_concatm. eapply Forall_impl; [|exact H]. intros [y x] [H1 H2]. cbn [fst snd] in *.
        eapply yields_bind; [apply (yields_key kt y H1 Pk)|]. cbn. intros ? ->. now apply IH. }
      destruct k; cbn [ser SerModel.ser_structs plan_for].
      + exact A.
      + apply yields_attr.
      + now apply yields_block.
      + rewrite concatm_map. apply yields_concatm. eapply Forall_impl; [|exact H]. intros [y x] [H1 H2]. cbn [fst snd] in *.
        eapply yields_bind; [apply (yields_key kt y H1 Pk)|]. cbn. intros ? ->. apply yields_label. now apply IH.
    - (* TNew *)
      destruct P as (P1 & P2 & P). apply seqb_neq in P1, P2. cbn [ser SerModel.ser_structs plan_for has] in *. destruct k; cbn [newtype_kind]; rewrite ?P1, ?P2; try (now apply IH).
      apply yields_attr.
    - (* TStruct *)
      destruct x as [d|z|f|ch|st| | |x|l|l|i l|v]; try contradiction. destruct P as (P1 & P2 & _ & P). apply seqb_neq in P1, P2. cbn [has] in H.
      destruct (lays_fields fs l IH P H) as [A B]. cbn [ser SerModel.ser_structs]. unfold structs_struct. destruct k; cbn [plan_for].
      + rewrite P1, P2. exact A.
      + apply (yields_attr id (DStruct n _)).
      + now apply yields_block.
      + apply B.
    - (* TEnum *)
      destruct x as [d|z|f|ch|st| | |x|l|l|i l|v]; try contradiction. destruct P as [_ P]. cbn [has] in H. unfold at_index in H. rewrite pick_nth in H.
      cbn [ser plan_for]. destruct (nth_error vs i) as [[n s]|] eqn:E; [|contradiction]. rewrite !pick_nth, E.
      assert (IHs := Forall_nth _ _ _ _ IH E). apply lall_Forall in P. assert (Ps := Forall_nth _ _ _ _ P E). cbn in IHs, Ps.
      destruct s as [|t|ts|fs].
      + eapply yields_impl; [|apply (yields_prim k (DUnitVariant n))]. cbn. intros ss ->. now destruct k.
      + destruct l as [|x [|]]; try contradiction. cbn [flat_map]. rewrite ?app_nil_r. destruct k; cbn [SerModel.ser_structs].
        * rewrite ?app_nil_r. apply yields_field. now apply IHs.
        * apply (yields_attr id (DNewtypeVariant n (ser t x))).
        * rewrite ?app_nil_r. eapply yields_bind; [apply yields_ident|]. cbn. intros ? ->. apply yields_block. now apply IHs.
        * rewrite ?app_nil_r. apply yields_label. now apply IHs.
      + destruct k; cbn [SerModel.ser_structs].
        * eapply yields_bind; [apply yields_ident|]. cbn. intros ? ->. apply yields_attrs.
        * apply (yields_attr id (DTupleVariant n (zip ser ts l))).
        * eapply yields_bind; [apply yields_ident|]. cbn. intros ? ->. apply yields_block. now apply lays_tuple.
        * rewrite put_concat. apply all2_combine in H as [_ H]. apply lall_Forall in Ps. rewrite (zip_combine ser), concatm_map, (zip_combine (plan_for _)), map_map, <- flat_map_concat_map.
          apply yields_concatm. assert (A := combine_In_l _ _ l (TyProofs.Forall_and2 _ _ _ IHs Ps)). rewrite Forall_forall in *. intros p Hp. destruct (A p Hp) as [A1 A2].
          apply yields_label. now apply A1, H.
      + destruct Ps as [_ Ps]. destruct (lays_fields fs l IHs Ps H) as [A B]. destruct k; cbn [SerModel.ser_structs].
        * eapply yields_bind; [apply yields_ident|]. cbn. intros ? ->. now apply yields_block.
        * apply (yields_attr id (DStructVariant n _)).
        * eapply yields_bind; [apply yields_ident|]. cbn. intros ? ->. eapply yields_bind; [exact A|]. cbn. intros ss <-. now apply yields_ret.
        * rewrite put_concat. clear B A. apply all2_combine in H as [_ H]. apply lall_Forall in Ps. rewrite (zip_combine (fun f x => match f with (n, t) => (n, ser t x) end)), concatm_map.
          rewrite (zip_combine (fun f x => match f with (n, t) => put n (plan_for _ t x) end)), map_map, <- flat_map_concat_map.
          apply yields_concatm. assert (A := combine_In_l _ _ l (TyProofs.Forall_and2 _ _ _ IHs Ps)). rewrite Forall_forall in *. intros [[m t] x] Hp. destruct (A _ Hp) as [A1 A2]. cbn [fst snd].
          eapply yields_fmap; [apply A1; [exact A2|exact (H _ Hp)]|]. cbn. intros ss <-. apply plans_relabel2.
    - (* TBlock *)
      cbn [ser SerModel.ser_structs has] in *. intros s y s' Hs. unfold bind, internal. rewrite Hs.
      replace (newtype_kind (if lb then labeled_marker else block_marker) k)
        with (Some match k with KBody => KBody | KStructure id | KBlock id => if lb then KLabeled id else KBlock id | KLabeled id => KLabeled id end) by (now destruct k, lb).
      intros E. destruct (IH _ x P H _ _ _ Hs E) as [A B]. split; [exact A|]. rewrite B. now destruct k.
    - (* TValue *)
      destruct x as [d|z|f|ch|st| | |x|l|l|i l|v]; try contradiction. cbn [ser plan_for]. eapply yields_impl; [|apply lays_value]. auto.
  Qed.
End Layout.

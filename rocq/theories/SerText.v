(** * Values as HCL text: [hcl::to_string] and [hcl::from_str] *)
From Coq Require Import NArith ZArith Bool String List Lia.
From Verif Require Import Res Str NumberModel NumberProofs PrimModel PrimProofs Ast AstInd EvalSpec EvalIp.
From Verif Require Import EqSpec JsonModel ConvModel ConvSpec FmtModel FmtReadSpec FmtValueProofs ParseBase ParseModel DeModel SerModel SerSpec SerProofs.
From Verif Require MapModel JsonProofs.
Import ListNotations.
Open Scope list_scope.

Section Text.
  Context (u : unicode) (b : build) (pf : str -> f64) (sf : f64 -> str).
  (** [to_string], ser/mod.rs:396-402, [Serializer::serialize_string] 355-361: a fresh formatter. *)
  Definition to_string (c : cfg) (d : sd) : M str := fun s =>
    match run_body u b d s with
    | (SOk x, s) => match format_fresh (fm_body u sf c x) with Done t => (SOk t, s) | Panic => (SPanic, s) end
    | (SErr, s) => (SErr, s)
    | (SPanic, s) => (SPanic, s)
    | (SFuel, s) => (SFuel, s)
    end.
  (** [from_str::<Value>], de/mod.rs:90-96, 215-224. *)
  Definition from_str (t : str) : option value :=
    match read_body u b pf sf t with
    | Parsed x => de_any (interpolated u sf) (hcl_num b) (expr_of_body x)
    | _ => None
    end.

  (** Values whose strings, keys and numbers can be told from their text: [escape_ok] (PrimProofs.v)
      excludes the strings for which escaping goes wrong, [num_readable] is as in C21. *)
  Fixpoint written (v : value) : Prop :=
    match v with
    | VNull | VBool _ => True
    | VNum n => num_readable b pf sf n
    | VStr s => escape_ok s = true
    | VArr l => lall written l
    | VObj m => lall (fun p => escape_ok (fst p) = true /\ written (snd p)) m /\ NoDup (map fst m)
    end.

  Lemma written_wf v : written v -> wf_value v.
  Proof.
    induction v as [ |d|n|s|l IH|m IH] using value_ind'; cbn [written]; intros H; try exact I.
    - apply wf_all. apply lall_Forall in H. rewrite Forall_forall in *. auto.
    - destruct H as [H1 H2]. split; [exact H2|]. apply wf_all_obj. apply lall_Forall in H1. rewrite Forall_forall in *. intros p Hp. apply IH; [exact Hp|]. now apply H1.
  Qed.
  Lemma written_readable c v : c_ident_keys c = false -> written v -> readable u b pf sf c (expr_of_value v).
  Proof.
    intros HC. induction v as [ |d|x|s|l IH|m IH] using value_ind'; cbn [written expr_of_value]; intros H; try exact I; try exact H.
    - cbn [readable]. apply lall_Forall. apply lall_Forall in H. rewrite Forall_forall in *. intros e He. apply in_map_iff in He. destruct He as (v & <- & Hv). auto.
    - destruct H as [H1 H2]. rewrite obj_literal by exact H2. cbn [readable]. split; [|split].
      + apply lall_Forall. apply lall_Forall in H1. rewrite Forall_forall in *. intros e He. apply in_map_iff in He. destruct He as (p & <- & Hp). cbn [fst snd].
        destruct (H1 p Hp) as [K V]. rewrite HC. split; [exact K|]. now apply (IH p).
      + rewrite map_map. cbn [fst]. rewrite <- (map_map fst (fun s => read_key u c (KExpr (EStr s)))). now apply keys_apart.
      + apply chain_all. intros p q Hq _. apply in_map_iff in Hq. destruct Hq as (p' & <- & _). reflexivity.
  Qed.

  (** Reading a literal. *)
  Lemma de_all_map {A B C} (f : B -> option C) (h : A -> B) (g : A -> C) l :
    Forall (fun x => f (h x) = Some (g x)) l -> de_all f (map h l) = Some (map g l).
  Proof. induction 1 as [|x l Hx _ IH]; cbn; [reflexivity|]. now rewrite Hx, IH. Qed.
  Lemma de_any_value interp v : wf_value v -> de_any interp (hcl_num b) (expr_of_value v) = Some (de_value b v).
  Proof.
    induction v as [ |d|x|s|l IH|m IH] using value_ind'; cbn [expr_of_value de_value]; intros W; try reflexivity.
    - cbn in W. apply wf_all in W. cbn [de_any]. rewrite (de_all_map _ expr_of_value (de_value b)); [reflexivity|]. rewrite Forall_forall in *. auto.
    - destruct W as [W1 W]. apply wf_all_obj in W. rewrite obj_literal by exact W1. cbn [de_any].
      rewrite (de_all_map _ (fun e => (KExpr (EStr (fst e)), expr_of_value (snd e))) (fun p => (fst p, de_value b (snd p)))); [reflexivity|].
      rewrite Forall_forall in *. intros p Hp. cbn. now rewrite IH by auto.
  Qed.

  (** The body of an object. *)
  Definition attrs (m : list (str * value)) : rbody := map (fun p => SAttribute (fst p) (expr_of_value (snd p))) m.
  Lemma attrs_strict m : lall struct_strict (attrs m).
  Proof. induction m; cbn [attrs map lall]; [exact I|]. split; [apply value_strict|exact IHm]. Qed.
  Lemma nodes_attrs m : forall acc, NoDup (map fst (acc ++ map (fun p => (fst p, JExpr (expr_of_value (snd p)))) m)) ->
    fold_left add_entry (map entry_of (attrs m)) acc = acc ++ map (fun p => (fst p, JExpr (expr_of_value (snd p)))) m.
  Proof.
    induction m as [|[k v] m IH]; intros acc H; cbn [attrs map fold_left].
    - cbn. now rewrite app_nil_r.
    - fold (attrs m). cbn [fst snd entry_of add_entry]. unfold jinsert.
      assert (E : fst (MapModel.insert seqb k (JExpr (expr_of_value v)) acc) = acc ++ [(k, JExpr (expr_of_value v))]).
      { apply JsonProofs.insert_fresh. rewrite map_app in H. apply NoDup_remove_2 in H. 
        apply not_true_is_false. intros Hk. apply H. apply in_or_app. left. cbn [fst]. clear -Hk.
        induction acc as [|[k' x] acc IH]; [discriminate|]. cbn in Hk. apply orb_true_iff in Hk as [Hk|Hk]; [left; symmetry; now apply seqb_eq|right; auto]. }
      rewrite E, IH; rewrite <- app_assoc; cbn; [reflexivity|exact H].
  Qed.
  Lemma expr_of_attrs m : NoDup (map fst m) ->
    expr_of_body (attrs m) = expr_of_value (VObj m).
  Proof.
    intros H. unfold expr_of_body, expr_of_nodes, body_nodes. rewrite (nodes_attrs m []) by (cbn [app]; rewrite map_map; exact H).
    cbn [app expr_of_value]. unfold JsonModel.expr_obj. rewrite !map_map. reflexivity.
  Qed.

  Lemma ser_structs_value nested v id : wf_value v -> forall s,
    ser_structs u b nested (sd_value v) (KStructure id) s = (SOk (attr id (expr_of_value (de_value b v))), s).
  Proof.
    intros W s. assert (H := ser_expr_value u b nested v W). destruct v as [ |d|x|t|l|m]; cbn [sd_value ser_structs prim] in *; try reflexivity.
    - destruct x; cbn [sd_num ser_structs prim] in *; unfold fmap, bind; rewrite H; reflexivity.
    - specialize (H s). cbn [ser_expr] in H. unfold fmap, bind in *. destruct (mapm _ _ s) as [[] s']; now inversion H.
    - unfold fmap, bind at 1. rewrite H. reflexivity.
  Qed.
  Lemma ident_try_new_ident s : is_ident u s = true -> ident_try_new u s = Some s.
  Proof. unfold ident_try_new. now intros ->. Qed.
  Lemma to_body_value nested m : wf_value (VObj m) -> Forall (fun p => is_ident u (fst p) = true) m -> forall s,
    ser_structs u b nested (sd_value (VObj m)) KBody s = (SOk (attrs (map (fun p => (fst p, de_value b (snd p))) m)), s).
  Proof.
    intros [_ W] HI s. apply wf_all_obj in W. cbn [sd_value ser_structs]. unfold concatm, fmap, bind at 1.
    rewrite (mapm_pure _ _ (fun p => attr (fst p) (expr_of_value (de_value b (snd p))))).
    - unfold ret, attrs. do 2 f_equal. clear. induction m as [|p m IH]; [reflexivity|]. cbn. f_equal. exact IH.
    - rewrite Forall_forall in *. intros p Hp s0. unfold bind. cbn [ser_ident]. unfold ident_new. rewrite ident_try_new_ident by now apply HI.
      cbn. apply ser_structs_value. now apply W.
  Qed.
  (** A key that is no identifier is an error. *)
  Lemma to_body_value_err nested m : wf_value (VObj m) -> ~ Forall (fun p => is_ident u (fst p) = true) m -> forall s,
    ser_structs u b nested (sd_value (VObj m)) KBody s = (SErr, s).
  Proof.
    intros [_ W] HI s. apply wf_all_obj in W. cbn [sd_value ser_structs]. unfold concatm, fmap, bind at 1.
    replace (mapm _ _ s) with (@SErr (list (list struct_)), s); [reflexivity|]. symmetry.
    induction W as [|p m Hp W IH]; [destruct HI; constructor|]. cbn [map mapm]. unfold bind at 1 2. cbn [ser_ident]. unfold ident_new.
    destruct (is_ident u (fst p)) eqn:E.
    - rewrite ident_try_new_ident by exact E. cbn [from_opt ret]. rewrite ser_structs_value by exact Hp. unfold bind at 1.
      rewrite IH; [reflexivity|]. intros H. apply HI. now apply Forall_cons.
    - unfold ident_try_new. now rewrite E.
  Qed.
  (** Neither an array nor an object: an error. *)
  Lemma to_body_scalar nested v : match v with VArr _ | VObj _ => False | _ => True end -> forall s,
    ser_structs u b nested (sd_value v) KBody s = (SErr, s).
  Proof. destruct v as [ |d|[]|t|l|m]; cbn; try contradiction; reflexivity. Qed.
End Text.

(** * Expressions cannot be read from values *)
From Coq Require Import NArith ZArith Arith Bool String List Lia.
From Verif Require Import Res Str NumberModel PrimModel Ast OwnModel.
From Verif Require MapModel.
Import ListNotations.
Open Scope list_scope.

Lemma collect_cons p l : eobj_collect (p :: l) <> [].
Proof.
  unfold eobj_collect, MapModel.from_iter, MapModel.extend. cbn [fold_left MapModel.insert fst].
  assert (X : forall m : list (okey expr * expr), m <> [] -> fold_left (fun m e => fst (MapModel.insert (okey_eqb expr_eqb) (fst e) (snd e) m)) l m <> []).
  { induction l as [|q l IH]; intros m Hm; cbn [fold_left]; [exact Hm|]. apply IH. destruct m as [|[k v] m]; [easy|]. cbn [MapModel.insert].
    destruct (okey_eqb _ _ _); [discriminate|]. destruct (MapModel.insert _ _ _ m). discriminate. }
  apply X. discriminate.
Qed.
Section Named.
  Context (u : unicode) (b : build) (interp : expr -> str) (rec : src -> option expr).
  Lemma no_key t : de_key u interp rec (OText t) = None.
  Proof. unfold de_key, variant. cbn [ask bind newtype_src]. now repeat destruct (is _ _). Qed.
  Ltac go := repeat match goal with
    | |- bind ?o _ = Some _ -> _ => destruct o; cbn [bind]; [|discriminate]
    | |- option_map _ ?o = Some _ -> _ => destruct o; cbn [option_map]; [|discriminate]
    end; try (intros [= <-]; reflexivity).
  Lemma n_trav s e : de_traversal u interp rec s = Some e -> variant_name e = lit "Traversal".
  Proof. unfold de_traversal. go. Qed.
  Lemma n_call s e : de_func_call u interp rec s = Some e -> variant_name e = lit "FuncCall".
  Proof. unfold de_func_call. go. Qed.
  Lemma n_cond s e : de_conditional interp rec s = Some e -> variant_name e = lit "Conditional".
  Proof. unfold de_conditional. go. Qed.
  Lemma n_for s e : de_for u interp rec s = Some e -> variant_name e = lit "ForExpr".
  Proof. unfold de_for. go. Qed.
  Lemma n_op s e : de_operation interp rec s = Some e -> variant_name e = lit "Operation".
  Proof.
    unfold de_operation. destruct (variant _ _ _) as [[n a]|]; cbn [bind]; [|discriminate].
    destruct (is n "Unary"); [unfold de_unary; go|]. destruct (is n "Binary"); [unfold de_binary; go|]. discriminate.
  Qed.
  Lemma n_obj v e : de_object u interp rec (OVal v) = Some e -> e = EObj [].
  Proof.
    unfold de_object. destruct v as [| |[]| | |m]; try discriminate. cbn [ask ask_value value_any]. unfold object_of.
    destruct m as [|[k x] m]; cbn [map all fst snd]; [intros [= <-]; reflexivity|]. now rewrite no_key.
  Qed.
  Lemma named x (k : str) e : visit_expr u b interp rec (VisEnum (OText k) (AVal x)) = Some e -> variant_name e = k /\ (forall m, e = EObj m -> m = []).
  Proof.
    cbn [visit_expr ask newtype_src bind unit_variant].
    destruct (is k "Null") eqn:K; [discriminate|clear K].
    assert (X : forall t, is k t = true -> lit t <> lit "Object" -> variant_name e = lit t -> variant_name e = k /\ (forall m, e = EObj m -> m = [])).
    { intros t K N E. apply seqb_eq in K. subst k. split; [exact E|]. intros m ->. now symmetry in E. }
    destruct (is k "Bool") eqn:K; [destruct (de_bool _ _); [|discriminate]; intros [= <-]; now apply (X _ K)|clear K].
    destruct (is k "Number") eqn:K; [destruct (de_number _ _ _); [|discriminate]; intros [= <-]; now apply (X _ K)|clear K].
    destruct (is k "String") eqn:K; [destruct (de_string _ _); [|discriminate]; intros [= <-]; now apply (X _ K)|clear K].
    destruct (is k "Array") eqn:K; [destruct (de_seq _ _ _); [|discriminate]; intros [= <-]; now apply (X _ K)|clear K].
    destruct (is k "Object") eqn:K.
    { intros E. apply n_obj in E. subst e. apply seqb_eq in K. subst k. split; [reflexivity|]. now intros m [= <-]. }
    clear K.
    destruct (is k "TemplateExpr") eqn:K; [destruct (de_tpl _ _ _); [|discriminate]; intros [= <-]; now apply (X _ K)|clear K].
    destruct (is k "Variable") eqn:K; [destruct (de_ident _ _ _); [|discriminate]; intros [= <-]; now apply (X _ K)|clear K].
    destruct (is k "Traversal") eqn:K; [intros E; apply n_trav in E; now apply (X _ K)|clear K].
    destruct (is k "FuncCall") eqn:K; [intros E; apply n_call in E; now apply (X _ K)|clear K].
    destruct (is k "Parenthesis") eqn:K; [destruct (rec _); [|discriminate]; intros [= <-]; now apply (X _ K)|clear K].
    destruct (is k "Conditional") eqn:K; [intros E; apply n_cond in E; now apply (X _ K)|clear K].
    destruct (is k "Operation") eqn:K; [intros E; apply n_op in E; now apply (X _ K)|clear K].
    destruct (is k "ForExpr") eqn:K; [intros E; apply n_for in E; now apply (X _ K)|clear K].
    discriminate.
  Qed.
End Named.

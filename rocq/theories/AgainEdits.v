(** * Edits of documents which keep the conditions under which they are read back *)
From Coq Require Import NArith ZArith Arith Bool String List Lia Relations.
From Verif Require Import Res Str Dec NumberModel PrimModel PrimProofs DedentModel EAst EncModel EqSpec ParseBase ParseModel.
From Verif Require Import BackSpec BackBodySpec.
Import ListNotations.
Open Scope N_scope.

(** What programs do to a parsed document through hcl-edit: lines, labels, values and parts of values are
    replaced, inserted and removed (crates/hcl-edit/src/structure/body.rs insert, remove, get_attribute_mut,
    get_blocks_mut; structure/attribute.rs value; expr/array.rs and expr/object.rs insert, remove, get_mut,
    for trees with decor).  What is put into the document has to fit there; the conditions are those of
    C46, for the new parts only. *)
Section Edits.
  Context (u : unicode) (b : build) (pf : str -> f64) (sf : f64 -> str).
  Notation ok := (ok u b pf sf false).
  (** One change inside of the value of an attribute. *)
  Inductive value_edit : xexpr -> xexpr -> Prop :=
  | VE_elements m l1 e new l2 c t : lall (elem_in ok true) new -> l1 ++ new ++ l2 <> [] ->
      value_edit (XArr m (l1 ++ e :: l2) c t) (XArr m (l1 ++ new ++ l2) c t)
  | VE_element m l1 e e' l2 c t : value_edit e e' -> value_edit (XArr m (l1 ++ e :: l2) c t) (XArr m (l1 ++ e' :: l2) c t)
  | VE_args m ns n am l1 e new l2 ex co t : lall (elem_in ok true) new -> l1 ++ new ++ l2 <> [] ->
      value_edit (XCall m ns n am (l1 ++ e :: l2) ex co t) (XCall m ns n am (l1 ++ new ++ l2) ex co t)
  | VE_arg m ns n am l1 e e' l2 ex co t : value_edit e e' ->
      value_edit (XCall m ns n am (l1 ++ e :: l2) ex co t) (XCall m ns n am (l1 ++ e' :: l2) ex co t)
  | VE_items m l1 old new l2 t : lall (item_ok u b pf sf false) new -> distinct_keys (l1 ++ new ++ l2) -> seps sf false (l1 ++ new ++ l2) t ->
      value_edit (XObj m (l1 ++ old ++ l2) t) (XObj m (l1 ++ new ++ l2) t)
  | VE_item m l1 k a v v' tm l2 t : item_ok u b pf sf false (XItem k a v' tm) -> wide v' = false ->
      value_edit (XObj m (l1 ++ XItem k a v tm :: l2) t) (XObj m (l1 ++ XItem k a v' tm :: l2) t)
  | VE_in_item m l1 k a v v' tm l2 t : value_edit v v' ->
      value_edit (XObj m (l1 ++ XItem k a v tm :: l2) t) (XObj m (l1 ++ XItem k a v' tm :: l2) t)
  | VE_paren m e e' : elem_in ok true e' -> value_edit (XParen m e) (XParen m e')
  | VE_in_paren m e e' : value_edit e e' -> value_edit (XParen m e) (XParen m e').
  (** A new value, or a change inside of it. *)
  Definition new_value (v v' : xexpr) : Prop := tidy false (x_meta v') /\ sub ok false v' \/ value_edit v v'.
  (** One change in the lines of a body, at any depth. *)
  Inductive lines_edit : list xstruct -> list xstruct -> Prop :=
  | LE_lines l1 old new l2 : lall (struct_ok u b pf sf) new -> NoDup (attr_names (l1 ++ new ++ l2)) ->
      lines_edit (l1 ++ old ++ l2) (l1 ++ new ++ l2)
  | LE_value l1 m k v v' l2 : new_value v v' -> lines_edit (l1 ++ XAttr m k v :: l2) (l1 ++ XAttr m k v' :: l2)
  | LE_labels l1 m i ls ls' bd l2 : lall (label_ok u) ls' -> spaced (suf TRAILING (i_meta i)) ls' ->
      lines_edit (l1 ++ XBlock m i ls bd :: l2) (l1 ++ XBlock m i ls' bd :: l2)
  | LE_block l1 m i ls bm l l' omit l2 : lines_edit l l' ->
      lines_edit (l1 ++ XBlock m i ls (XBody bm l false omit) :: l2) (l1 ++ XBlock m i ls (XBody bm l' false omit) :: l2)
  | LE_one_line l1 m i ls bm am k v v' omit l2 : new_value v v' ->
      lines_edit (l1 ++ XBlock m i ls (XBody bm [XAttr am k v] true omit) :: l2) (l1 ++ XBlock m i ls (XBody bm [XAttr am k v'] true omit) :: l2).
  (** A document does not lose its last line if it is one without a line end. *)
  Definition body_edit (x y : xbody) : Prop :=
    exists m l l' one omit, x = XBody m l one omit /\ y = XBody m l' one omit /\ lines_edit l l' /\ (omit = true -> l' <> []).
  (** Any number of changes. *)
  Definition edits : xbody -> xbody -> Prop := clos_refl_trans_1n xbody body_edit.
End Edits.

(** ** Proofs *)
Section Proofs.
  Context (u : unicode) (b : build) (pf : str -> f64) (sf : f64 -> str).
  Notation ok := (ok u b pf sf false).
  Notation struct_ok := (struct_ok u b pf sf).
  Lemma lall_app {A} (P : A -> Prop) l1 l2 : lall P (l1 ++ l2) <-> lall P l1 /\ lall P l2.
  Proof. induction l1 as [|x l1 IH]; cbn [app lall]; [tauto|]. rewrite IH. tauto. Qed.
  Lemma closing_same {A} (l1 : list A) e new l2 c t : l1 ++ new ++ l2 <> [] -> closing (l1 ++ e :: l2) c t -> closing (l1 ++ new ++ l2) c t.
  Proof. unfold closing. intros H [H1 H2]. split; [exact H1|]. destruct (l1 ++ new ++ l2); [easy|]. destruct l1; exact H2. Qed.
  Lemma one_more {A} (l1 : list A) x l2 : l1 ++ [x] ++ l2 <> [].
  Proof. destruct l1; discriminate. Qed.
  Lemma distinct_same l1 k a v v' tm l2 : distinct_keys (l1 ++ XItem k a v tm :: l2) -> distinct_keys (l1 ++ XItem k a v' tm :: l2).
  Proof.
    induction l1 as [|i l1 IH]; cbn [app distinct_keys]; [auto|]. intros [H1 H2]. split; [|auto]. revert H1. rewrite !lall_app. cbn [lall item_key]. tauto.
  Qed.
  Lemma seps_same l1 k a v v' tm l2 t : (wide v' = true -> wide v = true) ->
    seps sf false (l1 ++ XItem k a v tm :: l2) t -> seps sf false (l1 ++ XItem k a v' tm :: l2) t.
  Proof.
    intros Hw. induction l1 as [|[k0 a0 v0 tm0] l1 IH]; cbn [app].
    - destruct l2 as [|[k1 a1 v1 tm1] l2]; cbn [seps]; [auto|]. intros (H1 & H2 & H3). auto.
    - destruct l1 as [|[k1 a1 v1 tm1] l1]; cbn [app] in *; intros (H1 & H2 & H3); (split; [exact H1|split; [exact H2|exact (IH H3)]]).
  Qed.
  Lemma edit_meta e e' : value_edit u b pf sf e e' -> x_meta e' = x_meta e.
  Proof. destruct 1; reflexivity. Qed.
  Lemma edit_wide e e' : value_edit u b pf sf e e' -> wide e' = wide e.
  Proof. destruct 1; reflexivity. Qed.
  Lemma edit_sticky e e' : value_edit u b pf sf e e' -> sticky e' = sticky e.
  Proof. destruct 1; reflexivity. Qed.
  Lemma edit_ok e e' : value_edit u b pf sf e e' -> forall h fl, ok h fl e -> ok h fl e'.
  Proof.
    assert (EL : forall nl x x', value_edit u b pf sf x x' -> (forall h fl, ok h fl x -> ok h fl x') -> elem_in ok nl x -> elem_in ok nl x').
    { intros nl x x' Hv IH [K1 K2]. split; [now rewrite (edit_meta _ _ Hv)|]. unfold sub in *. rewrite (edit_sticky _ _ Hv). now apply IH. }
    induction 1 as [m l1 e new l2 c t Hn Hne|m l1 e e' l2 c t Hv IH|m ns n am l1 e new l2 ex co t Hn Hne|m ns n am l1 e e' l2 ex co t Hv IH
      |m l1 old new l2 t Hn Hd Hs|m l1 k a v v' tm l2 t Hi Hw|m l1 k a v v' tm l2 t Hv IH|m e e' Hn|m e e' Hv IH]; intros h fl H.
    - destruct H as [H1 H2]. split; [|now apply (closing_same _ e)]. change (lall (elem_in ok true) (l1 ++ e :: l2)) in H1.
      change (lall (elem_in ok true) (l1 ++ new ++ l2)). rewrite !lall_app in *. cbn [lall] in H1. tauto.
    - destruct H as [H1 H2]. split; [|now apply (closing_same _ e [e']); [apply one_more|]]. change (lall (elem_in ok true) (l1 ++ e :: l2)) in H1.
      change (lall (elem_in ok true) (l1 ++ e' :: l2)). rewrite !lall_app in *. cbn [lall] in *. destruct H1 as (K1 & K2 & K3). repeat split; auto; apply (EL true e e' Hv IH K2).
    - destruct H as (H1 & H2 & H3 & H4 & H5 & H6). split; [exact H1|]. split; [exact H2|]. split; [exact H3|]. split; [|split; [now apply (closing_same _ e)|exact H6]].
      change (lall (elem_in ok true) (l1 ++ e :: l2)) in H4. change (lall (elem_in ok true) (l1 ++ new ++ l2)). rewrite !lall_app in *. cbn [lall] in H4. tauto.
    - destruct H as (H1 & H2 & H3 & H4 & H5 & H6). split; [exact H1|]. split; [exact H2|]. split; [exact H3|]. split; [|split; [now apply (closing_same _ e [e']); [apply one_more|]|exact H6]].
      change (lall (elem_in ok true) (l1 ++ e :: l2)) in H4. change (lall (elem_in ok true) (l1 ++ e' :: l2)). rewrite !lall_app in *. cbn [lall] in *.
      destruct H4 as (K1 & K2 & K3). repeat split; auto; apply (EL true e e' Hv IH K2).
    - destruct H as (H1 & H2 & H3 & H4). change (lall (item_ok u b pf sf false) (l1 ++ old ++ l2)) in H1. split; [|auto].
      change (lall (item_ok u b pf sf false) (l1 ++ new ++ l2)). rewrite !lall_app in *. tauto.
    - destruct H as (H1 & H2 & H3 & H4). change (lall (item_ok u b pf sf false) (l1 ++ XItem k a v tm :: l2)) in H1.
      split; [|split; [now apply (distinct_same _ _ _ v)|split; [exact H3|apply (seps_same _ _ _ v); [congruence|exact H4]]]].
      change (lall (item_ok u b pf sf false) (l1 ++ XItem k a v' tm :: l2)). rewrite !lall_app in *. cbn [lall] in *. tauto.
    - destruct H as (H1 & H2 & H3 & H4). change (lall (item_ok u b pf sf false) (l1 ++ XItem k a v tm :: l2)) in H1.
      split; [|split; [now apply (distinct_same _ _ _ v)|split; [exact H3|apply (seps_same _ _ _ v); [now rewrite (edit_wide _ _ Hv)|exact H4]]]].
      change (lall (item_ok u b pf sf false) (l1 ++ XItem k a v' tm :: l2)). rewrite !lall_app in *. cbn [lall] in *. destruct H1 as (K1 & K2 & K3). split; [exact K1|]. split; [|exact K3].
      destruct K2 as (J1 & J2 & J3 & J4). split; [exact J1|]. rewrite (edit_meta _ _ Hv). split; [|auto]. revert J2. unfold sub. rewrite (edit_sticky _ _ Hv). apply IH.
    - exact Hn.
    - exact (EL true e e' Hv IH H).
  Qed.
  Lemma new_value_ok nl k v v' : new_value u b pf sf v v' -> attr_ok u b pf sf nl k v -> attr_ok u b pf sf nl k v'.
  Proof.
    intros Hv (H1 & H2 & H3 & H4 & H5). split; [exact H1|]. split; [exact H2|]. split; [exact H3|]. destruct Hv as [Hv|Hv]; [exact Hv|].
    rewrite (edit_meta _ _ Hv). split; [exact H4|]. revert H5. unfold sub. rewrite (edit_sticky _ _ Hv). now apply edit_ok.
  Qed.
  Lemma names_app l1 l2 : attr_names (l1 ++ l2) = attr_names l1 ++ attr_names l2.
  Proof. apply flat_map_app. Qed.
  Lemma lines_ok l l' : lines_edit u b pf sf l l' -> lall struct_ok l /\ NoDup (attr_names l) -> lall struct_ok l' /\ NoDup (attr_names l').
  Proof.
    induction 1 as [l1 old new l2 Hn Hd|l1 m k v v' l2 Hv|l1 m i ls ls' bd l2 H1 H2|l1 m i ls bm l l' omit l2 _ IH|l1 m i ls bm am k v v' omit l2 Hv];
      intros [HL HN]; (split; [|rewrite names_app in *; try exact HN]).
    - rewrite !lall_app in *. tauto.
    - exact Hd.
    - rewrite !lall_app in *. cbn [lall] in *. destruct HL as (K1 & [K2 K2'] & K3). repeat split; auto; try apply K2. all: now apply (new_value_ok true k v v' Hv).
    - rewrite !lall_app in *. cbn [lall] in *. destruct HL as (K1 & (J1 & J2 & J3 & J4 & J5 & J6 & J7) & K3). split; [exact K1|]. split; [|exact K3].
      split; [exact J1|]. split; [exact J2|]. split; [exact J3|]. split; [exact J4|]. split; [exact H1|]. split; [exact H2|exact J7].
    - rewrite !lall_app in *. cbn [lall] in *. destruct HL as (K1 & (J1 & J2 & J3 & J4 & J5 & J6 & J7) & K3). split; [exact K1|]. split; [|exact K3].
      split; [exact J1|]. split; [exact J2|]. split; [exact J3|]. split; [exact J4|]. split; [exact J5|]. split; [exact J6|]. destruct J7 as (B1 & B2 & B3 & B4). split; [exact B1|].
      split; [exact B2|]. split; [exact B3|]. exact (IH B4).
    - rewrite !lall_app in *. cbn [lall] in *. destruct HL as (K1 & (J1 & J2 & J3 & J4 & J5 & J6 & J7) & K3). split; [exact K1|]. split; [|exact K3].
      split; [exact J1|]. split; [exact J2|]. split; [exact J3|]. split; [exact J4|]. split; [exact J5|]. split; [exact J6|]. destruct J7 as (B1 & B2 & B3 & B4). split; [exact B1|].
      split; [exact B2|]. split; [exact B3|]. exact (new_value_ok false k v v' Hv B4).
  Qed.
  Lemma edits_ok x y : edits u b pf sf x y -> body_ok u b pf sf x -> body_ok u b pf sf y.
  Proof.
    induction 1 as [x|x y z (m & l & l' & one & omit & -> & -> & HE & HO) _ IH]; [auto|]. intros (H1 & H2 & H3 & H4 & H5 & H6). apply IH.
    destruct (lines_ok _ _ HE (conj H4 H5)) as [K1 K2]. split; [exact H1|]. split; [exact H2|]. split; [exact H3|]. split; [exact K1|]. split; [exact K2|].
    intros Ho. split; [now apply HO|now apply H6].
  Qed.
End Proofs.

(** How attributes and blocks of the same name come together when a document is read (C48). *)
From Coq Require Import NArith ZArith Bool String List Lia.
From Verif Require Import Res Str NumberModel PrimModel PrimProofs Ast EqSpec EqProofs EvalIp JsonModel ConvSpec FmtModel FmtReadSpec SerModel TyBase.
From Verif Require MapModel JsonProofs.
Import ListNotations.
Open Scope list_scope.

(** Blocks of the same name: their labels and bodies. *)
Definition labeled := (list str * rbody)%type.
Definition blk (id : str) (q : labeled) : struct_ := SBlk id (map BLString (fst q)) (snd q).
Definition push (l : str) (q : labeled) : labeled := (l :: fst q, snd q).
Definition node (q : labeled) : jnode := JsonProofs.chain (fst q) (expr_of_body (snd q)).
Definition weave (qs : list labeled) : option jnode :=
  match qs with [] => None | q :: qs => Some (fold_left (fun n q => deep_merge (node q) n) qs (node q)) end.
Lemma entry_blk id q : entry_of (blk id q) = BlockEntry [(id, node q)].
Proof.
  destruct q as [ls body]. unfold blk, node. cbn [fst snd entry_of]. rewrite map_map. cbn [blabel_str]. rewrite map_id.
  rewrite JsonProofs.block_node_chain. reflexivity.
Qed.
Lemma relabel_blk l id qs : relabel (cons (BLString l)) (map (blk id) qs) = map (blk id) (map (push l) qs).
Proof. unfold relabel. induction qs as [|q qs IH]; cbn; [reflexivity|]. f_equal. exact IH. Qed.
Lemma relabel_blk2 v l id qs : relabel (fun ls => BLString v :: BLString l :: ls) (map (blk id) qs) = map (blk id) (map (push v) (map (push l) qs)).
Proof. unfold relabel. induction qs as [|q qs IH]; cbn; [reflexivity|]. f_equal. exact IH. Qed.

Lemma merge_into_fresh f n k m : ~ In k (map fst m) -> merge_into f n k m = m ++ [(k, n)].
Proof.
  induction m as [|[k' x] m IH]; cbn; intros H; [reflexivity|]. destruct (seqb k k') eqn:E; [apply seqb_eq in E; subst; tauto|]. now rewrite IH by tauto.
Qed.
Lemma merge_into_last f n k m x : ~ In k (map fst m) -> merge_into f n k (m ++ [(k, x)]) = m ++ [(k, f x)].
Proof.
  induction m as [|[k' y] m IH]; cbn; intros H; [now rewrite seqb_refl|]. destruct (seqb k k') eqn:E; [apply seqb_eq in E; subst; tauto|]. now rewrite IH by tauto.
Qed.

(** All that is written for one name. *)
Definition group (id : str) (ss : rbody) (n : jnode) : Prop :=
  forall acc, ~ In id (map fst acc) -> fold_left add_entry (map entry_of ss) acc = acc ++ [(id, n)].
Lemma group_attr id e : group id [SAttribute id e] (JExpr e).
Proof.
  intros acc H. cbn. unfold jinsert. apply insert_fresh. apply Forall_forall. intros k' Hk. apply seqb_neq. intros ->. contradiction.
Qed.
Lemma group_blocks id qs n : weave qs = Some n -> group id (map (blk id) qs) n.
Proof.
  destruct qs as [|q qs]; [discriminate|]. cbn [weave]. intros [= <-] acc H. cbn [map fold_left]. rewrite entry_blk. cbn [add_entry fold_left fst snd].
  unfold deep_merge_into. rewrite merge_into_fresh by exact H. generalize (node q). induction qs as [|q' qs IH]; intros n; cbn [map fold_left]; [reflexivity|].
  rewrite entry_blk. cbn [add_entry fold_left fst snd]. unfold deep_merge_into. rewrite merge_into_last by exact H. apply IH.
Qed.

(** *** A body *)
Definition sect := (str * rbody * jnode)%type.
Definition s_id (r : sect) : str := fst (fst r).
Definition s_body (r : sect) : rbody := snd (fst r).
Definition s_node (r : sect) : jnode := snd r.
Definition skeyed (r : sect) : okey expr * expr := (KExpr (EStr (s_id r)), expr_of_node (s_node r)).
Lemma sections_nodes rs : Forall (fun r => group (s_id r) (s_body r) (s_node r)) rs -> forall acc, NoDup (map fst acc ++ map s_id rs) ->
  fold_left add_entry (map entry_of (concat (map s_body rs))) acc = acc ++ map (fun r => (s_id r, s_node r)) rs.
Proof.
  induction 1 as [|r rs H _ IH]; intros acc N; cbn [map concat]; [cbn; now rewrite app_nil_r|].
  rewrite map_app, fold_left_app. rewrite H.
  - rewrite IH; [now rewrite <- app_assoc|]. rewrite map_app, <- app_assoc. exact N.
  - cbn [map] in N. apply NoDup_remove_2 in N. intros I. apply N. apply in_or_app. now left.
Qed.
Lemma sections_expr rs : Forall (fun r => group (s_id r) (s_body r) (s_node r)) rs -> NoDup (map s_id rs) ->
  expr_of_body (concat (map s_body rs)) = EObj (map skeyed rs).
Proof.
  intros H N. unfold expr_of_body, body_nodes. rewrite (sections_nodes rs H []) by exact N. unfold expr_of_nodes. cbn [app].
  rewrite map_map. cbn [fst snd]. rewrite JsonProofs.expr_obj_nodup by (rewrite map_map; exact N). f_equal. rewrite map_map. reflexivity.
Qed.

(** *** Labels *)
Definition lsect := (str * list labeled * jnode)%type.
Definition l_id (r : lsect) : str := fst (fst r).
Definition l_blocks (r : lsect) : list labeled := snd (fst r).
Definition l_node (r : lsect) : jnode := snd r.
Definition l_keyed (r : lsect) : okey expr * expr := (KExpr (EStr (l_id r)), expr_of_node (l_node r)).
Definition l_pushed (r : lsect) : list labeled := map (push (l_id r)) (l_blocks r).
Notation join := (fold_left (fun n q => deep_merge (node q) n)).
Lemma join_push l qs n acc : weave qs = Some n -> ~ In l (map fst acc) -> join (map (push l) qs) (JMap acc) = JMap (acc ++ [(l, n)]).
Proof.
  destruct qs as [|q qs]; [discriminate|]. cbn [weave]. intros [= <-] H. cbn [map fold_left].
  change (node (push l q)) with (JMap [(l, node q)]). rewrite JsonProofs.deep_merge_map1. rewrite merge_into_fresh by exact H.
  generalize (node q). induction qs as [|q' qs IH]; intros n; cbn [map fold_left]; [reflexivity|].
  change (node (push l q')) with (JMap [(l, node q')]). rewrite JsonProofs.deep_merge_map1. rewrite merge_into_last by exact H. apply IH.
Qed.
Lemma join_sections rs : Forall (fun r => weave (l_blocks r) = Some (l_node r)) rs -> forall acc, NoDup (map fst acc ++ map l_id rs) ->
  join (concat (map l_pushed rs)) (JMap acc) = JMap (acc ++ map (fun r => (l_id r, l_node r)) rs).
Proof.
  induction 1 as [|r rs H _ IH]; intros acc N; cbn [map concat]; [cbn; now rewrite app_nil_r|].
  rewrite fold_left_app. unfold l_pushed at 2. rewrite (join_push _ _ _ _ H).
  - rewrite IH; [now rewrite <- app_assoc|]. rewrite map_app, <- app_assoc. exact N.
  - cbn [map] in N. apply NoDup_remove_2 in N. intros I. apply N. apply in_or_app. now left.
Qed.
Lemma weave_sections rs : rs <> [] -> Forall (fun r => weave (l_blocks r) = Some (l_node r)) rs -> NoDup (map l_id rs) ->
  weave (concat (map l_pushed rs)) = Some (JMap (map (fun r => (l_id r, l_node r)) rs)).
Proof.
  intros N0 H N. assert (J := join_sections rs H [] N). cbn [app] in J. rewrite <- J. clear J.
  destruct rs as [|[[l qs] n] rs]; [contradiction|]. inversion H as [|? ? W _]; subst. unfold l_blocks, l_node in W. cbn [fst snd] in W.
  cbn [map concat]. unfold l_pushed at 1 3. unfold l_id, l_blocks. cbn [fst snd]. destruct qs as [|q qs]; [discriminate|].
  cbn [map app weave fold_left]. reflexivity.
Qed.
Lemma labels_expr rs : NoDup (map l_id rs) -> expr_of_node (JMap (map (fun r => (l_id r, l_node r)) rs)) = EObj (map l_keyed rs).
Proof.
  intros N. cbn [expr_of_node]. rewrite map_map. cbn [fst snd]. rewrite JsonProofs.expr_obj_nodup by (rewrite map_map; exact N). f_equal. rewrite map_map. reflexivity.
Qed.

(** *** Several blocks *)
Definition bare (body : rbody) : labeled := ([], body).
Lemma weave_bare bodies : bodies <> [] -> weave (map bare bodies) = Some (JBody (map expr_of_body bodies)).
Proof.
  destruct bodies as [|x bodies]; [contradiction|]. intros _. cbn [map weave]. f_equal. change (node (bare x)) with (JBody [expr_of_body x]).
  change (expr_of_body x :: map expr_of_body bodies) with ([expr_of_body x] ++ map expr_of_body bodies).
  generalize [expr_of_body x]. induction bodies as [|y bodies IH]; intros l; cbn [map fold_left]; [now rewrite app_nil_r|].
  change (node (bare y)) with (JBody [expr_of_body y]). cbn [deep_merge]. rewrite IH. now rewrite <- app_assoc.
Qed.
Lemma several_arr {A} (l : list A) (es : list expr) : TySpec.several l -> length es = length l -> expr_of_node (JBody es) = EArr es.
Proof. unfold TySpec.several. destruct es as [|e [|e' es]]; cbn [length]; intros; try lia. reflexivity. Qed.

(** *** What can be read *)
Section Readable.
  Context (u : unicode) (b : build) (pf : str -> f64) (sf : f64 -> str) (c : cfg).
  Notation struct_readable := (exact_struct u b pf sf c).
  Notation body_readable := (exact_body u b pf sf c).
  Definition own (id : str) (ss : rbody) : Prop := attr_keys ss = [] \/ attr_keys ss = [id].
  Definition sect_ok (r : sect) : Prop :=
    group (s_id r) (s_body r) (s_node r) /\ lall struct_readable (s_body r) /\ own (s_id r) (s_body r).
  Definition blocks_ok (q : labeled) : Prop := Forall (fun l => escape_ok l = true) (fst q) /\ body_readable (snd q).
  Lemma sections_readable rs : Forall sect_ok rs -> NoDup (map s_id rs) -> body_readable (concat (map s_body rs)).
  Proof.
    intros H N. split.
    - clear N. induction H as [|r rs (_ & H & _) _ IH]; [exact I|]. cbn [map concat]. apply lall_Forall. apply Forall_app. split; now apply lall_Forall.
    - assert (S : forall l, Forall sect_ok l -> forall k, In k (attr_keys (concat (map s_body l))) -> In k (map s_id l)).
      { clear. induction 1 as [|r rs (_ & _ & H) _ IH]; cbn; [tauto|]. intros k Hk. unfold attr_keys in *. rewrite flat_map_app in Hk. apply in_app_or in Hk as [Hk|Hk]; [left|right; auto].
        unfold own, attr_keys in H. destruct H as [H|H]; rewrite H in Hk; [destruct Hk|]. destruct Hk as [->|[]]. reflexivity. }
      induction H as [|r rs H Hrs IH]; [constructor|]. cbn [map concat]. inversion N as [|? ? N1 N2]; subst. unfold attr_keys. rewrite flat_map_app.
      fold (attr_keys (s_body r)). fold (attr_keys (concat (map s_body rs))).
      destruct H as (_ & _ & [H|H]); rewrite H; [exact (IH N2)|]. constructor; [|exact (IH N2)]. intros I. apply N1. now apply S.
  Qed.
  Lemma blocks_readable id qs : is_ident u id = true -> Forall blocks_ok qs -> lall struct_readable (map (blk id) qs) /\ own id (map (blk id) qs).
  Proof.
    intros HI H. split.
    - apply lall_Forall. apply Forall_forall. intros s Hs. apply in_map_iff in Hs as (q & <- & Hq). rewrite Forall_forall in H. destruct (H q Hq) as [H1 [H2 H3]].
      destruct (exact_body_readable u b pf sf c (snd q) (conj H2 H3)) as [[B1 B2] B3].
      split; [|exact B3]. split; [exact HI|]. split; [|now split]. apply lall_Forall. apply Forall_forall. intros l Hl. apply in_map_iff in Hl as (l' & <- & Hl'). cbn. rewrite Forall_forall in H1. auto.
    - left. clear. induction qs as [|q qs IH]; [reflexivity|]. exact IH.
  Qed.
  Lemma push_ok l qs : escape_ok l = true -> Forall blocks_ok qs -> Forall blocks_ok (map (push l) qs).
  Proof. intros HL H. apply Forall_forall. intros q Hq. apply in_map_iff in Hq as (q' & <- & Hq'). rewrite Forall_forall in H. destruct (H q' Hq'). split; [now constructor|assumption]. Qed.
End Readable.

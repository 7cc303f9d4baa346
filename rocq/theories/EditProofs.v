(** * Proofs about local edits (C49) *)
From Coq Require Import NArith Bool String List Lia.
From Verif Require Import Res Str NumberModel PrimModel DedentModel EAst EAstInd EncModel EditSpec.
Import ListNotations.
Open Scope N_scope.

(** Started with the flag cleared, an encoder ends with it cleared. *)
Definition quiet (o : out) : Prop := snd (o false) = false.
Lemma quiet_eq o : quiet o -> o false = (fst (o false), false).
Proof. unfold quiet. destruct (o false). cbn. congruence. Qed.
Lemma quiet_wr s : quiet (wr s). Proof. reflexivity. Qed.
Lemma cat_eq f g : quiet f -> quiet g -> (f >>> g) false = (fst (f false) ++ fst (g false), false).
Proof. intros Hf Hg. unfold cat. rewrite (quiet_eq _ Hf), (quiet_eq _ Hg). reflexivity. Qed.
Lemma quiet_cat f g : quiet f -> quiet g -> quiet (f >>> g).
Proof. intros Hf Hg. unfold quiet. now rewrite cat_eq. Qed.
Lemma quiet_cats l : Forall quiet l -> quiet (cats l).
Proof. induction 1; cbn [cats]; [apply quiet_wr|now apply quiet_cat]. Qed.
Lemma quiet_escaped f : quiet (escaped f). Proof. reflexivity. Qed.
Lemma quiet_deco d df f : quiet f -> quiet (deco d df f).
Proof. intros H. unfold deco. auto using quiet_cat, quiet_wr. Qed.
Lemma quiet_did df i : quiet (enc_did df i). Proof. apply quiet_deco, quiet_wr. Qed.
Lemma quiet_strip m s f : quiet f -> quiet (enc_strip m s f).
Proof. intros H. unfold enc_strip. auto using quiet_cat, quiet_wr. Qed.
Lemma quiet_map {X} (f : X -> out) l : (forall x, quiet (f x)) -> quiet (cats (map f l)).
Proof. intros H. apply quiet_cats, Forall_forall. intros o Ho. apply in_map_iff in Ho as (x & <- & _). apply H. Qed.
Lemma quiet_mapF {X} (f : X -> out) l : Forall (fun x => quiet (f x)) l -> quiet (cats (map f l)).
Proof. intros H. apply quiet_cats. induction H; cbn; constructor; auto. Qed.
Lemma quiet_opt {X} (f : X -> out) o : oall (fun x => quiet (f x)) o -> quiet (match o with Some x => f x | None => wr [] end).
Proof. destruct o; cbn; auto using quiet_wr. Qed.
Lemma quiet_kv df o : quiet (match o with Some k => enc_did df k >>> wr (lit ",") | None => wr [] end).
Proof. destruct o; auto using quiet_cat, quiet_wr, quiet_did. Qed.

Section Quiet.
  Context (sf : f64 -> str).
  Lemma quiet_xdec df e : quiet (x_core sf e) -> quiet (xdec (x_core sf) df e).
  Proof. apply quiet_deco. Qed.
  Lemma quiet_comma (l : list xexpr) : Forall (fun e => quiet (x_core sf e)) l -> quiet (comma_sep (xdec (x_core sf)) l).
  Proof.
    intros H. destruct l as [|x l]; [apply quiet_wr|]. inversion H; subst. cbn [comma_sep].
    apply quiet_cat; [now apply quiet_xdec|]. apply quiet_mapF. eapply Forall_impl; [|eassumption].
    intros y Hy. apply quiet_cat; [apply quiet_wr|now apply quiet_xdec].
  Qed.
  Ltac qt := repeat first [assumption | apply quiet_wr | apply quiet_escaped | apply quiet_cat | apply quiet_deco | apply quiet_strip
    | apply quiet_did | apply quiet_kv | apply quiet_xdec | apply quiet_comma | (apply quiet_mapF; assumption)
    | (apply quiet_map; intros) | apply quiet_opt].
  Lemma quiet_all :
    (forall e, quiet (x_core sf e)) /\ (forall c, quiet (cond_enc sf c)) /\ (forall i, quiet (item_enc sf i)) /\
    (forall k, quiet (key_enc sf k)) /\ (forall o, quiet (trop_enc sf o)) /\ (forall o, quiet (op_enc sf o)) /\
    (forall t, quiet (tpl_enc sf t)) /\ (forall e, quiet (elem_enc sf e)) /\ (forall e, quiet (else_enc sf e)).
  Proof.
    apply xexpr_all; intros;
      try match goal with
          | |- quiet (x_core _ (XHeredoc _ _ _ ?i _)) => destruct i
          | |- quiet (x_core _ (XFor _ _ _ _ _ ?k _ _ _)) => destruct k
          end; cbn [oall] in *;
      cbn [x_core cond_enc item_enc key_enc trop_enc op_enc tpl_enc elem_enc else_enc]; try solve [qt].
  Qed.
  Lemma quiet_x df e : quiet (xdec (x_core sf) df e). Proof. apply quiet_xdec, quiet_all. Qed.
  Lemma quiet_label l : quiet (label_enc l). Proof. destruct l; cbn [label_enc]; qt. Qed.
  Lemma quiet_s : (forall s, quiet (s_core sf s)) /\ (forall b : xbody, Forall (fun s => quiet (s_core sf s)) (let (_, l, _, _) := b in l)).
  Proof.
    apply xbody_all; intros.
    - cbn [s_core]. repeat apply quiet_cat; auto using quiet_did, quiet_wr. apply quiet_all.
    - cbn [s_core]. repeat apply quiet_cat; auto using quiet_did, quiet_wr.
      + apply quiet_map, quiet_label.
      + destruct b as [bm bl one om]. apply quiet_deco. destruct (one && oneline_ok bl).
        * destruct bl; [apply quiet_wr|]. inversion H; subst. now apply quiet_deco.
        * apply quiet_cat; [apply quiet_wr|]. apply quiet_mapF. eapply Forall_impl; [|exact H]. intros s Hs.
          apply quiet_cat; [now apply quiet_deco|apply quiet_wr].
    - assumption.
  Qed.
  Lemma quiet_senc df s : quiet (s_enc sf df s). Proof. apply quiet_deco, quiet_s. Qed.
End Quiet.

(** ** The texts of bodies and structures *)
Section Texts.
  Context (sf : f64 -> str).
  Lemma fst_cat f g : quiet f -> quiet g -> fst ((f >>> g) false) = fst (f false) ++ fst (g false).
  Proof. intros. now rewrite cat_eq. Qed.
  Lemma fst_cats {X} (f : X -> out) l : (forall x, quiet (f x)) -> fst (cats (map f l) false) = flat_map (fun x => fst (f x false)) l.
  Proof.
    intros H. induction l as [|x l IH]; [reflexivity|]. cbn [map cats flat_map].
    rewrite fst_cat by (auto; now apply quiet_map). now rewrite IH.
  Qed.
  Lemma fst_deco d df f : quiet f -> fst (deco d df f false) = enc_prefix d (fst df) ++ fst (f false) ++ enc_suffix d (snd df).
  Proof. intros H. unfold deco. rewrite !fst_cat; auto using quiet_wr, quiet_cat. Qed.

  Lemma quiet_line s : quiet (sdec (s_core sf) NO s >>> wr [10]).
  Proof. apply quiet_cat; [apply quiet_senc|apply quiet_wr]. Qed.
  Lemma lines_eq l : fst (cats (map (fun x => sdec (s_core sf) NO x >>> wr [10]) l) false) = lines sf l.
  Proof.
    rewrite fst_cats by (intros; apply quiet_line). unfold lines. apply flat_map_ext. intros s.
    rewrite fst_cat; [reflexivity|apply quiet_senc|apply quiet_wr].
  Qed.
  Lemma quiet_structs om l : quiet (structs_enc sf om l).
  Proof.
    induction l as [|x l IH]; [apply quiet_wr|]. cbn [structs_enc].
    destruct l; repeat (apply quiet_cat; [first [apply quiet_senc|apply quiet_wr]|]); auto using quiet_wr.
  Qed.
  Lemma structs_lines l : fst (structs_enc sf false l false) = lines sf l.
  Proof.
    induction l as [|x l IH]; [reflexivity|]. destruct l as [|y l].
    - cbn [structs_enc]. rewrite fst_cat by auto using quiet_senc, quiet_wr. cbn. now rewrite app_nil_r.
    - change (structs_enc sf false (x :: y :: l)) with (s_enc sf NO x >>> wr [10] >>> structs_enc sf false (y :: l)).
      rewrite !fst_cat, IH by auto using quiet_cat, quiet_senc, quiet_wr, quiet_structs.
      change (lines sf (x :: y :: l)) with (line sf x ++ lines sf (y :: l)). unfold line. rewrite <- app_assoc. reflexivity.
  Qed.
  Lemma structs_omit l s : fst (structs_enc sf true (l ++ [s]) false) = lines sf l ++ struct_text sf s.
  Proof.
    induction l as [|x l IH].
    - cbn [structs_enc app]. rewrite fst_cat by auto using quiet_senc, quiet_wr. cbn. now rewrite app_nil_r.
    - assert (E : structs_enc sf true ((x :: l) ++ [s]) = s_enc sf NO x >>> wr [10] >>> structs_enc sf true (l ++ [s])) by (destruct l; reflexivity).
      rewrite E, !fst_cat, IH by auto using quiet_cat, quiet_senc, quiet_wr, quiet_structs.
      change (lines sf (x :: l)) with (line sf x ++ lines sf l). unfold line. rewrite <- !app_assoc. reflexivity.
  Qed.
  Lemma body_text m l one : show_body sf (XBody m l one false) = enc_prefix (m_decor m) [] ++ lines sf l ++ enc_suffix (m_decor m) [].
  Proof. unfold show_body. cbn [body_enc]. rewrite fst_deco by apply quiet_structs. now rewrite structs_lines. Qed.
  Lemma body_text_omit m l s one : show_body sf (XBody m (l ++ [s]) one true) = enc_prefix (m_decor m) [] ++ lines sf l ++ struct_text sf s ++ enc_suffix (m_decor m) [].
  Proof. unfold show_body. cbn [body_enc]. rewrite fst_deco by apply quiet_structs. rewrite structs_omit. now rewrite <- app_assoc. Qed.
End Texts.

(** ** Places *)
(** The outputs of [o x], for all [x], differ in the text of [x] only. *)
Definition local {A} (T : A -> str) (o : A -> out) : Prop :=
  exists a z, forall x, o x false = (a ++ T x ++ z, false).
Section Local.
  Context {A : Type} (T : A -> str).
  Lemma local_l f (o : A -> out) : quiet f -> local T o -> local T (fun x => f >>> o x).
  Proof.
    intros Hf (a & z & H). exists (fst (f false) ++ a), z. intros x. unfold cat. rewrite (quiet_eq _ Hf), H.
    now rewrite <- app_assoc.
  Qed.
  Lemma local_r (o : A -> out) f : quiet f -> local T o -> local T (fun x => o x >>> f).
  Proof.
    intros Hf (a & z & H). exists a, (z ++ fst (f false)). intros x. unfold cat. rewrite H, (quiet_eq _ Hf).
    now rewrite <- !app_assoc.
  Qed.
  Lemma local_deco d df (o : A -> out) : local T o -> local T (fun x => deco d df (o x)).
  Proof. intros H. unfold deco. apply local_l; [apply quiet_wr|]. apply local_r; [apply quiet_wr|exact H]. Qed.
  Lemma local_eq (o o' : A -> out) : (forall x, o' x false = o x false) -> local T o -> local T o'.
  Proof. intros E (a & z & H). exists a, z. intros x. now rewrite E. Qed.
  Lemma cats_app l1 l2 : forall b, cats (l1 ++ l2) b = (cats l1 >>> cats l2) b.
  Proof.
    induction l1 as [|f l1 IH]; intros b.
    - cbn. unfold cat, wr. now destruct (cats l2 b).
    - cbn [app cats]. unfold cat in *. destruct (f b) as [s b']. rewrite IH. destruct (cats l1 b') as [t b'']. destruct (cats l2 b'') as [u c].
      now rewrite app_assoc.
  Qed.
  Lemma local_cats {X} (g : X -> out) l1 (f : A -> X) l2 : (forall x, quiet (g x)) -> local T (fun x => g (f x)) ->
    local T (fun x => cats (map g (l1 ++ f x :: l2))).
  Proof.
    intros Hg H. apply (local_eq (fun x => cats (map g l1) >>> cats (map g (f x :: l2)))); [intros x; rewrite map_app; apply cats_app|]. apply local_l; [now apply quiet_map|].
    cbn [map cats]. apply local_r; [now apply quiet_map|exact H].
  Qed.
  Lemma local_strip m s (o : A -> out) : local T o -> local T (fun x => enc_strip m s (o x)).
  Proof.
    intros H. unfold enc_strip. apply local_l; [apply quiet_wr|]. apply local_l; [apply quiet_wr|].
    apply local_r; [auto using quiet_cat, quiet_wr|exact H].
  Qed.
End Local.
Lemma local_here {X} (g : X -> out) l1 l2 : (forall x, quiet (g x)) ->
  local (fun l => flat_map (fun x => fst (g x false)) l) (fun l => cats (map g (l1 ++ l ++ l2))).
Proof.
  intros Hg. exists (flat_map (fun x => fst (g x false)) l1), (flat_map (fun x => fst (g x false)) l2). intros l.
  rewrite (quiet_eq (cats (map g (l1 ++ l ++ l2)))) by now apply quiet_map. now rewrite fst_cats, !flat_map_app by exact Hg.
Qed.

Scheme in_expr_i := Minimality for in_expr Sort Prop
  with in_tpl_i := Minimality for in_tpl Sort Prop
  with in_el_i := Minimality for in_el Sort Prop.
Combined Scheme in_expr_all from in_expr_i, in_tpl_i, in_el_i.
Scheme in_lines_i := Minimality for in_lines Sort Prop
  with in_one_i := Minimality for in_one Sort Prop.
Combined Scheme in_lines_all from in_lines_i, in_one_i.

Lemma here_expr_local sf {A} (h : hole A) df f : here_expr h df f -> local (hole_text sf h) (fun x => xdec (x_core sf) df (f x)).
Proof.
  intros H. destruct H as [df|df m l1 l2 t].
  - exists [], []. intros x. cbn [hole_text]. rewrite app_nil_r. cbn [app]. unfold value_text, x_enc. apply quiet_eq, quiet_x.
  - assert (HC : local (hole_text sf HItems) (fun l => cats (map (item_enc sf) (l1 ++ l ++ l2)))) by (apply (local_here (item_enc sf)), (quiet_all sf)).
    change (local (hole_text sf HItems) (fun x => deco (m_decor m) df (x_core sf (XObj m (l1 ++ x ++ l2) t)))). apply local_deco. cbn [x_core].
    apply local_l; [apply quiet_wr|]. apply local_r; [auto using quiet_cat, quiet_wr|exact HC].
Qed.
Lemma here_lines_local sf {A} (h : hole A) f : here_lines h f ->
  local (hole_text sf h) (fun x => cats (map (fun s => sdec (s_core sf) NO s >>> wr [10]) (f x))).
Proof.
  intros H. destruct H as [l1 l2].
  destruct (local_here (fun s => sdec (s_core sf) NO s >>> wr [10]) l1 l2 (quiet_line sf)) as (a & z & H). exists a, z. intros l. rewrite H.
  f_equal. f_equal. f_equal. unfold hole_text, lines. apply flat_map_ext. intros s. rewrite fst_cat; [reflexivity|apply quiet_senc|apply quiet_wr].
Qed.
Lemma here_block_local sf {A} (h : hole A) f df : here_block h f -> local (hole_text sf h) (fun x => sdec (s_core sf) df (f x)).
Proof.
  intros H. destruct H as [m i l1 l2 b]. unfold sdec. cbn [struct_meta s_core]. apply local_deco.
  apply local_l; [apply quiet_did|].
  pose proof (local_here label_enc l1 l2 quiet_label) as HL.
  apply local_r; [|exact HL].
  destruct b as [bm l one om]. apply quiet_cat; [apply quiet_wr|]. apply quiet_cat; [|apply quiet_wr].
  apply quiet_deco. destruct (one && oneline_ok l).
  - destruct l; [apply quiet_wr|apply quiet_senc].
  - apply quiet_cat; [apply quiet_wr|]. apply quiet_map. intros; apply quiet_line.
Qed.

Section PlaceProofs.
  Context (sf : f64 -> str) {A : Type} (h : hole A).
  Notation T := (hole_text sf h).
  Lemma comma_local {X : Type} (h' : hole X) l1 (f : X -> xexpr) l2 :
    local (hole_text sf h') (fun x => xdec (x_core sf) (elem_df l1) (f x)) ->
    local (hole_text sf h') (fun x => comma_sep (xdec (x_core sf)) (l1 ++ f x :: l2)).
  Proof.
    assert (Q : forall e, quiet (wr [44] >>> xdec (x_core sf) LEADING e)) by (intros; apply quiet_cat; [apply quiet_wr|apply quiet_x]).
    intros H. destruct l1 as [|y l1]; cbn [elem_df app comma_sep] in *.
    - apply local_r; [now apply quiet_map|exact H].
    - apply local_l; [apply quiet_x|]. apply (local_cats _ (fun e => wr [44] >>> xdec (x_core sf) LEADING e)); [exact Q|].
      apply local_l; [apply quiet_wr|exact H].
  Qed.
  Definition LE (df : str * str) (f : A -> xexpr) := local T (fun x => xdec (x_core sf) df (f x)).
  Lemma LE_intro df (f : A -> xexpr) m : (forall x, x_meta (f x) = m) -> local T (fun x => x_core sf (f x)) -> LE df f.
  Proof.
    intros E H. unfold LE. eapply local_eq; [|apply (local_deco T (m_decor m) df _ H)]. intros x. unfold xdec. now rewrite E.
  Qed.
  Ltac qx := repeat first [apply quiet_wr | apply quiet_cat | apply quiet_x | apply quiet_did | apply quiet_kv | apply quiet_strip | apply quiet_deco
    | apply (quiet_all sf) | (apply quiet_map; intros) | apply quiet_opt ].
  Ltac qo := first [solve [qx] | match goal with |- context [match ?o with _ => _ end] => destruct o; solve [qx] end].
  Ltac loc := first [eassumption | apply local_deco; loc | apply local_strip; loc | apply local_l; [qo|loc] | apply local_r; [qo|loc]].
  Lemma place_expr :
    (forall df f, in_expr h df f -> LE df f) /\
    (forall f, in_tpl h f -> local T (fun x => tpl_enc sf (f x))) /\
    (forall f, in_el h f -> local T (fun x => elem_enc sf (f x))).
  Proof.
    apply in_expr_all.
    - intros df m l1 f l2 c t _ H. apply (LE_intro df _ m); [reflexivity|]. cbn [x_core].
      pose proof (comma_local h l1 f l2 H) as HC.
      eapply local_eq with (o := fun x => wr (lit "[") >>> comma_sep (xdec (x_core sf)) (l1 ++ f x :: l2) >>> wr (if c then lit "," else []) >>> wr (raw_enc t []) >>> wr (lit "]")).
      { intros x. now destruct l1. } loc.
    - intros df m l1 k a f t l2 tr _ H. apply (LE_intro df _ m); [reflexivity|]. cbn [x_core].
      assert (HC : local T (fun x => cats (map (item_enc sf) (l1 ++ XItem k a (f x) t :: l2)))).
      { apply (local_cats T (item_enc sf) l1 (fun x => XItem k a (f x) t)); [apply (quiet_all sf)|]. cbn [item_enc]. loc. } loc.
    - intros df m l1 f a v t l2 tr _ H. apply (LE_intro df _ m); [reflexivity|]. cbn [x_core].
      assert (HC : local T (fun x => cats (map (item_enc sf) (l1 ++ XItem (XKExpr (f x)) a v t :: l2)))).
      { apply (local_cats T (item_enc sf) l1 (fun x => XItem (XKExpr (f x)) a v t)); [apply (quiet_all sf)|]. cbn [item_enc key_enc]. loc. } loc.
    - intros df m d f r _ H. apply (LE_intro df _ m); [reflexivity|]. cbn [x_core]. loc.
    - intros df m f _ H. apply (LE_intro df _ m); [reflexivity|]. cbn [x_core]. loc.
    - intros df m f e e' _ H. apply (LE_intro df _ m); [reflexivity|]. cbn [x_core]. loc.
    - intros df m f e e' _ H. apply (LE_intro df _ m); [reflexivity|]. cbn [x_core]. loc.
    - intros df m f e e' _ H. apply (LE_intro df _ m); [reflexivity|]. cbn [x_core]. loc.
    - intros df m ns n am l1 f l2 ex co t _ H. apply (LE_intro df _ m); [reflexivity|]. cbn [x_core].
      pose proof (comma_local h l1 f l2 H) as HC.
      eapply local_eq with (o := fun x => cats (map (fun i => enc_did NO i >>> wr (lit "::")) ns) >>> enc_did NO n >>>
        deco (m_decor am) NO (wr (lit "(") >>> comma_sep (xdec (x_core sf)) (l1 ++ f x :: l2) >>> wr (if ex then lit "..." else if co then lit "," else []) >>> wr (raw_enc t []) >>> wr (lit ")"))).
      { intros x. now destruct l1. } loc.
    - intros df m f ops _ H. apply (LE_intro df _ m); [reflexivity|]. cbn [x_core]. loc.
    - intros df m e o1 om f o2 _ H. apply (LE_intro df _ m); [reflexivity|]. cbn [x_core].
      assert (HC : local T (fun x => cats (map (trop_enc sf) (o1 ++ XTrop om (XIndex (f x)) :: o2)))).
      { apply (local_cats T (trop_enc sf) o1 (fun x => XTrop om (XIndex (f x)))); [apply (quiet_all sf)|]. cbn [trop_enc op_enc]. loc. } loc.
    - intros df m sp o f _ H. apply (LE_intro df _ m); [reflexivity|]. cbn [x_core]. loc.
    - intros df m f om o e _ H. apply (LE_intro df _ m); [reflexivity|]. cbn [x_core]. loc.
    - intros df m e om o f _ H. apply (LE_intro df _ m); [reflexivity|]. cbn [x_core]. loc.
    - intros df m im kv vv f k v g co _ H. apply (LE_intro df _ m); [reflexivity|]. cbn [x_core]. destruct k; destruct co; loc.
    - intros df m im kv vv c f v g co _ H. apply (LE_intro df _ m); [reflexivity|]. cbn [x_core]. destruct co; loc.
    - intros df m im kv vv c k f g co _ H. apply (LE_intro df _ m); [reflexivity|]. cbn [x_core]. destruct k; destruct co; loc.
    - intros df m im kv vv c k v g cm f _ H. apply (LE_intro df _ m); [reflexivity|]. cbn [x_core cond_enc]. destruct k; loc.
    - intros df f H. exact (here_expr_local sf h df f H).
    - intros l1 f l2 sp _ H. cbn [tpl_enc]. apply local_cats; [apply (quiet_all sf)|exact H].
    - intros sp f s _ H. cbn [elem_enc]. loc.
    - intros sp p f t s el ep et es _ H. cbn [elem_enc]. destruct el; loc.
    - intros sp p c f s el ep et es _ H. cbn [elem_enc]. destruct el; loc.
    - intros sp p c t s lp lt f ls ep et es _ H. cbn [elem_enc else_enc]. loc.
    - intros sp p kv vv f t s ep et es _ H. cbn [elem_enc]. loc.
    - intros sp p kv vv c f s ep et es _ H. cbn [elem_enc]. loc.
  Qed.
  Lemma place_lines :
    (forall f, in_lines h f -> local T (fun x => cats (map (fun s => sdec (s_core sf) NO s >>> wr [10]) (f x)))) /\
    (forall f, in_one h f -> forall df, local T (fun x => sdec (s_core sf) df (f x))).
  Proof.
    apply in_lines_all.
    - intros l1 f l2 _ H. apply (local_cats T (fun s => sdec (s_core sf) NO s >>> wr [10])); [intros; apply quiet_line|].
      apply local_r; [apply quiet_wr|apply H].
    - intros f H. exact (here_lines_local sf h f H).
    - intros m k f H df. unfold sdec. cbn [struct_meta s_core]. apply place_expr in H. unfold LE in H. apply local_deco. unfold x_enc. loc.
    - intros m i ls bm f one om _ H HS df. unfold sdec. cbn [struct_meta s_core]. apply local_deco.
      apply local_l; [apply quiet_did|]. apply local_l; [apply quiet_map, quiet_label|]. apply local_l; [apply quiet_wr|]. apply local_r; [apply quiet_wr|].
      apply local_deco. cbn [same_line] in HS. apply (local_eq T (fun x => wr [10] >>> cats (map (fun s => sdec (s_core sf) NO s >>> wr [10]) (f x)))); [intros x; rewrite HS; reflexivity|]. apply local_l; [apply quiet_wr|exact H].
    - intros m i ls bm am k f om H df. unfold sdec. cbn [struct_meta s_core oneline_ok andb]. apply local_deco.
      apply local_l; [apply quiet_did|]. apply local_l; [apply quiet_map, quiet_label|]. apply local_l; [apply quiet_wr|]. apply local_r; [apply quiet_wr|].
      apply local_deco. unfold sdec. cbn [struct_meta]. apply local_deco. apply place_expr in H. unfold LE in H. unfold x_enc. loc.
    - intros f H df. exact (here_block_local sf h f df H).
  Qed.
End PlaceProofs.

Lemma place_body sf {A} (h : hole A) f : in_lines h f -> forall m one, exists a z, forall x,
  show_body sf (XBody m (f x) one false) = a ++ hole_text sf h x ++ z.
Proof.
  intros H m one. apply (place_lines sf h) in H as (a & z & H). exists (enc_prefix (m_decor m) [] ++ a), (z ++ enc_suffix (m_decor m) []).
  intros x. rewrite body_text, <- lines_eq, H. cbn [fst]. now rewrite <- !app_assoc.
Qed.

(** * C49: edits change the edited text only *)
From Coq Require Import NArith Bool String Ascii List.
From Verif Require Import Res Str NumberModel PrimModel EAst EncModel ParseBase ParseModel ParseProps FmtReadProps LossSpec LossFacts LossProps EditSpec EditProofs.
From Verif Require BodyModel.
Import ListNotations.
Open Scope N_scope.

(** The text of a body is its prefix, the lines of its structures in order, and its suffix.  If the body
    was read from a text without a line end at its end, the last structure has none. *)
Theorem C49_lines : forall show_f64 m l one,
  show_body show_f64 (XBody m l one false) =
  enc_prefix (m_decor m) [] ++ flat_map (fun s => struct_text show_f64 s ++ [10]) l ++ enc_suffix (m_decor m) [].
Proof. exact body_text. Qed.
Print Assumptions C49_lines.
Theorem C49_last_line : forall show_f64 m l s one,
  show_body show_f64 (XBody m (l ++ [s]) one true) =
  enc_prefix (m_decor m) [] ++ flat_map (fun s => struct_text show_f64 s ++ [10]) l ++ struct_text show_f64 s ++ enc_suffix (m_decor m) [].
Proof. exact body_text_omit. Qed.
Print Assumptions C49_last_line.

(** Inserting and removing structures inserts and removes their lines. *)
Theorem C49_insert : forall show_f64 m l one i s l',
  BodyModel.vec_insert i s l = Done l' ->
  exists a z,
    show_body show_f64 (XBody m l one false) = enc_prefix (m_decor m) [] ++ a ++ z /\
    show_body show_f64 (XBody m l' one false) = enc_prefix (m_decor m) [] ++ a ++ line show_f64 s ++ z /\
    a = lines show_f64 (firstn i l).
Proof.
  intros sf m l one i s l' H.
  assert (E : l' = firstn i l ++ s :: skipn i l).
  { revert l l' H. induction i as [|i IH]; intros l l' H; cbn in H; [now injection H as <-|].
    destruct l as [|x l]; [discriminate|]. destruct (BodyModel.vec_insert i s l) eqn:E; try discriminate. injection H as <-. cbn. f_equal. now apply IH. }
  exists (lines sf (firstn i l)), (lines sf (skipn i l) ++ enc_suffix (m_decor m) []).
  rewrite !body_text, E. rewrite <- (firstn_skipn i l) at 1. unfold lines. rewrite !flat_map_app. cbn [flat_map]. now rewrite <- !app_assoc.
Qed.
Print Assumptions C49_insert.
Theorem C49_remove : forall show_f64 m l one i s l',
  BodyModel.vec_remove i l = Done (s, l') ->
  exists a z,
    show_body show_f64 (XBody m l one false) = enc_prefix (m_decor m) [] ++ a ++ line show_f64 s ++ z /\
    show_body show_f64 (XBody m l' one false) = enc_prefix (m_decor m) [] ++ a ++ z /\
    a = lines show_f64 (firstn i l).
Proof.
  intros sf m l one i s l' H.
  assert (E : l = firstn i l ++ s :: skipn i l' /\ firstn i l = firstn i l').
  { revert l l' H. induction i as [|i IH]; intros l l' H; destruct l as [|x l]; cbn in H; try discriminate; [now injection H as <- <-|].
    destruct (BodyModel.vec_remove i l) as [[y l0]|] eqn:E; try discriminate. cbn in H. injection H as -> <-. apply IH in E as (E1 & E2).
    split; [cbn; congruence|cbn; now rewrite E2]. }
  destruct E as (E & E2).
  exists (lines sf (firstn i l)), (lines sf (skipn i l') ++ enc_suffix (m_decor m) []).
  assert (E3 : l' = firstn i l ++ skipn i l') by (rewrite E2; symmetry; apply firstn_skipn).
  assert (L1 : lines sf l = lines sf (firstn i l) ++ line sf s ++ lines sf (skipn i l')) by (rewrite E at 1; unfold lines; now rewrite flat_map_app).
  assert (L2 : lines sf l' = lines sf (firstn i l) ++ lines sf (skipn i l')) by (rewrite E3 at 1; unfold lines; now rewrite flat_map_app).
  rewrite !body_text, L1, L2. now rewrite <- !app_assoc.
Qed.
Print Assumptions C49_remove.

(** At every place in a body the text before and after it does not depend on what is put there. *)
Theorem C49_place : forall show_f64 A (h : hole A) f, in_lines h f -> forall m one,
  exists before after, forall x,
    show_body show_f64 (XBody m (f x) one false) = before ++ hole_text show_f64 h x ++ after.
Proof. intros sf A h f. apply place_body. Qed.
Print Assumptions C49_place.

(** A text which was parsed and edited: everything outside the place is the text which was read.  The
    reasons for which already printing the parsed text would change it are those of C16. *)
Theorem C49_edit_partial : forall u b parse_f64 show_f64 text m one A (h : hole A) f x,
  in_lines h f ->
  parse_body u b parse_f64 text = Parsed (XBody m (f x) one false) -> ~ In 13 text ->
  body_is_faithful show_f64 text (XBody m (f x) one false) ->
  exists before after,
    text = before ++ hole_text show_f64 h x ++ after /\
    forall y, show_body show_f64 (XBody m (f y) one false) = before ++ hole_text show_f64 h y ++ after.
Proof.
  intros u b pf sf text m one A h f x HI HP HN HF. destruct (place_body sf h f HI m one) as (a & z & H).
  exists a, z. split; [|exact H]. rewrite <- H. symmetry. exact (C16_body_partial u b pf sf text _ HP HN HF).
Qed.
Print Assumptions C49_edit_partial.

(** ** Examples *)
(** A document: in a nested block, the value of an attribute is replaced, and a line inserted. *)
Definition doc := txt "# c^a = [1, 2]  // x^^b 'l' {^  c = {^    k = 1  # y^  }^}^".
Definition doc_tree := match parse_body ascii_unicode Release some_f64 doc with Parsed x => x | _ => XBody no_meta [] false false end.
Definition edit_value (v : xexpr) (b : xbody) : xbody :=
  match b with
  | XBody m [s; XBlock bm i ls (XBody nm [XAttr am k (XObj om [XItem ik asg _ t] tr)] o1 o2)] o3 o4 =>
      XBody m [s; XBlock bm i ls (XBody nm [XAttr am k (XObj om [XItem ik asg v t] tr)] o1 o2)] o3 o4
  | b => b
  end.
Definition add_line (n : xstruct) (b : xbody) : xbody :=
  match b with
  | XBody m [s; XBlock bm i ls (XBody nm [x] o1 o2)] o3 o4 => XBody m [s; XBlock bm i ls (XBody nm [x; n] o1 o2)] o3 o4
  | b => b
  end.
Definition new_value := XArr no_meta [XBool no_meta true; XStr no_meta (lit "s")] false REmpty.
Example C49_edited_value :
  show_body no_floats (edit_value new_value doc_tree) = txt "# c^a = [1, 2]  // x^^b 'l' {^  c = {^    k = [true, 's']^  }^}^".
Proof. vm_compute. reflexivity. Qed.
(** (The comment belongs to the replaced value.) *)
Example C49_added_line :
  show_body no_floats (add_line (XAttr no_meta (Did no_meta (lit "d")) new_value) doc_tree) =
  txt "# c^a = [1, 2]  // x^^b 'l' {^  c = {^    k = 1  # y^  }^d = [true, 's']^}^".
Proof. vm_compute. reflexivity. Qed.
(** The document meets the conditions of [C49_edit_partial], with both places. *)
Example C49_document : no_cr doc = true /\ fst (body_faithful no_floats doc doc_tree false) = true.
Proof. split; vm_compute; reflexivity. Qed.
Example C49_places : exists m one A (h : hole A) f x, in_lines h f /\ doc_tree = XBody m (f x) one false /\ hole_text no_floats h x = txt " 1  # y".
Proof.
  let d := eval vm_compute in doc_tree in
  lazymatch d with
  | XBody ?m [?s; XBlock ?bm ?i ?ls (XBody ?nm [XAttr ?am ?k (XObj ?om [XItem ?ik ?asg ?v ?t] ?tr)] false ?o2)] ?o3 _ =>
      exists m, o3, xexpr, (HValue LEADING), (fun w => [s] ++ [XBlock bm i ls (XBody nm [XAttr am k (XObj om [XItem ik asg w t] tr)] false o2)]), v;
      split; [|split; vm_compute; reflexivity];
      apply (in_struct _ [s] (fun w => XBlock bm i ls (XBody nm [XAttr am k (XObj om [XItem ik asg w t] tr)] false o2)) []);
      apply (in_block _ bm i ls nm (fun w => [XAttr am k (XObj om [XItem ik asg w t] tr)]) false o2); [|reflexivity];
      apply (in_struct _ [] (fun w => XAttr am k (XObj om [XItem ik asg w t] tr)) []);
      apply in_attr; apply (in_value _ _ om [] ik asg (fun w => w) t [] tr);
      apply in_here, here_value
  end.
Qed.

(** ** Where edits are not local *)
(** In a quoted template, exchanging the variable [a] for a quoted template changes the text of a
    literal behind it: the escape sequence becomes a line end, which ends the string too early. *)
Definition quoted_doc (v : xexpr) : xbody :=
  XBody no_meta [XAttr no_meta (Did no_meta (lit "k")) (XTpl no_meta [XInterp None v StripNone; XLit None (txt "x^")])] false false.
Theorem C49_quoted_template_refuted :
  show_body no_floats (quoted_doc (XVar no_meta (lit "a"))) = txt "k = '${ a }x\n'^" /\
  show_body no_floats (quoted_doc (XTpl no_meta [XInterp None (XVar no_meta (lit "b")) StripNone])) = txt "k = '${ '${ b }' }x^'^".
Proof. split; vm_compute; reflexivity. Qed.
Print Assumptions C49_quoted_template_refuted.
(** In a heredoc with [<<-] the lines of the new value are indented, too. *)
Definition heredoc_doc (v : xexpr) : xbody :=
  XBody no_meta [XAttr no_meta (Did no_meta (lit "k")) (XHeredoc no_meta (lit "E") (XTempl [XInterp None v StripNone; XLit None (txt "^")] None) (Some 2%nat) (RText (txt "  ")))] false false.
Definition two_lines := XObj no_meta [XItem (XKId (Did no_meta (lit "a"))) AEquals (XNull no_meta) TNewline] REmpty.
Theorem C49_heredoc_refuted :
  value_text no_floats BOTH two_lines = txt " {a = null^} " /\
  show_body no_floats (heredoc_doc two_lines) = txt "k = <<-E^  ${ {a = null^  } }^  E^".
Proof. split; vm_compute; reflexivity. Qed.
Print Assumptions C49_heredoc_refuted.

(** * C22, C23: reuse of a formatter, layout *)
From Coq Require Import NArith ZArith Arith Bool String List Lia.
From Verif Require Import Res Str NumberModel PrimModel DedentModel Ast FmtModel FmtSpec FmtProofs FmtLayout.
From Verif Require EatLeaf.
Import ListNotations.
Open Scope N_scope.

(** ** C22 *)

(** A used formatter prints the text of a fresh one, except that a structure or body may be preceded
    by a blank line: the one which separates it from the last structure of the history.  (The full
    property would leave this out: [C22_body_refuted].) *)
Theorem C22_reuse_partial u sf c hist j : exists st,
  used u sf c hist fresh = Done st /\
  rmap fst (format_string (fm_job u sf c j) st)
  = rmap (app (if separated c hist j then [10] else [])) (format_fresh (fm_job u sf c j)).
Proof. exact (reuse u sf c hist j). Qed.
Print Assumptions C22_reuse_partial.

(** Expressions, values and templates are printed alike. *)
Theorem C22_expressions u sf c hist j :
  structs_of j = [] ->
  exists st s, used u sf c hist fresh = Done st /\
    rmap fst (format_string (fm_job u sf c j) st) = Done s /\ format_fresh (fm_job u sf c j) = Done s.
Proof.
  intros E. destruct (reuse u sf c hist j) as (st & U & R). exists st, (text u sf c j). split; [exact U|].
  rewrite fresh_text in *. split; [|reflexivity]. rewrite R. unfold separated. rewrite E.
  destruct (last _ None); reflexivity.
Qed.
(** In the dense layout bodies are as well. *)
Theorem C22_dense u sf c hist j :
  c_dense c = true ->
  exists st s, used u sf c hist fresh = Done st /\
    rmap fst (format_string (fm_job u sf c j) st) = Done s /\ format_fresh (fm_job u sf c j) = Done s.
Proof.
  intros E. destruct (reuse u sf c hist j) as (st & U & R). exists st, (text u sf c j). split; [exact U|].
  rewrite fresh_text in *. split; [|reflexivity]. rewrite R. unfold separated. rewrite E.
  destruct (last _ None), (structs_of j); reflexivity.
Qed.
Print Assumptions C22_dense.

Definition no_floats (_ : f64) : str := lit "1.5".
Definition one : expr := ENum (PosInt 1%Z).
Example reuse_case :
  let hist := [JBody [SBlk (lit "b") [BLString (lit "x")] [SAttribute (lit "a") (EArr [one; EStr (lit "q")])]]; JExpr (EObj [(KIdent (lit "k"), one)])] in
  separated default_cfg hist (JBody [SAttribute (lit "a") one]) = true /\
  separated default_cfg hist (JExpr one) = false.
Proof. split; reflexivity. Qed.
(** The same body printed twice. *)
Theorem C22_body_refuted :
  let j := JBody [SBlk (lit "b") [] []] in
  exists st, used ascii_unicode no_floats default_cfg [j] fresh = Done st /\
    rmap fst (format_string (fm_job ascii_unicode no_floats default_cfg j) st) = Done ([10] ++ lit "b {}" ++ [10]) /\
    format_fresh (fm_job ascii_unicode no_floats default_cfg j) = Done (lit "b {}" ++ [10]).
Proof. eexists. split; [vm_compute; reflexivity|]. split; vm_compute; reflexivity. Qed.

(** ** C23 *)

(** Configurations which differ in the indent, in compact arrays or in dense give texts equal up to
    whitespace. *)
Theorem C23_whitespace_partial u sf c c' j :
  EatLeaf.ascii_exact u ->
  forallb is_ws (c_indent c) = true -> forallb is_ws (c_indent c') = true ->
  c_objects c = c_objects c' -> c_ident_keys c = c_ident_keys c' ->
  exists s s', format_fresh (fm_job u sf c j) = Done s /\ format_fresh (fm_job u sf c' j) = Done s' /\
    squash is_ws s = squash is_ws s'.
Proof.
  intros HU I I' O K. exists (text u sf c j), (text u sf c' j). rewrite !fresh_text.
  repeat split. apply sq_job; auto.
Qed.
Print Assumptions C23_whitespace_partial.
(** Compact objects have commas in addition. *)
Theorem C23_commas_partial u sf c c' j :
  EatLeaf.ascii_exact u ->
  forallb is_ws (c_indent c) = true -> forallb is_ws (c_indent c') = true ->
  c_ident_keys c = c_ident_keys c' ->
  exists s s', format_fresh (fm_job u sf c j) = Done s /\ format_fresh (fm_job u sf c' j) = Done s' /\
    squash is_ws_comma s = squash is_ws_comma s'.
Proof.
  intros HU I I' K. exists (text u sf c j), (text u sf c' j). rewrite !fresh_text.
  repeat split.
  assert (W : forall s, forallb is_ws s = true -> forallb is_ws_comma s = true).
  { intros s H. rewrite forallb_forall in *. intros x Hx. unfold is_ws_comma. now rewrite (H x Hx). }
  apply sq_job; auto.
Qed.
(** Any two configurations: the quotes of object keys may differ too. *)
Theorem C23_any_configuration_partial u sf c c' j :
  EatLeaf.ascii_exact u ->
  forallb is_ws (c_indent c) = true -> forallb is_ws (c_indent c') = true ->
  exists s s', format_fresh (fm_job u sf c j) = Done s /\ format_fresh (fm_job u sf c' j) = Done s' /\
    squash is_ws_comma_quote s = squash is_ws_comma_quote s'.
Proof.
  intros HU I I'. exists (text u sf c j), (text u sf c' j). rewrite !fresh_text.
  repeat split.
  assert (W : forall s, forallb is_ws s = true -> forallb is_ws_comma_quote s = true).
  { intros s H. rewrite forallb_forall in *. intros x Hx. unfold is_ws_comma_quote, is_ws_comma. now rewrite (H x Hx). }
  apply sq_job; auto.
Qed.
(** The two exceptions are real. *)
Theorem C23_commas_refuted :
  let j := JExpr (EObj [(KIdent (lit "a"), one); (KIdent (lit "b"), one)]) in
  exists s s', format_fresh (fm_job ascii_unicode no_floats default_cfg j) = Done s /\
    format_fresh (fm_job ascii_unicode no_floats (Cfg [32; 32] false false true false) j) = Done s' /\
    squash is_ws s = lit "{a=1b=1}" /\ squash is_ws s' = lit "{a=1,b=1}".
Proof. do 2 eexists. split; [vm_compute; reflexivity|]. split; [vm_compute; reflexivity|]. split; reflexivity. Qed.
Theorem C23_quotes_refuted :
  let j := JExpr (EObj [(KExpr (EStr (lit "a")), one)]) in
  exists s s', format_fresh (fm_job ascii_unicode no_floats default_cfg j) = Done s /\
    format_fresh (fm_job ascii_unicode no_floats (Cfg [32; 32] false false false true) j) = Done s' /\
    squash is_ws s = [123; 34; 97; 34; 61; 49; 125] /\ squash is_ws s' = lit "{a=1}".
Proof. do 2 eexists. split; [vm_compute; reflexivity|]. split; [vm_compute; reflexivity|]. split; reflexivity. Qed.

(** Compact mode prints an expression on one line. *)
Theorem C23_single_line u sf c e :
  EatLeaf.ascii_exact u -> (forall x, ~ In 10 (sf x)) ->
  c_arrays c = true -> c_objects c = true -> unbroken e ->
  exists s, format_fresh (fm_expr u sf c e) = Done s /\ ~ In 10 s.
Proof.
  intros HU HF A O U. exists (show u sf c false 0 e). split; [apply (fresh_text u sf c (JExpr e))|].
  apply show_flat; auto; [now rewrite A|now rewrite O].
Qed.
Print Assumptions C23_single_line.
(** Calls and conditionals are on one line in any configuration. *)
Theorem C23_call_single_line u sf c f args ex :
  EatLeaf.ascii_exact u -> (forall x, ~ In 10 (sf x)) -> unbroken (ECall f args ex) ->
  exists s, format_fresh (fm_expr u sf c (ECall f args ex)) = Done s /\ ~ In 10 s.
Proof.
  intros HU HF U. exists (show u sf c true 0 (ECall f args ex)). split; [exact (fresh_text u sf c (JExpr (ECall f args ex)))|].
  apply show_flat; auto; apply orb_true_r.
Qed.
Theorem C23_conditional_single_line u sf c a b d :
  EatLeaf.ascii_exact u -> (forall x, ~ In 10 (sf x)) -> unbroken (ECond a b d) ->
  exists s, format_fresh (fm_expr u sf c (ECond a b d)) = Done s /\ ~ In 10 s.
Proof.
  intros HU HF U. exists (show u sf c true 0 (ECond a b d)). split; [exact (fresh_text u sf c (JExpr (ECond a b d)))|].
  apply show_flat; auto; apply orb_true_r.
Qed.

(** Nesting adds one indent string to each line: an array is its elements, each on lines of its own
    which are indented once more; likewise for objects. *)
Definition nested (indent s : str) : str := [10] ++ indent ++ reindent indent s.
Theorem C23_array_depth u sf c x l :
  EatLeaf.ascii_exact u -> (forall f, ~ In 10 (sf f)) -> ~ In 10 (c_indent c) ->
  c_arrays c = false -> Forall unbroken (x :: l) ->
  exists t ts, format_fresh (fm_expr u sf c x) = Done t /\
    Forall2 (fun y s => format_fresh (fm_expr u sf c y) = Done s) l ts /\
    format_fresh (fm_expr u sf c (EArr (x :: l)))
    = Done (lit "[" ++ nested (c_indent c) t ++ flat_map (fun s => lit "," ++ nested (c_indent c) s) ts ++ [10] ++ lit "]").
Proof.
  intros HU HF HI A U. exists (show u sf c false 0 x), (map (show u sf c false 0) l).
  split; [apply (fresh_text u sf c (JExpr x))|]. split.
  { clear U. induction l; cbn [map]; constructor; auto. apply (fresh_text u sf c (JExpr a)). }
  pose proof (fresh_text u sf c (JExpr (EArr (x :: l)))) as E. cbn [fm_job] in E. rewrite E. cbn [text show].
  rewrite A. cbn [orb deeper map]. unfold arr_text, seq_text. cbn [map].
  assert (P : pad c 1 = c_indent c) by (unfold pad; cbn; apply app_nil_r).
  assert (D : forall y, unbroken y -> show u sf c false 1 y = reindent (c_indent c) (show u sf c false 0 y)).
  { intros y V. rewrite <- P. now apply (show_depth u sf c HU HF HI y false 1 0). }
  inversion U as [|? ? U1 U2]; subst. f_equal. f_equal. unfold nested, newline. rewrite P, (D x U1).
  change (pad c 0) with (@nil N). cbn [app]. rewrite <- !app_assoc. cbn [app]. do 4 f_equal.
  rewrite flat_map_map, flat_map_map. rewrite Forall_forall in U2.
  rewrite !flat_map_concat_map. apply (f_equal (@concat N)), map_ext_in. intros y Hy. now rewrite (D y (U2 y Hy)).
Qed.
Print Assumptions C23_array_depth.
Theorem C23_object_depth u sf c k x l :
  EatLeaf.ascii_exact u -> (forall f, ~ In 10 (sf f)) -> ~ In 10 (c_indent c) ->
  c_objects c = false -> Forall unbroken (x :: map snd l) ->
  exists t ts, format_fresh (fm_expr u sf c x) = Done t /\
    Forall2 (fun y s => format_fresh (fm_expr u sf c (snd y)) = Done (snd s) /\ fst y = fst s) l ts /\
    format_fresh (fm_expr u sf c (EObj (map (fun p => (KIdent (fst p), snd p)) ((k, x) :: l))))
    = Done (lit "{" ++ [10] ++ c_indent c ++ k ++ lit " = " ++ reindent (c_indent c) t ++
            flat_map (fun p => [10] ++ c_indent c ++ fst p ++ lit " = " ++ reindent (c_indent c) (snd p)) ts ++
            [10] ++ lit "}").
Proof.
  intros HU HF HI A U. exists (show u sf c false 0 x), (map (fun p => (fst p, show u sf c false 0 (snd p))) l).
  split; [apply (fresh_text u sf c (JExpr x))|]. split.
  { clear U. induction l; cbn [map]; constructor; auto. split; [apply (fresh_text u sf c (JExpr (snd a)))|reflexivity]. }
  match goal with |- format_fresh (fm_expr _ _ _ ?e) = _ => pose proof (fresh_text u sf c (JExpr e)) as E end.
  cbn [fm_job] in E. rewrite E. cbn [text show].
  rewrite A. cbn [orb deeper map]. unfold obj_text, seq_text. cbn [map fst snd].
  assert (P : pad c 1 = c_indent c) by (unfold pad; cbn; apply app_nil_r).
  assert (D : forall y, unbroken y -> show u sf c false 1 y = reindent (c_indent c) (show u sf c false 0 y)).
  { intros y V. rewrite <- P. now apply (show_depth u sf c HU HF HI y false 1 0). }
  inversion U as [|? ? U1 U2]; subst. f_equal. f_equal. unfold newline. rewrite P, (D x U1).
  change (pad c 0) with (@nil N). cbn [app]. rewrite <- !app_assoc. cbn [app]. do 4 f_equal.
  ap; [reflexivity|]. ap; [|reflexivity].
  rewrite !map_map, !flat_map_map. rewrite Forall_forall in U2.
  rewrite !flat_map_concat_map. apply (f_equal (@concat N)), map_ext_in. intros y Hy. cbn [fst snd].
  rewrite (D (snd y)); [reflexivity|]. apply U2. now apply in_map.
Qed.
(** A nested empty block is printed with its indentation inside the braces. *)
Theorem C23_empty_block_refuted :
  format_fresh (fm_body ascii_unicode no_floats default_cfg [SBlk (lit "a") [] [SBlk (lit "b") [] []]])
  = Done (lit "a {" ++ [10] ++ lit "  b {  }" ++ [10] ++ lit "}" ++ [10]).
Proof. vm_compute. reflexivity. Qed.

Example unbroken_case :
  unbroken (EArr [EObj [(KIdent (lit "k"), ECall (FuncName [lit "ns"] (lit "f")) [EStr [10]; EArr [one]] true)]]).
Proof. unfold unbroken. cbn. repeat constructor; cbn; intuition discriminate. Qed.
Example unbroken_text :
  format_fresh (fm_expr ascii_unicode no_floats default_cfg
    (EArr [EObj [(KIdent (lit "k"), ECall (FuncName [lit "ns"] (lit "f")) [EStr [10]; EArr [one]] true)]]))
  = Done (lit "[" ++ [10] ++ lit "  {" ++ [10] ++ lit "    k = ns::f(" ++ [34; 92; 110; 34] ++ lit ", [1]...)" ++ [10] ++
          lit "  }" ++ [10] ++ lit "]").
Proof. vm_compute. reflexivity. Qed.

(** * C57: arrays, arguments of calls and templates are edited like lists *)
From Coq Require Import NArith ZArith Arith Bool String List Lia.
From Verif Require Import Res Str NumberModel PrimModel PrimProofs EAst EncModel EqSpec EatLeaf ParseBase ParseModel BackSpec BackProps SeqModel SeqSpec SeqProofs.
Import ListNotations.
Open Scope nat_scope.

(** For every sequence of calls: if no call is out of bounds then the elements and what is returned are
    those of the specification ([history], SeqSpec.v), which leaves no choice; otherwise the program
    panics, at the first call that is out of bounds. *)
Theorem C57_history A (s : seq A) os :
  match run s os with
  | Done (s', rs) => history os (items s) (items s') rs
  | Panic => exists os1 o os2 l rs, os = os1 ++ o :: os2 /\ history os1 (items s) l rs /\ out_of_bounds o l
  end.
Proof. exact (run_history os s). Qed.
Print Assumptions C57_history.
Theorem C57_one_history A (os : list (op A)) l l1 r1 l2 r2 : history os l l1 r1 -> history os l l2 r2 -> l1 = l2 /\ r1 = r2.
Proof. exact (history_det os l l1 r1 l2 r2). Qed.
Print Assumptions C57_one_history.
Theorem C57_panics A (s : seq A) os :
  run s os = Panic <-> exists os1 o os2 l rs, os = os1 ++ o :: os2 /\ history os1 (items s) l rs /\ out_of_bounds o l.
Proof.
  split.
  - intros E. assert (H := run_history os s). now rewrite E in H.
  - intros (os1 & o & os2 & l & rs & -> & H & O). destruct s as [l0 t c e]. destruct (run_complete _ _ _ _ t c e H) as (s' & E & <-). eapply run_app; [exact E|]. cbn [run]. destruct s'. now rewrite out_panics.
Qed.
Print Assumptions C57_panics.

(** Calls about elements leave the settings alone, calls about one setting the others. *)
Theorem C57_settings A (s s' : seq A) os rs : run s os = Done (s', rs) ->
  trailing s' = latest (fun o => match o with OTrailing r => Some r | _ => None end) os (trailing s) /\
  comma s' = latest (fun o => match o with OComma y => Some y | _ => None end) os (comma s) /\
  expand s' = latest (fun o => match o with OExpand y => Some y | _ => None end) os (expand s).
Proof. exact (run_settings os s s' rs). Qed.
Print Assumptions C57_settings.

(** Reading: [get] finds the elements in order, [len] counts them; a collected list has no settings; a
    template is a single element if it is nothing else. *)
Theorem C57_get A (s : seq A) i x : get s i = Some x <-> exists a b, items s = a ++ x :: b /\ List.length a = i.
Proof.
  unfold get. split.
  - apply nth_error_split.
  - intros (a & b & -> & <-). rewrite nth_error_app2, Nat.sub_diag by lia. reflexivity.
Qed.
Print Assumptions C57_get.
Theorem C57_len A (s : seq A) : (forall i, i < len s <-> exists x, get s i = Some x) /\ (is_empty s = true <-> len s = 0).
Proof.
  split.
  - intros i. unfold len, get. rewrite <- nth_error_Some. destruct (nth_error (items s) i) as [x|]; split; intros H; [now exists x|discriminate|congruence|]. destruct H; discriminate.
  - unfold is_empty, len. destruct (items s); cbn; split; auto; discriminate.
Qed.
Print Assumptions C57_len.
Theorem C57_collect A (l : list A) : from_iter l = of_vec l /\ items (of_vec l) = l /\ trailing (of_vec l) = REmpty /\ comma (of_vec l) = false /\ expand (of_vec l) = false.
Proof. split; [|repeat split]. unfold from_iter. rewrite push_all. reflexivity. Qed.
Print Assumptions C57_collect.
Theorem C57_single A (s : seq A) x : as_single_element s = Some x <-> items s = [x].
Proof.
  unfold as_single_element, len, get. destruct (items s) as [|a [|c l]]; cbn; split; intros H; try discriminate; injection H as H; now rewrite H.
Qed.
Print Assumptions C57_single.

(** The text after every sequence of calls that does not panic: it is read as an array with the elements
    of the specification, if those at the start and all that are put in are read back themselves
    ([elem]), and the texts before the closing bracket are white space and comments.  Commas, brackets and
    comments of the elements before and behind an inserted or removed one cannot get in the way. *)
Theorem C57_array_text_partial u b pf sf m s os s' rs : ascii_exact u -> snug m ->
  good (elem u b pf sf false) raw_gap s -> Forall (puts (elem u b pf sf false) raw_gap) os -> run s os = Done (s', rs) ->
  exists l m' l' c t, history os (items s) l rs /\
    parse_expr u b pf (show_expr sf (array_of m s')) = Parsed (XArr m' l' c t) /\ map bare l' = map bare l.
Proof.
  intros HU Hm G F E. assert (H := run_history os s). rewrite E in H. assert (G' := run_good _ _ _ _ _ _ G F E).
  destruct (array_read u b pf sf m s' HU Hm G') as (m' & l & c & t & P & B). exists (items s'), m', l, c, t. auto.
Qed.
Print Assumptions C57_array_text_partial.
(** The same for the arguments of a call.  The dots after the last one are read again. *)
Theorem C57_call_text_partial u b pf sf m ns n am s os s' rs : ascii_exact u -> snug m -> callee u ns n am ->
  good (elem u b pf sf false) raw_gap s -> Forall (puts (elem u b pf sf false) raw_gap) os -> run s os = Done (s', rs) ->
  exists l m' ns' n' am' l' ex co t, history os (items s) l rs /\
    parse_expr u b pf (show_expr sf (call_of m ns n am s')) = Parsed (XCall m' ns' n' am' l' ex co t) /\
    map i_name (ns' ++ [n']) = map i_name (ns ++ [n]) /\ map bare l' = map bare l /\
    (l <> [] -> ex = latest (fun o => match o with OExpand y => Some y | _ => None end) os (expand s)).
Proof.
  intros HU Hm HC G F E. assert (H := run_history os s). rewrite E in H. assert (G' := run_good _ _ _ _ _ _ G F E).
  destruct (call_read u b pf sf m ns n am s' HU Hm HC G') as (m' & ns' & n' & am' & l & ex & co & t & P & N & B & X). exists (items s'), m', ns', n', am', l, ex, co, t.
  repeat (split; [assumption|]). intros NE. apply run_settings in E as (_ & _ & E). rewrite X, E. destruct (items s'); congruence.
Qed.
Print Assumptions C57_call_text_partial.
(** And for templates: literals which end up one after the other are read as one. *)
Theorem C57_template_text_partial u b pf sf s os s' rs : ascii_exact u -> run s os = Done (s', rs) ->
  good (elem_ok u b pf sf false) (fun _ => True) s -> Forall (puts (elem_ok u b pf sf false) (fun _ => True)) os ->
  lits (fun s _ => no_adjacent_marks s = true) 0 (joined (items s')) -> seams (items s') ->
  exists l t, history os (items s) l rs /\
    parse_template u b pf (show_tpl sf (XTempl (items s') None)) = Parsed t /\ bare_tpl t = bare_tpl (XTempl (joined l) None).
Proof.
  intros HU E G F L S. assert (H := run_history os s). rewrite E in H. destruct (run_good _ _ _ _ _ _ G F E) as [G' _].
  assert (O : lall (elem_ok u b pf sf false) (items s')) by (clear - G'; induction G'; cbn [lall]; auto).
  destruct (template_read u b pf sf (items s') None HU O L S) as (t & P & B). exists (items s'), t. auto.
Qed.
Print Assumptions C57_template_text_partial.

(** ** Examples *)
Definition v (s : string) : xexpr := XVar no_meta (lit s).
Definition commented : xexpr := XVar (Meta (Decor (Some (RText (lit " /* the first */ "))) (Some (RText (lit " # no comma" ++ [10%N])))) None) (lit "a").
Definition start : seq xexpr := Seq [commented; v "b"] (RText (lit " // end" ++ [10%N])) false false.
Definition calls : list (op xexpr) :=
  [OInsert 1 (v "c"); OPush one; OPop; ORemove 0; OGetMut 1 (XArr no_meta [v "d"] false REmpty); OGetMut 7 (v "x"); OExtend [commented; v "e"];
   OIterMut (fun e => XParen no_meta e); OExpand true; OComma true; OPop].
Definition after : seq xexpr := match run start calls with Done (s, _) => s | Panic => new end.
Example calls_run :
  run start calls = Done (after, [None; None; Some one; Some commented; Some (v "b"); None; None; None; None; None; Some (XParen no_meta (v "e"))]) /\
  items after = map (XParen no_meta) [v "c"; XArr no_meta [v "d"] false REmpty; commented] /\ comma after = true /\ expand after = true.
Proof. vm_compute. auto. Qed.
Example calls_ok : good (elem ascii_unicode Release zero_float no_floats false) raw_gap start /\
  Forall (puts (elem ascii_unicode Release zero_float no_floats false) raw_gap) (firstn 7 calls ++ skipn 8 calls).
Proof.
  split.
  - split; [|split; vm_compute; auto]. unfold start. cbn [items]. repeat constructor; unfold variable; auto_ok.
  - cbn [firstn skipn calls app]. repeat constructor; cbn; unfold elem, elem_in, sub; cbn; unfold variable, elem_in, tidy, raw_gap, clean, closing, num_ok, number_text; auto_ok.
Qed.
Example snug_meta : snug no_meta /\ callee ascii_unicode [] (Did no_meta (lit "f")) no_meta.
Proof. unfold snug, callee. cbn. unfold tidy, snug. auto_ok. Qed.
Definition texts (s : seq xexpr) : str * str := (show_expr no_floats (array_of no_meta s), show_expr no_floats (call_of no_meta [] (Did no_meta (lit "f")) no_meta s)).
Example calls_text : texts after = (lit "[(c), ([d]), ( /* the first */ a # no comma" ++ [10%N] ++ lit "), // end" ++ [10%N] ++ lit "]",
  lit "f((c), ([d]), ( /* the first */ a # no comma" ++ [10%N] ++ lit ")... // end" ++ [10%N] ++ lit ")")%list.
Proof. vm_compute. reflexivity. Qed.
Example calls_panic : run start [OPop; OInsert 2 one] = Panic /\ run start [ORemove 2] = Panic /\ run start [OInsert 2 one] <> Panic.
Proof. vm_compute. repeat split; discriminate. Qed.
(** The comment moves into the last element if there is no comma. *)
Example moved : reread_expr (array_of no_meta start) = Some (bare (XArr no_meta [commented; v "b"] false REmpty)).
Proof. vm_compute. reflexivity. Qed.

Definition tpl_start : seq xelem := of_vec [txt "a "; XInterp None (v "x") StripNone; txt "$"].
Definition tpl_calls : list (op xelem) := [ORemove 1; OInsert 1 (txt "${"); OPush (txt ""); OExtend [XInterp None (v "y") StripBoth; txt "b"; txt "c"]; ORemove 2].
Definition tpl_after : seq xelem := match run tpl_start tpl_calls with Done (s, _) => s | Panic => new end.
Example tpl_calls_ok : good (elem_ok ascii_unicode Release zero_float no_floats false) (fun _ => True) tpl_start /\
  Forall (puts (elem_ok ascii_unicode Release zero_float no_floats false) (fun _ => True)) tpl_calls /\
  lits (fun s _ => no_adjacent_marks s = true) 0 (joined (items tpl_after)) /\ seams (items tpl_after) /\
  joined (items tpl_after) = [XLit None (lit "a ${"); XInterp None (v "y") StripBoth; XLit None (lit "bc")].
Proof.
  split; [|split; [|vm_compute; repeat split; try discriminate; intros [F|F]; discriminate]].
  - split; [|exact I]. cbn. repeat constructor; cbn; unfold variable; auto_ok.
  - repeat constructor; cbn; unfold variable; auto_ok.
Qed.

(** ** What is not read back *)
(** A template whose literals are pushed one by one need not be read back: the escapes are added
    literal by literal. *)
Definition pushed (l : list string) : seq xelem := from_iter (map txt l).
Theorem C57_pushed_literals_refuted : exists t, parse_template ascii_unicode Release zero_float (show_tpl no_floats (XTempl (items (pushed ["$"; "{x}"]%string)) None)) = Parsed t /\ bare_tpl t = XTempl [XInterp None (v "x") StripNone] None.
Proof. eexists. split; vm_compute; reflexivity. Qed.
Print Assumptions C57_pushed_literals_refuted.
(** A call without arguments forgets that its last argument is to be expanded, and [==] does not see it. *)
Theorem C57_expand_without_arguments_refuted :
  exists s : seq xexpr, expand s = true /\ exists e, parse_expr ascii_unicode Release zero_float (snd (texts s)) = Parsed e /\
    match e with XCall _ _ _ _ _ ex _ _ => ex = false | _ => False end.
Proof. exists (Seq [] REmpty false true). split; [reflexivity|]. eexists. split; vm_compute; reflexivity. Qed.
Print Assumptions C57_expand_without_arguments_refuted.

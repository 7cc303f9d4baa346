(** * C58: documents which are built and edited through the API of bodies are read back *)
From Coq Require Import NArith ZArith Arith Bool String List Lia.
From Verif Require Import Res Str NumberModel PrimModel EAst EncModel EqSpec EqProofs EqProps EatLeaf ParseBase ParseModel BackSpec BackBodySpec BackBody BackProps AgainSpec AgainBody BodyModel BodyProofs BodyProps BodyTextSpec.
From Verif Require MapModel.
Import ListNotations.
Open Scope nat_scope.

Section Proofs.
  Context (u : unicode) (b : build) (pf : str -> f64) (sf : f64 -> str).
  Notation fine := (fine u b pf sf).
  Lemma step_fine bd o bd' r : Forall fine bd -> puts_fine u b pf sf o -> step_spec bd o bd' r -> Forall fine bd'.
  Proof.
    intros G P S. assert (AD : forall i s x y, added_at i bd s x y -> fine s -> Forall fine x).
    { intros i s x y [pre post -> _ _|a _ _] Hs; [|exact G]. rewrite Forall_app, Forall_cons_iff in *. tauto. }
    destruct S; cbn [puts_fine] in P; subst; rewrite ?Forall_app, ?Forall_cons_iff in *; try (eapply AD; eassumption); try tauto; try (now constructor).
    - clear AD P. induction H; auto; rewrite ?Forall_cons_iff in *; tauto.
    - clear AD. induction H as [bd|bd s l b' _ _ IH|bd s l b' _ _ IH]; [exact G| |]; apply Forall_cons_iff in P as [P1 P2]; apply IH; auto. apply Forall_app. auto.
    - clear AD. destruct P as [P1 P2]. induction H as [|s s' l l' H _ IH]; [constructor|]. rewrite Forall_cons_iff in *. split; [|tauto]. destruct s as [[k v]|k]; subst s'; [apply P1|apply P2]; tauto.
  Qed.
  Lemma run_fine ops : forall bd bd' rs, Forall fine bd -> Forall (puts_fine u b pf sf) ops -> run ops bd = Done (bd', rs) -> Forall fine bd'.
  Proof.
    induction ops as [|o ops IH]; intros bd bd' rs G P E; cbn [run] in E; [now injection E as <- _|]. apply Forall_cons_iff in P as [P1 P2]. assert (S := C09_step_refines o bd). destruct (step o bd) as [[b1 r]|]; [|discriminate]. cbn [rbind] in E.
    destruct (run ops b1) as [[b2 r2]|] eqn:R; [|discriminate]. cbn in E. injection E as <- _. destruct S as [S _]. eapply IH; [|exact P2|exact R]. eapply step_fine; eassumption.
  Qed.
  Lemma fine_list bd : Forall fine bd -> exists l, bd = map view l /\ lall (struct_ok u b pf sf) l.
  Proof.
    induction 1 as [|s bd (x & -> & Hx) _ (l & -> & Hl)]; [now exists []|]. exists (x :: l). split; [reflexivity|now split].
  Qed.
  Lemma list_fine l : lall (struct_ok u b pf sf) l -> Forall fine (map view l).
  Proof. induction l as [|x l IH]; cbn [map lall]; [constructor|]. intros [H1 H2]. constructor; [now exists x|auto]. Qed.
  Lemma view_keys l : keys (map view l) = attr_names l.
  Proof. induction l as [|[] l IH]; [reflexivity| |exact IH]. cbn [map view]. rewrite keys_cons, IH. reflexivity. Qed.
End Proofs.

(** Every history of calls on a body (BodyModel.v: push, insert, remove, extend, writing values and
    blocks, …) whose structures are read back themselves (C46), and which puts in such structures only: the
    structures at the end are those of the specification of C09, and printing the body at the end and
    parsing the text gives these structures again.  The layout of a body on lines of its own is meant; [m]
    is its decor, and [omit] its preference to omit the last line break. *)
Theorem C58_texts_partial u b pf sf m l omit ops bd rs : ascii_exact u ->
  body_ok u b pf sf (XBody m l false omit) -> Forall (puts_fine u b pf sf) ops -> run ops (map view l) = Done (bd, rs) ->
  exists l', bd = map view l' /\ run_spec (map view l) ops (map view l') rs /\
    exists m2 l2 one2 omit2, parse_body u b pf (show_body sf (XBody m l' false omit)) = Parsed (XBody m2 l2 one2 omit2) /\
      map bare_struct l2 = map bare_struct l'.
Proof.
  intros HU (_ & O1 & O2 & O3 & O4 & O5) P E. assert (F := run_fine _ _ _ _ _ _ _ _ (list_fine u b pf sf l O3) P E). destruct (fine_list _ _ _ _ _ F) as (l' & -> & L). exists l'. split; [reflexivity|]. split; [now apply C09_history_refines|].
  assert (N : NoDup (attr_names l')).
  { rewrite <- view_keys. apply unique_keys_NoDup. eapply (C08_unique_keys_preserved ops (map view l)); [|apply unique_keys_NoDup; now rewrite view_keys|exact E].
    apply forallb_forall. intros o Ho. rewrite Forall_forall in P. specialize (P o Ho). now destruct o. }
  assert (R : forall om, (om = true -> l' <> [] /\ suf NO m = []) -> exists m2 l2 one2 omit2, parse_body u b pf (show_body sf (XBody m l' false om)) = Parsed (XBody m2 l2 one2 omit2) /\ map bare_struct l2 = map bare_struct l').
  { intros om Hom. destruct (C46_bodies_partial u b pf sf (XBody m l' false om) HU) as ([m2 l2 o2 om2] & E2 & B2); [split; [reflexivity|]; repeat (split; [assumption|]); assumption|]. exists m2, l2, o2, om2. split; [exact E2|]. now injection B2 as B2 _ _. }
  destruct l' as [|x l']; [|apply R; intros Ho; split; [discriminate|now apply O5]].
  assert (X : show_body sf (XBody m [] false omit) = show_body sf (XBody m [] false false)) by reflexivity. rewrite X. apply R. discriminate.
Qed.
Print Assumptions C58_texts_partial.

(** In particular for bodies which are built from nothing, and for parsed documents ([body_regular],
    AgainSpec.v). *)
Theorem C58_built_partial u b pf sf ops bd rs : ascii_exact u ->
  Forall (puts_fine u b pf sf) ops -> run ops [] = Done (bd, rs) ->
  exists l, bd = map view l /\ run_spec [] ops (map view l) rs /\
    exists m2 l2 one2 omit2, parse_body u b pf (show_body sf (XBody no_meta l false false)) = Parsed (XBody m2 l2 one2 omit2) /\
      map bare_struct l2 = map bare_struct l.
Proof.
  intros HU P E. apply (C58_texts_partial u b pf sf no_meta [] false ops bd rs HU); auto. cbn. repeat split; try discriminate. constructor.
Qed.
Print Assumptions C58_built_partial.
Theorem C58_parsed_partial u b pf sf s m l omit ops bd rs : ascii_exact u ->
  parse_body u b pf s = Parsed (XBody m l false omit) -> body_regular u sf (XBody m l false omit) ->
  Forall (puts_fine u b pf sf) ops -> run ops (map view l) = Done (bd, rs) ->
  exists l', bd = map view l' /\ run_spec (map view l) ops (map view l') rs /\
    exists m2 l2 one2 omit2, parse_body u b pf (show_body sf (XBody m l' false omit)) = Parsed (XBody m2 l2 one2 omit2) /\
      map bare_struct l2 = map bare_struct l'.
Proof. intros HU E R. apply C58_texts_partial; [exact HU|]. exact (parsed_body_ok u b pf sf s _ HU E R). Qed.
Print Assumptions C58_parsed_partial.
(** The view loses nothing, so that [map view l'] determines the structures. *)
Theorem C58_view x y : view x = view y <-> x = y.
Proof.
  split; [|now intros ->]. destruct x as [m [im n] v|m [im n] ls bd], y as [m' [im' n'] v'|m' [im' n'] ls' bd']; cbn; intros H; try discriminate; [injection H as -> -> -> ->|injection H as -> _ -> -> -> ->]; reflexivity.
Qed.
Print Assumptions C58_view.

(** ** Objects *)
Section Objects.
  Context (u : unicode) (b : build) (pf : str -> f64) (sf : f64 -> str).
  Notation fine_entry := (fine_entry u b pf sf).
  Notation fine_key := (fine_key u b pf sf).
  Notation fine_value := (fine_value u b pf sf).
  Definition apart_keys : list xkey -> Prop := ForallOrdPairs (fun a b => key_eqb a b = false).
  Definition entries_ok (m : MapModel.vmap xkey value) : Prop := Forall fine_entry m /\ apart_keys (map fst m).
  Lemma key_sym x y : key_wf x -> key_wf y -> key_eqb x y = key_eqb y x.
  Proof. intros. apply (proj1 (proj2 (EQ_equiv key_wf key_eqb (proj1 (proj2 (proj2 (proj2 all_EQ))))))); assumption. Qed.
  Lemma insert_keys (P : xkey -> Prop) k (v : value) (m : MapModel.vmap xkey value) : P k -> Forall P (map fst m) -> Forall P (map fst (fst (MapModel.insert key_eqb k v m))).
  Proof.
    intros Hk. induction m as [|[k' v'] m IH]; cbn [MapModel.insert map fst]; intros H; [now constructor|]. destruct (key_eqb k k'); [exact H|]. destruct (MapModel.insert key_eqb k v m) as [m' o]. cbn [map fst] in *. apply Forall_cons_iff in H as [H1 H2]. constructor; auto.
  Qed.
  Lemma insert_ok k v m : fine_key k -> fine_value v -> entries_ok m -> entries_ok (fst (MapModel.insert key_eqb k v m)).
  Proof.
    intros Hk Hv. induction m as [|[k' v'] m IH]; intros [H1 H2].
    - split; [constructor; [split; assumption|constructor]|]. constructor; constructor.
    - apply Forall_cons_iff in H1 as [[Hk' Hv'] H1]. cbn [map fst] in H2. inversion H2 as [|? ? H3 H4]; subst. cbn [MapModel.insert]. destruct (key_eqb k k') eqn:E.
      + split; [constructor; [split; [exact Hk'|exact Hv]|exact H1]|exact H2].
      + assert (I := insert_keys (fun j => key_eqb k' j = false) k v m). destruct (IH (conj H1 H4)) as [G1 G2]. destruct (MapModel.insert key_eqb k v m) as [m' o]. cbn [fst] in *. split; [constructor; [split; assumption|exact G1]|].
        cbn [map fst]. constructor; [|exact G2]. apply I; [|exact H3]. rewrite key_sym; [exact E|apply Hk'|apply Hk].
  Qed.
  Lemma remove_ok k (m : MapModel.vmap xkey value) : entries_ok m -> entries_ok (fst (MapModel.remove_entry key_eqb k m)) /\ forall P : xkey -> Prop, Forall P (map fst m) -> Forall P (map fst (fst (MapModel.remove_entry key_eqb k m))).
  Proof.
    induction m as [|[k' v'] m IH]; intros [H1 H2]; [now split|]. apply Forall_cons_iff in H1 as [Hf H1]. cbn [map fst] in H2. inversion H2 as [|? ? H3 H4]; subst. cbn [MapModel.remove_entry]. destruct (key_eqb k k').
    - split; [now split|]. intros P HP. now apply Forall_cons_iff in HP.
    - destruct (IH (conj H1 H4)) as [[G1 G2] G3]. destruct (MapModel.remove_entry key_eqb k m) as [m' o]. cbn [fst] in *. split.
      + split; [now constructor|]. cbn [map fst]. constructor; auto.
      + intros P HP. cbn [map fst] in *. apply Forall_cons_iff in HP as [P1 P2]. constructor; auto.
  Qed.
  Lemma update_ok k f m : (forall v, fine_value v -> fine_value (f v)) -> Forall fine_entry m -> Forall fine_entry (MapModel.update key_eqb k f m) /\ map fst (MapModel.update key_eqb k f m) = map fst m.
  Proof.
    intros Hf. induction 1 as [|[k' v'] m [H1 H2] H IH]; cbn [MapModel.update map]; [split; [constructor|reflexivity]|]. destruct IH as [I1 I2]. destruct (key_eqb k k'); cbn [map fst]; (split; [constructor; auto; split; cbn [fst snd] in *; auto|]); auto. now rewrite I2.
  Qed.
  Lemma mstep_ok o m : puts_entries u b pf sf o -> entries_ok m -> entries_ok (fst (MapModel.mstep key_eqb o m)).
  Proof.
    destruct o as [k v|k|k| |l|k f|f]; cbn [puts_entries MapModel.mstep]; intros P H.
    - assert (I := insert_ok k v m (proj1 P) (proj2 P) H). now destruct (MapModel.insert key_eqb k v m).
    - unfold MapModel.remove. assert (I := proj1 (remove_ok k m H)). now destruct (MapModel.remove_entry key_eqb k m).
    - assert (I := proj1 (remove_ok k m H)). now destruct (MapModel.remove_entry key_eqb k m).
    - split; constructor.
    - cbn [fst]. unfold MapModel.extend. revert m H. induction P as [|[k v] l [P1 P2] _ IH]; intros m H; cbn [fold_left]; [exact H|]. apply IH. now apply insert_ok.
    - destruct H as [H1 H2]. destruct (update_ok k f m P H1) as [G1 G2]. split; [exact G1|]. cbn [fst]. unfold apart_keys in *. now rewrite G2.
    - destruct H as [H1 H2]. cbn [fst]. unfold MapModel.update_all. split.
      + clear H2. induction H1 as [|[k v] m [E1 E2] _ IH]; cbn [map]; constructor; auto. split; cbn [fst snd] in *; auto.
      + unfold apart_keys in *. rewrite map_map. cbn [fst]. exact H2.
  Qed.
  Lemma mrun_ok ops : forall m, Forall (puts_entries u b pf sf) ops -> entries_ok m -> entries_ok (fst (MapModel.mrun key_eqb ops m)).
  Proof.
    induction ops as [|o ops IH]; intros m P H; cbn [MapModel.mrun]; [exact H|]. apply Forall_cons_iff in P as [P1 P2]. assert (S := mstep_ok o m P1 H). destruct (MapModel.mstep key_eqb o m) as [m1 r]. specialize (IH m1 P2 S). now destruct (MapModel.mrun key_eqb ops m1).
  Qed.
  Lemma entries_object md m t : entries_ok m -> raw_gap t -> ok u b pf sf false false false (XObj md (map item m) t).
  Proof.
    intros [H1 H2] Ht. cbn [ok]. split; [|split; [|split; [exact Ht|]]].
    - clear H2. induction H1 as [|[k [[a v] tm]] m [(K1 & _ & _) (V1 & V2 & V3)] _ IH]; cbn [map lall]; [exact I|]. split; [|exact IH]. cbn [item item_ok fst snd] in *. split; [exact K1|]. split; [exact V1|]. split; [exact V2|]. destruct tm; [exact V3|exact V3|contradiction] || (destruct tm; tauto).
    - clear H1. induction m as [|[k [[a v] tm]] m IH]; cbn [map distinct_keys]; [exact I|]. cbn [map fst] in H2. inversion H2 as [|? ? H3 H4]; subst. split; [|now apply IH]. clear - H3. induction m as [|[k' [[a' v'] tm']] m IH]; cbn [map lall]; [exact I|]. cbn [map fst] in H3. apply Forall_cons_iff in H3 as [H5 H6]. split; [exact H5|now apply IH].
    - clear H2. induction H1 as [|[k [[a v] tm]] m [_ (_ & _ & V3)] H1 IH]; [exact I|]. destruct m as [|[k2 [[a2 v2] tm2]] m].
      + cbn. intros ->. contradiction.
      + apply Forall_cons_iff in H1 as [[(_ & _ & S) _] _]. cbn [map item seps fst] in *. split; [intros ->; contradiction|]. split; [intros _ _; exact S|exact IH].
  Qed.
End Objects.
(** Histories of calls on an object (MapModel.v, with the keys of hcl-edit and their [==]): the text of
    the object at the end is read as an object with the entries it has then, in their order.  Its entries
    at the start and those that are put in satisfy the conditions of C46 ([fine_entry]). *)
Theorem C58_objects_partial u b pf sf md m t ops : ascii_exact u -> snug md ->
  Forall (fine_entry u b pf sf) m -> ForallOrdPairs (fun x y => key_eqb (fst x) (fst y) = false) m -> raw_gap t ->
  Forall (puts_entries u b pf sf) ops ->
  let l := map item (fst (MapModel.mrun key_eqb ops m)) in
  exists md' l' t', parse_expr u b pf (show_expr sf (XObj md l t)) = Parsed (XObj md' l' t') /\ map bare_item l' = map bare_item l.
Proof.
  intros HU Hm F D Ht P l. assert (H : entries_ok u b pf sf m).
  { split; [exact F|]. clear - D. induction D as [|e m H _ IH]; cbn [map]; constructor; auto. apply Forall_map. exact H. }
  assert (O := entries_object u b pf sf md _ t (mrun_ok u b pf sf ops m P H) Ht). fold l in O.
  destruct (C46_expressions_partial u b pf sf (XObj md l t) HU O Hm) as (e' & E & B). destruct e'; try discriminate. cbn [bare] in B. injection B as B _. eexists _, _, _. split; [exact E|exact B].
Qed.
Print Assumptions C58_objects_partial.

(** ** Examples *)
Definition x_region : xstruct := XAttr (dec "# network
" " // here") (Did (dec "" " ") (lit "region")) (XStr (dec " " "") (lit "eu")).
Definition x_count (e : xexpr) : xstruct := XAttr no_meta (Did (dec "" " ") (lit "count")) e.
Definition x_block (l : list xstruct) : xstruct :=
  XBlock no_meta (Did (dec "" " ") (lit "resource")) [XLStr (dec "" " ") (lit "a b"); XLId (Did (dec "" " ") (lit "web"))] (XBody no_meta l false false).
Definition x_value (e : xexpr) : payload := PAttr no_meta (dec "" " ") e.
Definition sample_calls : list (op payload) :=
  [OPush (view (x_count (XVar (dec " " "") (lit "n")))); OInsert 0 (view x_region); OTryPush (view (x_count (XNull no_meta)));
   OExtend [view (x_block [x_region]); view x_region; view (x_block [])]; OSetValue (lit "count") (x_value (XBool (dec " " " /* new */") true)); OInsert 1 (view (x_block [])); OPop;
   ORemoveAttribute (lit "region")].
Definition sample_end : list xstruct := [x_block []; x_count (XBool (dec " " " /* new */") true); x_block [x_region]].
Example sample_runs : exists rs, run sample_calls [] = Done (map view sample_end, rs).
Proof. eexists. vm_compute. reflexivity. Qed.
Example sample_fine : Forall (puts_fine ascii_unicode Release zero_float no_floats) sample_calls.
Proof.
  repeat (apply Forall_cons); try apply Forall_nil; try exact I; cbn [puts_fine]; repeat (apply Forall_cons); try apply Forall_nil;
    match goal with
    | |- fine _ _ _ _ (view ?x) => exists x; split; [reflexivity|]
    | |- fine _ _ _ _ (SAttr _) => exists (x_count (XBool (dec " " " /* new */") true)); split; [reflexivity|]
    end; cbn; unfold line_ok, attr_ok, variable, tidy, label_ok; auto_ok.
  all: cbn; intuition discriminate.
Qed.
Example sample_text : show_body no_floats (XBody no_meta sample_end false false) = lit "resource ""a b"" web {
}
count = true /* new */
resource ""a b"" web {
# network
region = ""eu"" // here
}
".
Proof. vm_compute. reflexivity. Qed.
Example sample_parsed : body_ok ascii_unicode Release zero_float no_floats (XBody no_meta sample_end false false).
Proof.
  cbn. unfold line_ok, attr_ok, variable, tidy, label_ok; auto_ok. all: cbn; intuition discriminate.
Qed.
(** The call which is left out: writing a second attribute with the key of another one through
    [get_mut(index)]; the text is refused. *)
Theorem C58_store_refuted : exists (ops : list (op payload)) l rs, run ops [] = Done (map view l, rs) /\
  Forall (fun o => match o with OStore _ s => fine ascii_unicode Release zero_float no_floats s | o => puts_fine ascii_unicode Release zero_float no_floats o end) ops /\
  exists e, parse_body ascii_unicode Release zero_float (show_body no_floats (XBody no_meta l false false)) = e /\ match e with Parsed _ => False | _ => True end.
Proof.
  exists [OPush (view (x_count (XNull no_meta))); OPush (view x_region); OStore 1 (view (x_count (XNull no_meta)))], [x_count (XNull no_meta); x_count (XNull no_meta)]. eexists. split; [vm_compute; reflexivity|]. split.
  - repeat (apply Forall_cons); try apply Forall_nil; cbn [puts_fine]; match goal with |- fine _ _ _ _ (view ?x) => exists x; split; [reflexivity|] end; cbn; unfold line_ok, attr_ok, variable, tidy, label_ok; auto_ok.
  - eexists. split; [reflexivity|]. vm_compute. exact I.
Qed.
Print Assumptions C58_store_refuted.

(** An object: a new value for a key with other decor, an entry removed, one added. *)
Definition kid (s : string) : xkey := XKId (Did (dec "  " " ") (lit s)).
Definition val (e : xexpr) : value := (AEquals, e, TNewline).
Definition object_start : list (xkey * value) := [(kid "a", val (XVar (dec " " " # one") (lit "x"))); (XKExpr (XStr (dec " " " ") (lit "b c")), (AColon, one, TComma)); (kid "d", val (XArr (dec " " "") [one] false REmpty))].
Definition object_calls : list (MapModel.mop xkey value) :=
  [MapModel.MInsert (XKId (Did (dec "" "") (lit "a"))) (AColon, XNull (dec " " ""), TComma); MapModel.MRemove (kid "d"); MapModel.MRemoveEntry (kid "z");
   MapModel.MExtend [(kid "e", val (XBool (dec " " "") true)); (XKExpr (XStr (dec "" "") (lit "b c")), val (XVar (dec " " "") (lit "y")))];
   MapModel.MUpdateAll (fun _ v => match v with (a, e, t) => (AEquals, e, t) end)].
Definition object_raw : raw := RText (lit "/* end */").
Example object_ok : Forall (fine_entry ascii_unicode Release zero_float no_floats) object_start /\
  ForallOrdPairs (fun x y => key_eqb (fst x) (fst y) = false) object_start /\ raw_gap object_raw /\
  Forall (puts_entries ascii_unicode Release zero_float no_floats) object_calls.
Proof.
  split; [|split; [|split]].
  - repeat (apply Forall_cons); try apply Forall_nil; split; cbn; unfold fine_key, variable, elem_in, tidy, raw_gap, clean, closing, num_ok, number_text; cbn; auto_ok.
  - repeat constructor.
  - split; vm_compute; auto.
  - repeat (apply Forall_cons); try apply Forall_nil; try exact I; try (intros _ [[a e] t] H; exact H).
    all: split; cbn; unfold fine_key, variable; cbn; auto_ok.
Qed.
Example object_text : show_expr no_floats (XObj no_meta (map item (fst (MapModel.mrun key_eqb object_calls object_start))) object_raw) =
  lit "{  a = null, ""b c"" = y
  e = true
/* end */}".
Proof. vm_compute. reflexivity. Qed.

(** * Reading literals of templates *)
From Coq Require Import NArith Arith Bool String List Lia.
From Verif Require Import Res Str Dec PrimModel PrimProofs EAst EncModel ParseBase ParseModel ParseLemmas Eat StrSpec StrProofs EatLeaf BackSpec.
Import ListNotations.
Open Scope N_scope.

(** ** How escaped text is divided *)
Inductive segs : str -> str -> Prop :=
| Seg_nil : segs [] []
| Seg_marker m t v : m = 36 \/ m = 37 -> segs t v -> segs (m :: m :: 123 :: t) (m :: 123 :: v)
| Seg_char c t v : live_marker (c :: t) = false -> esc_marker (c :: t) = false -> segs t v -> segs (c :: t) (c :: v).
Lemma read_segs : forall k t s, (List.length t <= k)%nat -> read_template t = map TChar s -> segs t s.
Proof.
  induction k as [|k IH]; intros t s Hl H.
  { destruct t; [|cbn in Hl; lia]. destruct s; [constructor|discriminate]. }
  destruct t as [|c t]; [destruct s; [constructor|discriminate]|]. cbn [List.length] in Hl.
  assert (Hone : forall s', live_marker (c :: t) || esc_marker (c :: t) = false -> read_template t = map TChar s' -> segs (c :: t) (c :: s')).
  { intros s' Hm Ht. apply orb_false_iff in Hm. destruct Hm. constructor; auto. apply IH; [lia|exact Ht]. }
  cbn [read_template] in H. destruct t as [|c2 t].
  - destruct s as [|c' [|]]; try discriminate. injection H as <-. apply Hone; [|reflexivity].
    unfold live_marker, esc_marker. cbn [lit map list_ascii_of_string starts_with]. rewrite !andb_false_r. reflexivity.
  - destruct (is_mark c && (c2 =? 123)) eqn:E1; [destruct s; discriminate|].
    assert (L : live_marker (c :: c2 :: t) = false).
    { unfold live_marker. change (lit "${") with [36; 123]. change (lit "%{") with [37; 123]. cbn [starts_with]. unfold is_mark in E1.
      rewrite (N.eqb_sym 36), (N.eqb_sym 37), (N.eqb_sym 123), !andb_true_r.
      destruct (c =? 36), (c =? 37), (c2 =? 123); cbn in *; congruence. }
    destruct t as [|c3 t].
    + destruct s as [|c' s]; [discriminate|]. cbn [map] in H. injection H as <- H. apply Hone; [|exact H].
      rewrite L. unfold esc_marker. cbn [lit map list_ascii_of_string starts_with]. rewrite !andb_false_r. reflexivity.
    + destruct (is_mark c && (c2 =? c) && (c3 =? 123)) eqn:E2.
      * destruct s as [|c' [|d s]]; try discriminate. cbn [map] in H. injection H as <- <- H.
        rewrite !andb_true_iff, !N.eqb_eq in E2. destruct E2 as ((M & ->) & ->).
        apply Seg_marker; [unfold is_mark in M; now rewrite orb_true_iff, !N.eqb_eq in M|]. apply IH; [cbn in Hl; lia|exact H].
      * destruct s as [|c' s]; [discriminate|]. cbn [map] in H. injection H as <- H. apply Hone; [|exact H].
        rewrite L. unfold esc_marker. change (lit "$${") with [36; 36; 123]. change (lit "%%{") with [37; 37; 123].
        cbn [starts_with orb]. rewrite !andb_true_r, (N.eqb_sym 123). rewrite (N.eqb_sym 36), (N.eqb_sym 37). unfold is_mark in E2.
        destruct (N.eqb_spec c 36) as [->|]; [|destruct (N.eqb_spec c 37) as [->|]]; cbn [orb andb] in *; try reflexivity;
        rewrite ?(N.eqb_sym 36 c2), ?(N.eqb_sym 37 c2), ?E2; try reflexivity.
Qed.
Lemma escaped_segs s : escape_ok s = true -> segs (escape_markers s) s.
Proof. intros H. apply (read_segs (List.length (escape_markers s))); [reflexivity|]. now apply escape_markers_correct. Qed.

(** The last character. *)
Lemma last_cons (c : N) t d : t <> [] -> last (c :: t) d = last t d.
Proof. now destruct t. Qed.
Lemma escape_loop_last : forall k s d, (List.length s <= k)%nat -> (escape_loop s = [] -> s = []) /\ last (escape_loop s) d = last s d.
Proof.
  induction k as [|k IH]; intros s d Hl.
  { destruct s; [auto|cbn in Hl; lia]. }
  destruct s as [|c r]; [auto|]. cbn [escape_loop]. destruct (is_mark c).
  - destruct r as [|c2 r']; [split; [discriminate|reflexivity]|]. cbn [List.length] in Hl. destruct (IH r' d ltac:(lia)) as [H1 H2].
    split; [destruct (c2 =? 123); discriminate|]. assert (X : last (c2 :: escape_loop r') d = last (c2 :: r') d).
    { destruct r' as [|x r']; [reflexivity|]. rewrite (last_cons _ (x :: r')) by discriminate. rewrite last_cons; [exact H2|]. intros E. specialize (H1 E). discriminate. }
    destruct (c2 =? 123); rewrite !(last_cons c) by discriminate; exact X.
  - cbn [List.length] in Hl. destruct (IH r d ltac:(lia)) as [H1 H2]. split; [discriminate|]. destruct r as [|x r']; [reflexivity|].
    rewrite (last_cons _ (x :: r')) by discriminate. rewrite last_cons; [exact H2|]. intros E. specialize (H1 E). discriminate.
Qed.
Lemma escape_last s d : (escape_markers s = [] -> s = []) /\ last (escape_markers s) d = last s d.
Proof.
  induction s as [|c s [H1 H2]]; [auto|]. cbn [escape_markers]. destruct s as [|c2 s]; [split; [discriminate|reflexivity]|].
  destruct (is_mark c && (c2 =? 123)); [now apply (escape_loop_last (List.length (c :: c2 :: s)))|]. split; [discriminate|].
  rewrite (last_cons _ (c2 :: s)) by discriminate. rewrite last_cons; [exact H2|]. intros E. specialize (H1 E). discriminate.
Qed.

(** What follows a literal does not change how it is read. *)
Definition edge (t r : str) : Prop := match r with [] => True | k :: _ => k <> 123 /\ (k = 36 \/ k = 37 -> last t 0 <> k) end.
Lemma edge_tail c t r : edge (c :: t) r -> t <> [] -> edge t r.
Proof. intros H Hn. destruct r as [|k r]; [exact I|]. cbn [edge] in *. now rewrite last_cons in H. Qed.
Lemma esc_marker_2 c d t : esc_marker (c :: d :: t) = true -> (c = 36 \/ c = 37) /\ d = c /\ exists t', t = 123 :: t'.
Proof. intros H. apply esc_marker_at in H. destruct H as (m & r & Hm & E). injection E as -> -> ->. eauto. Qed.
Lemma not_esc c d t : d <> c \/ (match t with 123 :: _ => False | _ => True end) -> esc_marker (c :: d :: t) = false.
Proof. intros H. destruct (esc_marker (c :: d :: t)) eqn:E; [|reflexivity]. apply esc_marker_2 in E. destruct E as (_ & -> & t' & ->). destruct H as [H|H]; [congruence|destruct H]. Qed.
Lemma not_live c d t : d <> 123 -> live_marker (c :: d :: t) = false.
Proof. intros H. destruct (live_marker (c :: d :: t)) eqn:E; [|reflexivity]. apply live_marker_at in E. destruct E as (m & r & _ & E). injection E as _ -> _. congruence. Qed.
Lemma live_head c d t t' : live_marker (c :: d :: t) = live_marker (c :: d :: t').
Proof. reflexivity. Qed.
Lemma esc_head c d e t t' : esc_marker (c :: d :: e :: t) = esc_marker (c :: d :: e :: t').
Proof. reflexivity. Qed.
Lemma live_1 c : live_marker [c] = false.
Proof. unfold live_marker. cbn [lit map list_ascii_of_string starts_with]. now rewrite !andb_false_r. Qed.
Lemma esc_1 c : esc_marker [c] = false.
Proof. unfold esc_marker. cbn [lit map list_ascii_of_string starts_with]. now rewrite !andb_false_r. Qed.
Lemma esc_2 c d : esc_marker [c; d] = false.
Proof. unfold esc_marker. cbn [lit map list_ascii_of_string starts_with]. now rewrite !andb_false_r. Qed.
Section Enc.
Context (ec : N -> str) (special : N -> bool).
Context (ec_seq : forall c, special c = true -> exists e, ec c = 92 :: e) (ec_plain : forall c, special c = false -> ec c = [c]).
Context (ec_marks : forall c, In c [36; 37; 123] -> special c = false).
Lemma enc_marks c t r : edge (c :: t) r -> live_marker (c :: flat_map ec t ++ r) = live_marker (c :: t) /\ esc_marker (c :: flat_map ec t ++ r) = esc_marker (c :: t).
Proof.
  intros HE. assert (SP : forall d, special d = true -> d <> 36 /\ d <> 37 /\ d <> 123) by (intros d Hd; repeat split; intros ->; rewrite ec_marks in Hd by (cbn; auto); discriminate).
  destruct t as [|d t]; cbn [flat_map].
  - cbn [app]. destruct r as [|k r]; [auto|]. destruct HE as (H1 & H2). rewrite live_1, esc_1. split; [now apply not_live|]. destruct (esc_marker (c :: k :: r)) eqn:E; [|reflexivity].
    apply esc_marker_2 in E. destruct E as (E1 & -> & _). now destruct (H2 E1).
  - destruct (special d) eqn:Ed.
    + destruct (SP d Ed) as (S1 & S2 & S3). destruct (ec_seq d Ed) as (e & ->). cbn [app]. rewrite !not_live by (try discriminate; assumption). split; [reflexivity|].
      destruct (esc_marker (c :: 92 :: (e ++ flat_map ec t) ++ r)) eqn:E; [apply esc_marker_2 in E; destruct E as ([-> | ->] & E & _); discriminate|].
      destruct (esc_marker (c :: d :: t)) eqn:E'; [|reflexivity]. apply esc_marker_2 in E'. destruct E' as (E1 & -> & _). tauto.
    + rewrite (ec_plain d Ed). cbn [app]. split; [apply live_head|]. destruct t as [|x t]; cbn [flat_map app].
      * rewrite esc_2. destruct r as [|k r]; [apply esc_2|]. destruct HE as (H1 & _). apply not_esc. right. destruct (N.eqb_spec k 123) as [->|]; [congruence|]. destruct k as [|k]; [exact I|].
        repeat (destruct k as [k|k|]; try exact I). congruence.
      * destruct (special x) eqn:Ex; [|rewrite (ec_plain x Ex); apply esc_head]. destruct (SP x Ex) as (S1 & S2 & S3). destruct (ec_seq x Ex) as (e & ->). cbn [app].
        rewrite not_esc by (right; exact I). symmetry. apply not_esc. right. destruct x as [|x]; [exact I|]. repeat (destruct x as [x|x|]; try exact I). congruence.
Qed.
End Enc.

(** ** The reader of quoted templates *)
Lemma quoted_lit_reads s r : escape_ok s = true -> edge s r -> reads r (encode_escaped (escape_markers s)) s.
Proof.
  intros H HE. assert (HE' : edge (escape_markers s) r) by (destruct r; [exact I|]; cbn [edge] in *; now rewrite (proj2 (escape_last s 0))). apply escaped_segs in H.
  revert HE'. clear HE. change (edge (escape_markers s) r -> reads r (flat_map escape_char (escape_markers s)) s).
  assert (SM : forall c, In c [36; 37; 123] -> esc_special c = false) by (intros c [<-|[<-|[<-|[]]]]; reflexivity).
  assert (SQ : forall c, esc_special c = true -> exists e, escape_char c = 92 :: e) by (intros c Hc; destruct (escape_char_seq c Hc); eexists; reflexivity).
  induction H as [|m t v Hm H IH|c t v HL HX H IH]; intros HE.
  - constructor.
  - assert (R : reads r (flat_map escape_char t) v).
    { destruct t as [|x t]; [inversion H; constructor|]. apply IH. apply edge_tail with (c := 123); [|discriminate]. apply edge_tail with (c := m); [|discriminate]. apply edge_tail with (c := m); [exact HE|discriminate]. }
    cbn [flat_map]. replace (escape_char m) with [m] by (now destruct Hm as [-> | ->]). change (escape_char 123) with [123]. cbn [app]. now constructor.
  - assert (R : reads r (flat_map escape_char t) v).
    { destruct t as [|x t]; [inversion H; constructor|]. apply IH. apply edge_tail with (c := c); [exact HE|discriminate]. }
    cbn [flat_map]. destruct (esc_special c) eqn:Ec; [apply Reads_escape; [now apply escape_char_seq|exact R]|]. destruct (escape_char_plain c Ec) as (-> & E1 & E2). cbn [app].
    apply Reads_char; [|exact R]. cbn [ordinary]. rewrite E1, E2. cbn [orb].
    destruct (enc_marks escape_char esc_special SQ (fun c Hc => proj1 (escape_char_plain c Hc)) SM c t r HE) as (-> & ->). now rewrite HL, HX.
Qed.

(** ** The reader of other templates

    [stop s]: a literal ends before [s]. *)
Section Tpl.
Context {inp : str} (le : parser unit) (stop : str -> bool).
Context (stop_eat : forall s, stop s = true -> exists t r, s = t ++ r /\ eat inp le t EatLeaf.T r) (stop_miss : forall s, stop s = false -> miss inp le s) (stop_nil : stop [] = false).
Definition free (s : str) : bool := match s with [] => false | _ => negb (stop s || esc_marker s) end.
Inductive treads (r : str) : str -> str -> Prop :=
| TReads_end : treads r [] []
| TReads_marker m t v : m = 36 \/ m = 37 -> treads r t v -> treads r (m :: m :: 123 :: t) (m :: 123 :: v)
| TReads_char c t v : free (c :: t ++ r) = true -> treads r t v -> treads r (c :: t) (c :: v).
Notation one := (pnot (alt (pmap (fun _ => tt) escaped_marker) le) ;; any).
Lemma eat_tone c s : free (c :: s) = true -> eat inp one [c] (fun _ => True) s.
Proof.
  intros H. apply (eat_bind _ _ [] [c] (fun _ => True)); [|intros; now apply eat_any]. cbn [free] in H. rewrite negb_true_iff, orb_false_iff in H.
  apply eat_pnot; [|exact I]. apply miss_alt; [apply miss_pmap, miss_escaped_marker, H|now apply stop_miss].
Qed.
Lemma miss_tone s : free s = false -> miss inp one s.
Proof.
  intros H. destruct s as [|c s].
  { apply (miss_bind2 _ _ [] (fun _ => True) []); [|intros; apply miss_any]. apply eat_pnot; [|exact I]. apply miss_alt; [apply miss_pmap, miss_escaped_marker; reflexivity|now apply stop_miss]. }
  apply miss_bind1. cbn [free] in H. rewrite negb_false_iff in H. destruct (esc_marker (c :: s)) eqn:E.
  - apply esc_marker_at in E. destruct E as (m & r & Hm & ->). apply (miss_pnot _ [m; m; 123] (fun _ => True)).
    apply eat_alt1, eat_pmap. now apply eat_escaped_marker.
  - rewrite orb_false_r in H. destruct (stop_eat _ H) as (t & r & Es & Ht). rewrite Es. apply (miss_pnot _ t EatLeaf.T).
    apply eat_alt2; [|exact Ht]. apply miss_pmap, miss_escaped_marker. now rewrite <- Es.
Qed.
Fixpoint frees (p q : str) : Prop := match p with [] => True | c :: p' => free (c :: p' ++ q) = true /\ frees p' q end.
Lemma frees_loop p q : free q = false -> frees p q -> eat_loop inp one p (fun _ => True) q.
Proof.
  intros Hq. induction p as [|c p IH]; intros Hp.
  - apply eat_loop_nil; [now apply miss_tone|exact I].
  - destruct Hp as [Hc Hp]. apply (eat_loop_cons one [c] p (fun _ => True)); [discriminate|now apply eat_tone|auto].
Qed.
Lemma eat_until p q (Q : str -> Prop) : p <> [] -> free q = false -> frees p q -> Q p -> eat inp (any_until le) p Q q.
Proof.
  intros Hn Hq Hp HQ. unfold any_until. apply eat_taken; [|exact HQ]. destruct p as [|c p]; [congruence|].
  destruct Hp as [Hc Hp]. apply (eat_many1 _ [c] p (fun _ => True)); [now apply eat_tone|]. intros _ _. now apply frees_loop.
Qed.
Lemma miss_until q : free q = false -> miss inp (any_until le) q.
Proof. intros H. apply miss_taken, miss_many1, miss_tone, H. Qed.
Lemma treads_split r t v : treads r t v -> free r = false ->
  exists p q w, t = p ++ q /\ v = p ++ w /\ frees p (q ++ r) /\ free (q ++ r) = false /\ treads r q w.
Proof.
  intros H Hr. induction H as [|m t v Hm H IH|c t v Hc H IH].
  - exists [], [], []. repeat split; auto. constructor.
  - exists [], (m :: m :: 123 :: t), (m :: 123 :: v). repeat split; auto; [|now constructor]. cbn [app free]. destruct Hm as [-> | ->]; now rewrite orb_true_r.
  - destruct IH as (p & q & w & -> & -> & Hp & Hq & Hw). exists (c :: p), q, w. repeat split; auto. now rewrite app_assoc.
Qed.
Notation frag := (template_string_fragment le).
Lemma treads_frag r t v : treads r t v -> free r = false -> t <> [] ->
  exists t1 t2 v1 v2, t = t1 ++ t2 /\ v = v1 ++ v2 /\ t1 <> [] /\ eat inp frag t1 (eq v1) (t2 ++ r) /\ treads r t2 v2.
Proof.
  intros H H1 Hn. destruct (treads_split r t v H H1) as (p & q & w & -> & -> & Hp & Hq & Hw).
  destruct p as [|c p].
  - cbn [app] in *. inversion Hw as [E1 E2|m t v Hm Hw' E1 E2|c t v Hc Hw' E1 E2]; subst.
    + congruence.
    + exists [m; m; 123], t, [m; 123], v. repeat split; auto; [discriminate|]. apply eat_alt1. now apply eat_escaped_marker.
    + exfalso. cbn [app] in Hq. congruence.
  - exists (c :: p), q, (c :: p), w. repeat split; auto; [discriminate|]. apply eat_alt2.
    + apply miss_escaped_marker. destruct Hp as [Hc _]. cbn [free app] in Hc. rewrite negb_true_iff, !orb_false_iff in Hc. apply Hc.
    + apply eat_until; auto. discriminate.
Qed.
Definition tquiet (r : str) : Prop := free r = false /\ esc_marker r = false.
Lemma tfrag_stop r : tquiet r -> forall o, tail_at inp o r -> frag (mk o r) = PErr false (mk o r).
Proof.
  intros (H1 & H2) o T. unfold template_string_fragment, alt at 1.
  destruct (miss_escaped_marker r H2 o T) as (s1 & ->). destruct (miss_until r H1 o T) as (s2 & ->). reflexivity.
Qed.
Lemma treads_build r t v : treads r t v -> tquiet r -> eat_build (inp := inp) frag t v r.
Proof.
  intros H H1. remember (List.length t) as k eqn:Ek. revert t v Ek H.
  induction k as [k IH] using (well_founded_induction Wf_nat.lt_wf). intros t v -> H.
  destruct t as [|c t].
  - assert (v = []) by (now inversion H). subst. intros [|n] o T Hn; [inversion Hn|]. cbn [app build_loop blen] in *. rewrite (tfrag_stop r), N.add_0_r; auto.
  - destruct (treads_frag r (c :: t) v H) as (t1 & t2 & v1 & v2 & E & -> & Hn & Hf & Hr); [apply H1|discriminate|]. rewrite E.
    apply build_cons; auto. eapply IH; [|reflexivity|exact Hr]. rewrite E, app_length. destruct t1; [contradiction|cbn; lia].
Qed.
Lemma eat_tpl_string r t v (Q : str -> Prop) : treads r t v -> tquiet r -> t <> [] -> Q v -> eat inp (build_string frag) t Q r.
Proof.
  intros H H1 Hn HQ. destruct (treads_frag r t v H) as (t1 & t2 & v1 & v2 & -> & -> & Hn1 & Hf & Hr); [apply H1|assumption|].
  unfold build_string. apply (eat_bind _ _ t1 t2 (eq v1)); [exact Hf|]. intros a <-.
  apply (eat_bind' _ _ t2 t2 [] (eq v2)); [symmetry; apply app_nil_r| |intros a <-; now apply eat_ret].
  intros o T. exists v2. split; [|reflexivity]. cbn [snd]. rewrite (treads_build r t2 v2 Hr H1); [reflexivity|exact T|]. rewrite app_length. lia.
Qed.
Lemma miss_tpl_string r : tquiet r -> miss inp (build_string frag) r.
Proof. intros H. apply miss_bind1. intros o T. rewrite tfrag_stop; eauto. Qed.
(** A literal which does not contain the end of the template. *)
Fixpoint endless (t r : str) : Prop := match t with [] => True | c :: t' => stop (c :: t' ++ r) = live_marker (c :: t' ++ r) /\ endless t' r end.
Lemma tpl_lit_reads s r : escape_ok s = true -> edge s r -> endless (escape_markers s) r -> treads r (escape_markers s) s.
Proof.
  intros H HE. assert (HE' : edge (escape_markers s) r) by (destruct r; [exact I|]; cbn [edge] in *; now rewrite (proj2 (escape_last s 0))). apply escaped_segs in H.
  revert HE'. clear HE. induction H as [|m t v Hm H IH|c t v HL HX H IH]; intros HE HN.
  - constructor.
  - constructor; [exact Hm|]. destruct HN as (_ & _ & _ & HN). destruct t as [|x t]; [inversion H; constructor|]. apply IH; [|exact HN].
    apply edge_tail with (c := 123); [|discriminate]. apply edge_tail with (c := m); [|discriminate]. apply edge_tail with (c := m); [exact HE|discriminate].
  - destruct HN as (E & HN). constructor.
    + cbn [free]. rewrite E. destruct (enc_marks (fun c => [c]) (fun _ => false) ltac:(discriminate) ltac:(reflexivity) ltac:(reflexivity) c t r HE) as (E1 & E2).
      replace (flat_map (fun c => [c]) t) with t in * by (clear; induction t; cbn; congruence). now rewrite E1, E2, HL, HX.
    + destruct t as [|x t]; [inversion H; constructor|]. apply IH; [|exact HN]. apply edge_tail with (c := c); [exact HE|discriminate].
Qed.
End Tpl.

(** Templates in directives, and parsed on their own. *)
Section Marker.
Context {inp : str}.
Lemma marker_eat s : live_marker s = true -> exists t r, s = t ++ r /\ eat inp marker_start t EatLeaf.T r.
Proof.
  intros H. apply live_marker_at in H. destruct H as (m & r & Hm & ->). exists [m; 123], r. split; [reflexivity|].
  destruct Hm as [-> | ->]; [apply eat_alt1|apply eat_alt2; [now apply miss_tag|]]; now apply (@eat_tag inp _ EatLeaf.T).
Qed.
Lemma marker_miss s : live_marker s = false -> miss inp marker_start s.
Proof. unfold live_marker. intros H. apply orb_false_iff in H. destruct H. apply miss_alt; now apply miss_tag. Qed.
Lemma endless_marker t r : endless live_marker t r.
Proof. induction t; cbn; auto. Qed.
End Marker.

(** ** Heredocs *)
Section Heredoc.
Context {inp : str} (u : unicode) (d : str).
Context (HU : ascii_exact u) (Hd : is_ident u d = true).
Notation idc := (is_id_continue u).
Lemma delim_spec s : at_delim u d s = true <-> exists w r, s = w ++ d ++ r /\ forallb is_space w = true /\ ends is_space (d ++ r) /\ ends idc r.
Proof.
  unfold at_delim. destruct (span_spec is_space s) as (E & H1 & H2). set (w := fst (span is_space s)) in *. set (x := snd (span is_space s)) in *. split.
  - intros H. apply andb_true_iff in H. destruct H as [H3 H4]. apply starts_with_spec in H3. destruct H3 as (r & Er). exists w, r. rewrite <- Er. split; [exact E|]. split; [exact H1|]. split; [exact H2|].
    rewrite Er in H4. rewrite skipn_app_exact in H4. destruct r; [exact I|]. now apply negb_true_iff in H4.
  - intros (w' & r & E' & H3 & H4 & H5). assert (X : span is_space s = (w', d ++ r)) by (rewrite E'; now apply span_app). unfold x. rewrite X. cbn [snd].
    rewrite starts_with_app, skipn_app_exact. cbn [andb]. destruct r as [|c r]; [reflexivity|]. cbn [ends] in H5. now rewrite H5.
Qed.
Lemma eat_space0 w r : forallb is_space w = true -> ends is_space r -> eat inp space0 w EatLeaf.T r.
Proof. intros. now apply eat_take_while0. Qed.
Lemma eat_delim w r : forallb is_space w = true -> ends is_space (d ++ r) -> ends idc r -> eat inp (space0 ;; tag d ;; pnot (one_of idc)) (w ++ d) EatLeaf.T r.
Proof.
  intros H1 H2 H3. apply (eat_bind _ _ w d EatLeaf.T); [now apply eat_space0|]. intros _ _. apply (eat_bind' _ _ d d [] EatLeaf.T); [now rewrite app_nil_r|now apply eat_tag|]. intros _ _.
  apply eat_pnot; [now apply miss_one_of|exact I].
Qed.
Lemma miss_delim s : at_delim u d s = false -> miss inp (space0 ;; tag d ;; pnot (one_of idc)) s.
Proof.
  intros H. destruct (span_spec is_space s) as (E & H1 & H2). rewrite E. apply (miss_bind2 _ _ _ EatLeaf.T); [now apply eat_space0|]. intros _ _. unfold at_delim in H.
  set (x := snd (span is_space s)) in *. destruct (starts_with d x) eqn:Es; [|apply miss_bind1; now apply miss_tag]. cbn [andb] in H. apply starts_with_spec in Es. destruct Es as (r & Er). rewrite Er in *.
  rewrite skipn_app_exact in H. apply (miss_bind2 _ _ d EatLeaf.T); [now apply eat_tag|]. intros _ _. destruct r as [|c r]; [discriminate|]. apply negb_false_iff in H.
  apply (miss_pnot _ [c] EatLeaf.T r). now apply eat_one_of.
Qed.
Definition break (e : str) : Prop := e = [10] \/ e = [13; 10].
Lemma eat_break e r : break e -> eat inp line_ending e (eq e) r.
Proof. intros [-> | ->]; apply eat_taken; try reflexivity; [apply eat_alt1|apply eat_alt2; [now apply miss_tag|]]; now apply eat_tag. Qed.
Lemma miss_break s : (forall e r, break e -> s <> e ++ r) -> miss inp line_ending s.
Proof.
  intros H. apply miss_taken, miss_alt; apply miss_tag; (destruct (starts_with _ s) eqn:E; [|reflexivity]); apply starts_with_spec in E; destruct E as (r & ->); exfalso; eapply H; try reflexivity; unfold break; auto.
Qed.
Lemma closes_spec s : closes u d s = true <-> exists e r, break e /\ s = e ++ r /\ at_delim u d r = true.
Proof.
  split.
  - destruct s as [|c s]; [discriminate|]. cbn [closes]. destruct (N.eqb_spec c 10) as [->|_]; [intros H; exists [10], s; unfold break; auto|]. destruct (N.eqb_spec c 13) as [->|_]; [|discriminate].
    destruct s as [|x s]; [discriminate|]. intros H. apply andb_true_iff in H. destruct H as [E H]. apply N.eqb_eq in E. subst. exists [13; 10], s. unfold break; auto.
  - intros (e & r & [-> | ->] & -> & H); exact H.
Qed.
Lemma closes_eat s : closes u d s = true -> exists t r, s = t ++ r /\ eat inp (heredoc_end u d) t EatLeaf.T r.
Proof.
  intros H. apply closes_spec in H. destruct H as (e & r & He & -> & H). apply delim_spec in H. destruct H as (w & r' & -> & H1 & H2 & H3). exists (e ++ w ++ d), r'. split; [now rewrite <- !app_assoc|].
  apply (eat_bind _ _ e (w ++ d) (eq e)); [now apply eat_break|]. intros _ _. now apply eat_delim.
Qed.
Lemma closes_miss s : closes u d s = false -> miss inp (heredoc_end u d) s.
Proof.
  intros H. destruct s as [|c s]; [apply miss_bind1, miss_break; intros e r [-> | ->]; discriminate|]. cbn [closes] in H. destruct (N.eqb_spec c 10) as [->|H1].
  { apply (miss_bind2 _ _ [10] (eq [10]) s); [apply eat_break; now left|]. intros _ _. now apply miss_delim. }
  destruct (N.eqb_spec c 13) as [->|H2].
  - destruct s as [|x s]; [apply miss_bind1, miss_break; intros e r [-> | ->]; discriminate|]. destruct (N.eqb_spec x 10) as [->|H3].
    + apply (miss_bind2 _ _ [13; 10] (eq [13; 10]) s); [apply eat_break; now right|]. intros _ _. now apply miss_delim.
    + apply miss_bind1, miss_break. intros e r [-> | ->]; [discriminate|]. intros [= E _]. congruence.
  - apply miss_bind1, miss_break. intros e r [-> | ->]; intros [= E _]; congruence.
Qed.
Definition hstop (s : str) : bool := live_marker s || closes u d s.
Notation hend := (alt (tag (lit "${")) (alt (tag (lit "%{")) (heredoc_end u d))).
Lemma hstop_eat s : hstop s = true -> exists t r, s = t ++ r /\ eat inp hend t EatLeaf.T r.
Proof.
  unfold hstop. intros H. destruct (live_marker s) eqn:E.
  - apply live_marker_at in E. destruct E as (m & r & Hm & ->). exists [m; 123], r. split; [reflexivity|].
    destruct Hm as [-> | ->]; [apply eat_alt1|apply eat_alt2; [now apply miss_tag|]; apply eat_alt1]; now apply (@eat_tag inp _ EatLeaf.T).
  - destruct (closes_eat s H) as (t & r & -> & Ht). exists t, r. split; [reflexivity|]. apply orb_false_iff in E. destruct E. apply eat_alt2; [now apply miss_tag|]. apply eat_alt2; [now apply miss_tag|exact Ht].
Qed.
Lemma hstop_miss s : hstop s = false -> miss inp hend s.
Proof. unfold hstop, live_marker. rewrite !orb_false_iff. intros ((H1 & H2) & H3). apply miss_alt; [now apply miss_tag|]. apply miss_alt; [now apply miss_tag|now apply closes_miss]. Qed.
(** Only the next character decides whether a line closes the heredoc. *)
Lemma app_until (k : N) a r x y : a ++ k :: r = x ++ y -> ~ In k x -> exists z, a = x ++ z /\ y = z ++ k :: r.
Proof.
  revert a. induction x as [|c x IH]; intros a E Hn; [exists a; auto|]. destruct a as [|c' a]; cbn [app] in E; injection E as E1 E2.
  - exfalso. apply Hn. now left.
  - subst c'. destruct (IH a E2) as (z & -> & ->); [intros H; apply Hn; now right|]. exists z. auto.
Qed.
(** A character which is neither in the delimiter nor a blank. *)
Definition other (k : N) : Prop := is_space k = false /\ is_id_start u k = false /\ idc k = false.
Lemma delim_head s k r : at_delim u d (s ++ k :: r) = true -> other k -> at_delim u d (s ++ [k]) = true.
Proof.
  intros H (K1 & K2 & K3). apply delim_spec in H. destruct H as (w & r' & E & H1 & H2 & H3). rewrite app_assoc in E. apply app_until in E.
  - destruct E as (z & -> & ->). apply delim_spec. exists w, (z ++ [k]). rewrite <- !app_assoc. split; [reflexivity|]. split; [exact H1|]. split; [|now destruct z].
    clear -H2 Hd. destruct d as [|c t]; [discriminate|exact H2].
  - intros Hi. apply in_app_or in Hi. destruct Hi as [Hi|Hi]; [rewrite forallb_forall in H1; rewrite (H1 k Hi) in K1; discriminate|]. unfold is_ident in Hd. clear -Hi Hd K2 K3.
    destruct d as [|c t]; [contradiction|]. apply andb_true_iff in Hd. destruct Hd as [X1 X2]. destruct Hi as [->|Hi]; [congruence|]. rewrite forallb_forall in X2. rewrite (X2 k Hi) in K3. discriminate.
Qed.
Lemma closes_head x k r : x <> [] -> closes u d (x ++ k :: r) = true -> other k -> (k = 10 -> last x 0 <> 13) -> closes u d (x ++ [k]) = true.
Proof.
  intros Hn H HK H13. apply closes_spec in H. destruct H as (e & r0 & He & E & H). apply closes_spec. exists e.
  assert (X : exists z, x = e ++ z /\ r0 = z ++ k :: r).
  { destruct He as [-> | ->].
    - destruct x as [|c x]; [congruence|]. injection E as -> <-. now exists x.
    - destruct x as [|c [|c' x]]; [congruence| |].
      + injection E as -> -> _. now destruct (H13 eq_refl).
      + injection E as -> -> <-. now exists x. }
  destruct X as (z & -> & ->). exists (z ++ [k]). rewrite <- app_assoc. split; [exact He|]. split; [reflexivity|]. now apply (delim_head z k r).
Qed.
Lemma calm_endless t k r : calm u d t k = true -> other k -> (k = 10 -> last t 0 <> 13) -> endless hstop t (k :: r).
Proof.
  induction t as [|c t IH]; intros H HK H13; [exact I|]. cbn [calm] in H. apply andb_true_iff in H. destruct H as [H1 H2]. apply negb_true_iff in H1. split.
  - unfold hstop. destruct (closes u d (c :: t ++ k :: r)) eqn:E; [|apply orb_false_r]. rewrite (closes_head (c :: t) k r) in H1; auto; discriminate.
  - destruct t as [|c' t]; [exact I|]. apply IH; auto. 
Qed.
End Heredoc.

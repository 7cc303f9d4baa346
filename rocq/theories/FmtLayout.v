(** Layout facts about the text of [FmtSpec]. *)
From Coq Require Import NArith Arith Bool String List Lia.
From Verif Require Import Res Str Dec NumberModel PrimModel PrimProofs DedentModel Ast AstInd FmtModel FmtSpec FmtProofs.
From Verif Require EatLeaf EncModel.
Import ListNotations.
Open Scope N_scope.

Lemma flat_map_map {A B C} (f : B -> list C) (g : A -> B) l : flat_map f (map g l) = flat_map (fun x => f (g x)) l.
Proof. induction l; cbn; [reflexivity|]. now rewrite IHl. Qed.
Lemma Forall_flat_map {A B} (P : B -> Prop) (f : A -> list B) l :
  Forall P (flat_map f l) <-> Forall (fun x => Forall P (f x)) l.
Proof.
  induction l; cbn; [split; constructor|]. rewrite Forall_app, IHl. split; [intros []; now constructor|].
  intros H; inversion H; auto.
Qed.
Lemma Forall_two {A} (P Q R : A -> Prop) l :
  Forall P l -> Forall Q l -> (forall x, P x -> Q x -> R x) -> Forall R l.
Proof. intros HP HQ H. rewrite Forall_forall in *. auto. Qed.

(** ** Identifiers are printed alike with and without quotes *)
Definition name_char (x : chr) : Prop :=
  x = 45 \/ 48 <= x <= 57 \/ 65 <= x <= 90 \/ x = 95 \/ 97 <= x <= 122 \/ 128 <= x.
Lemma ident_chars u s : EatLeaf.ascii_exact u -> is_ident u s = true -> Forall name_char s.
Proof.
  intros HU H. unfold is_ident in H. destruct s as [|x s]; [discriminate|].
  apply andb_true_iff in H as [H1 H2].
  assert (L : forall y, is_ascii_letter y = true -> name_char y).
  { intros y. unfold is_ascii_letter, name_char. rewrite orb_true_iff, !andb_true_iff, !N.leb_le. lia. }
  assert (D : forall y, is_digit y = true -> name_char y).
  { intros y. unfold is_digit, name_char. rewrite !andb_true_iff, !N.leb_le. lia. }
  constructor.
  - unfold is_id_start in H1. destruct (N.lt_ge_cases x 128) as [Q|Q]; [|unfold name_char; tauto].
    destruct (HU x Q) as [E _]. rewrite E, orb_true_iff, N.eqb_eq in H1. destruct H1; [auto|unfold name_char; lia].
  - rewrite forallb_forall in H2. apply Forall_forall. intros y Hy. specialize (H2 y Hy). unfold is_id_continue in H2.
    destruct (N.lt_ge_cases y 128) as [Q|Q]; [|unfold name_char; tauto].
    destruct (HU y Q) as [_ E]. rewrite E, !orb_true_iff, !N.eqb_eq in H2.
    destruct H2 as [[[H2|H2]|H2]|H2]; [auto|auto|unfold name_char; lia..].
Qed.
Lemma name_no_marker s : Forall name_char s -> from_first_marker s = [].
Proof.
  induction 1 as [|x s Hx Hs IH]; [reflexivity|]. cbn [from_first_marker]. destruct s as [|y s]; [reflexivity|].
  replace (is_mark x) with false; [exact IH|]. symmetry. unfold is_mark. unfold name_char in Hx.
  apply orb_false_iff. rewrite !N.eqb_neq. lia.
Qed.
Lemma name_fesc x : name_char x -> fesc x = [x].
Proof.
  unfold name_char, fesc. intros H.
  repeat match goal with |- context [x =? ?n] => destruct (N.eqb_spec x n); [lia|] end.
  destruct (N.leb_spec x 31); [lia|reflexivity].
Qed.
Lemma name_quoted s : Forall name_char s -> fquoted s = [34] ++ s ++ [34].
Proof.
  intros H. unfold fquoted, fescaped. rewrite escape_plain by now apply name_no_marker.
  replace (flat_map fesc s) with s; [reflexivity|].
  induction H as [|x s Hx _ IH]; [reflexivity|]. cbn [flat_map]. rewrite name_fesc by exact Hx. cbn [app]. now f_equal.
Qed.

Ltac ap := apply (f_equal2 (@app N)).
(** Equal up to one side condition per differing piece. *)
Ltac aps := repeat (first [reflexivity | ap]).

(** ** Two configurations *)
Section Two.
  Context (u : unicode) (sf : f64 -> str) (c c' : cfg) (f : chr -> bool).
  Hypothesis HU : EatLeaf.ascii_exact u.
  Hypothesis F32 : f 32 = true.
  Hypothesis F10 : f 10 = true.
  Hypothesis Fi : forallb f (c_indent c) = true.
  Hypothesis Fi' : forallb f (c_indent c') = true.
  Hypothesis FK : f 34 = true \/ c_ident_keys c = c_ident_keys c'.
  Notation sq := (squash f).

  Lemma sq_app s t : sq (s ++ t) = sq s ++ sq t.
  Proof. apply filter_app. Qed.
  Lemma sq_nil s : forallb f s = true -> sq s = [].
  Proof.
    induction s as [|x s IH]; [reflexivity|]. cbn [forallb squash filter]. rewrite andb_true_iff. intros [-> H].
    cbn [negb]. exact (IH H).
  Qed.
  Lemma sq_pad d n : forallb f (c_indent d) = true -> sq (pad d n) = [].
  Proof.
    intros H. unfold pad. induction n; [reflexivity|]. cbn [repeat concat]. rewrite sq_app, IHn, (sq_nil _ H). reflexivity.
  Qed.
  Lemma sq_newline d n : forallb f (c_indent d) = true -> sq (newline d n) = [].
  Proof. intros H. unfold newline. rewrite sq_app, sq_pad by exact H. cbn. now rewrite F10. Qed.

  Lemma sq_seq o a s l cl a' s' l' ts ts' :
    sq a = sq a' -> sq s = sq s' -> sq l = sq l' -> Forall2 (fun t t' => sq t = sq t') ts ts' ->
    sq (seq_text o a s l cl ts) = sq (seq_text o a' s' l' cl ts').
  Proof.
    intros A S L H. unfold seq_text. destruct H as [|t t' ts ts' E H]; [reflexivity|].
    assert (M : sq (flat_map (fun t => s ++ t) ts) = sq (flat_map (fun t => s' ++ t) ts')).
    { induction H as [|x x' ts ts' E' _ IH]; [reflexivity|]. cbn [flat_map]. rewrite !sq_app. congruence. }
    rewrite !sq_app. congruence.
  Qed.
  Lemma sq_space : sq [32] = [].
  Proof. cbn. now rewrite F32. Qed.
  Lemma sq_arr k k' n n' ts ts' :
    Forall2 (fun t t' => sq t = sq t') ts ts' -> sq (arr_text c k n ts) = sq (arr_text c' k' n' ts').
  Proof.
    intros H. unfold arr_text.
    assert (E : sq (lit ", ") = sq [44]) by (cbn; rewrite F32; reflexivity).
    destruct k, k'; apply sq_seq; auto; rewrite ?sq_app, ?sq_newline, ?app_nil_r by assumption; auto.
  Qed.
  Lemma sq_obj k k' n n' ts ts' :
    f 44 = true \/ k = k' ->
    Forall2 (fun t t' => sq (fst t) = sq (fst t') /\ sq (snd t) = sq (snd t')) ts ts' ->
    sq (obj_text c k n ts) = sq (obj_text c' k' n' ts').
  Proof.
    intros K H. unfold obj_text.
    assert (M : Forall2 (fun t t' => sq t = sq t') (map (fun p : str * str => fst p ++ lit " = " ++ snd p) ts)
                  (map (fun p : str * str => fst p ++ lit " = " ++ snd p) ts')).
    { clear K. induction H as [|x x' ts ts' [E1 E2] _ IH]; cbn [map]; constructor; auto. rewrite !sq_app. rewrite E1, E2. reflexivity. }
    destruct K as [K|<-].
    - assert (E : sq (lit ", ") = []) by (cbn; rewrite F32, K; reflexivity).
      destruct k, k'; apply sq_seq; auto; rewrite ?sq_newline, ?sq_space by assumption; auto.
    - destruct k; apply sq_seq; auto; rewrite ?sq_newline by assumption; auto.
  Qed.
  Lemma sq_key s : sq (str_key u c s) = sq (str_key u c' s).
  Proof.
    unfold str_key. destruct FK as [K| ->]; [|reflexivity].
    destruct (is_ident u s) eqn:I; [|now rewrite !andb_false_r]. rewrite !andb_true_r.
    assert (E : sq (fquoted s) = sq s).
    { rewrite name_quoted by now apply (ident_chars u). rewrite !sq_app.
      replace (sq [34]) with (@nil N) by (cbn; now rewrite K). now rewrite app_nil_r. }
    destruct (c_ident_keys c), (c_ident_keys c'); congruence.
  Qed.
  Lemma sq_indented n n' s : sq (indented c n s) = sq (indented c' n' s).
  Proof.
    unfold indented. rewrite !sq_app. f_equal. destruct (lines s) as [|l ls]; [reflexivity|].
    rewrite !sq_app, !sq_pad by assumption. rewrite !app_nil_l. f_equal.
    induction ls as [|l' ls IH]; [reflexivity|]. cbn [flat_map]. rewrite !sq_app, IH, !sq_pad by assumption. reflexivity.
  Qed.
  Lemma sq_tpl n n' t : sq (tplexpr_text c n t) = sq (tplexpr_text c' n' t).
  Proof.
    destruct t as [s|d s m]; [reflexivity|]. cbn [tplexpr_text]. rewrite !sq_app. do 5 f_equal.
    destruct m; [reflexivity|]. apply sq_indented.
  Qed.

  Theorem sq_expr e : forall k k' n n',
    f 44 = true \/ (c_objects c = c_objects c' /\ k = k') -> sq (show u sf c k n e) = sq (show u sf c' k' n' e).
  Proof.
    induction e as [|b|x|s|l IH|m IH|t|x|e ops IH IHo|fn args ex IH|e IH|a b d Ia Ib Id|o e IH|l o r IHl IHr
                   |kv vv coll key val g cond Ic Ik Iv Id] using expr_ind'; intros k k' n n' K; cbn [show]; auto.
    - apply sq_arr. apply Forall2_map_self. eapply Forall_impl; [|exact IH]. intros x Hx. now apply Hx.
    - apply sq_obj.
      + destruct K as [K|[K1 K2]]; [now left|right; congruence].
      + apply Forall2_map_self. eapply Forall_impl; [|exact IH]. intros [key x] [Hk Hx]. cbn [fst snd] in *.
        split; [|now apply Hx]. destruct key as [s|e]; [reflexivity|]. destruct e; try (now apply Hk). apply sq_key.
    - apply sq_tpl.
    - rewrite !sq_app. f_equal; [now apply IH|]. clear IH.
      induction IHo as [|o ops Ho _ IH]; [reflexivity|]. cbn [map concat]. rewrite !sq_app. f_equal; [|exact IH].
      destruct o as [| |s|i|i]; try reflexivity. rewrite !sq_app. do 2 f_equal. now apply Ho.
    - rewrite !sq_app. aps.
      assert (KT : f 44 = true \/ c_objects c = c_objects c' /\ true = true) by (destruct K as [K|[K _]]; auto).
      assert (A : Forall (fun x => sq (show u sf c true n x) = sq (show u sf c' true n' x)) args)
        by (eapply Forall_impl; [|exact IH]; intros x Hx; now apply Hx).
      unfold args_text. destruct A as [|x l E A]; [reflexivity|]. cbn [map]. rewrite !sq_app. ap; [exact E|].
      clear IH; induction A as [|y l' E' _ IHl]; [reflexivity|]. cbn [map flat_map]. rewrite !sq_app. aps; [exact E'|exact IHl].
    - rewrite !sq_app. aps. now apply IH.
    - assert (KT : f 44 = true \/ c_objects c = c_objects c' /\ true = true) by (destruct K as [K|[K _]]; auto).
      rewrite !sq_app. rewrite (Ia true true n n' KT), (Ib true true n n' KT), (Id true true n n' KT). reflexivity.
    - rewrite !sq_app. aps. now apply IH.
    - rewrite !sq_app. rewrite (IHl k k' n n' K), (IHr k k' n n' K). reflexivity.
    - cbn zeta. rewrite !sq_app, (Ic k k' n n' K), (Iv k k' n n' K).
      aps; [destruct key; [|reflexivity]; rewrite !sq_app; aps; now apply Ik|].
      destruct cond; [|reflexivity]. rewrite !sq_app. aps. now apply Id.
  Qed.

  Theorem sq_value v : forall k k' n n',
    f 44 = true \/ (c_objects c = c_objects c' /\ k = k') -> sq (show_value u sf c k n v) = sq (show_value u sf c' k' n' v).
  Proof.
    induction v as [|b|x|s|l IH|m IH] using value_ind'; intros k k' n n' K; cbn [show_value]; auto.
    - apply sq_arr. apply Forall2_map_self. eapply Forall_impl; [|exact IH]. intros x Hx. now apply Hx.
    - apply sq_obj.
      + destruct K as [K|[K1 K2]]; [now left|right; congruence].
      + apply Forall2_map_self. eapply Forall_impl; [|exact IH]. intros [key x] Hx. cbn [fst snd] in *.
        split; [|now apply Hx]. apply sq_key.
  Qed.

  Lemma sq_gap st st' s : sq (gap c st s) = sq (gap c' st' s).
  Proof.
    assert (E : forall d st s, sq (gap d st s) = []).
    { intros d t x. unfold gap. destruct (newline_between d t (before_struct x)); cbn; [|reflexivity]. now rewrite F10. }
    now rewrite !E.
  Qed.
  Lemma sq_body_text g g' b st st' :
    Forall (fun s => sq (g s) = sq (g' s)) b -> sq (body_text c g st b) = sq (body_text c' g' st' b).
  Proof.
    intros H. revert st st'. induction H as [|s b E _ IH]; intros st st'; [reflexivity|]. cbn [body_text].
    rewrite !sq_app, (sq_gap st st'), E. aps. apply IH.
  Qed.
  Theorem sq_struct s : forall k k' n n',
    f 44 = true \/ (c_objects c = c_objects c' /\ k = k') -> sq (show_struct u sf c k n s) = sq (show_struct u sf c' k' n' s).
  Proof.
    induction s as [key e|i ls b IH] using struct_ind'; intros k k' n n' K; cbn [show_struct];
      rewrite !sq_app, !sq_pad by assumption.
    - aps. now apply sq_expr.
    - aps. apply sq_body_text. eapply Forall_impl; [|exact IH]. intros s Hs. now apply Hs.
  Qed.
  Theorem sq_body b k k' n n' st st' :
    f 44 = true \/ (c_objects c = c_objects c' /\ k = k') ->
    sq (show_body u sf c k n st b) = sq (show_body u sf c' k' n' st' b).
  Proof. intros K. apply sq_body_text, Forall_forall. intros s _. now apply sq_struct. Qed.
End Two.

(** ** One line *)
Section Lines.
  Context (u : unicode) (sf : f64 -> str) (c : cfg).
  Hypothesis HU : EatLeaf.ascii_exact u.
  Hypothesis HF : forall x, ~ In 10 (sf x).
  Notation flat s := (~ In 10 s).

  Lemma flat_app s t : flat (s ++ t) <-> flat s /\ flat t.
  Proof. rewrite in_app_iff. tauto. Qed.
  Lemma flat_concat l : Forall (fun s => flat s) l -> flat (concat l).
  Proof. induction 1; cbn; [tauto|]. rewrite flat_app. auto. Qed.
  Lemma fesc_flat x : flat (fesc x).
  Proof.
    unfold fesc.
    repeat match goal with |- context [x =? ?n] => destruct (N.eqb_spec x n); [cbn; intuition discriminate|] end.
    destruct (N.leb_spec x 31); [|cbn; intuition congruence].
    assert (G : forall y, y < 16 -> hex_lower y <> 10).
    { intros y Hy. unfold hex_lower. destruct (N.ltb_spec y 10); lia. }
    assert (x / 16 < 16) by (apply N.div_lt_upper_bound; lia).
    assert (x mod 16 < 16) by (apply N.mod_lt; lia).
    cbn [In]. intros [E|[E|[E|[E|[E|[E|[]]]]]]]; try discriminate; [exact (G _ H0 E)|exact (G _ H1 E)].
  Qed.
  Lemma fescaped_flat s : flat (fescaped s).
  Proof.
    unfold fescaped. induction (escape_markers s) as [|x l IH]; [tauto|]. cbn [flat_map].
    rewrite flat_app. split; [apply fesc_flat|exact IH].
  Qed.
  Lemma fquoted_flat s : flat (fquoted s).
  Proof. unfold fquoted. rewrite !flat_app. pose proof (fescaped_flat s). cbn. intuition discriminate. Qed.
  Lemma digits_flat s : forallb is_digit s = true -> flat s.
  Proof. rewrite forallb_forall. intros H I. specialize (H _ I). discriminate. Qed.
  Lemma num_flat x : flat (fshow_num sf x).
  Proof.
    unfold fshow_num, EncModel.show_num, show_Z.
    destruct x as [z|z|y]; [| |apply HF]; (destruct (BinInt.Z.ltb z BinNums.Z0); [cbn [In]; intros [E|E]; [discriminate|]; revert E|]);
      apply digits_flat, show_N_digits.
  Qed.
  Lemma name_flat s : Forall name_char s -> flat s.
  Proof. rewrite Forall_forall. intros H I. specialize (H _ I). unfold name_char in H. lia. Qed.
  Lemma key_flat s : flat (str_key u c s).
  Proof.
    unfold str_key. destruct (c_ident_keys c); cbn [andb]; [|apply fquoted_flat].
    destruct (is_ident u s) eqn:I; [|apply fquoted_flat]. apply name_flat. eapply ident_chars; eauto.
  Qed.
  Lemma fname_flat f : Forall (fun s => flat s) (fn_namespace f) -> flat (fn_name f) -> flat (fname_str f).
  Proof.
    intros A B. unfold fname_str. rewrite flat_app. split; [|exact B]. rewrite flat_map_concat_map. apply flat_concat.
    rewrite Forall_map. eapply Forall_impl; [|exact A]. intros x Hx. rewrite flat_app. split; [exact Hx|].
    cbn; intuition discriminate.
  Qed.
  Lemma binop_flat o : flat (binop_str o).
  Proof. destruct o; cbn; intuition discriminate. Qed.
  Lemma unop_flat o : flat (unop_str o).
  Proof. destruct o; cbn; intuition discriminate. Qed.

  Lemma seq_flat o a s l cl ts :
    flat o -> flat a -> flat s -> flat l -> flat cl -> Forall (fun t => flat t) ts -> flat (seq_text o a s l cl ts).
  Proof.
    intros O A S L C H. unfold seq_text. destruct H as [|t ts E H]; rewrite !flat_app; [cbn [In]; tauto|].
    repeat split; auto. rewrite flat_map_concat_map. apply flat_concat. rewrite Forall_map.
    eapply Forall_impl; [|exact H]. intros x Hx. now rewrite flat_app.
  Qed.
  Ltac lf := cbn; intuition discriminate.
  Ltac fl := rewrite ?flat_app; repeat split; auto; try lf.

  (** [all]: nothing is printed on several lines, at any place. *)
  Theorem show_flat e : forall k n,
    c_arrays c || k = true -> c_objects c || k = true -> unbroken e -> flat (show u sf c k n e).
  Proof.
    unfold unbroken.
    induction e as [|b|x|s|l IH|m IH|t|x|e ops IH IHo|fn args ex IH|e IH|a b d Ia Ib Id|o e IH|l o r IHl IHr
                   |kv vv coll key val g cond Ic Ik Iv Id] using expr_ind'; intros k n KA KO U; cbn [show verbatim] in *.
    - lf.
    - destruct b; lf.
    - apply num_flat.
    - apply fquoted_flat.
    - rewrite KA. unfold arr_text. apply Forall_flat_map in U.
      apply seq_flat; try lf. rewrite Forall_map. apply (Forall_two _ _ _ _ IH U). auto.
    - rewrite KO. unfold obj_text. apply Forall_flat_map in U.
      apply seq_flat; try lf. rewrite !Forall_map. apply (Forall_two _ _ _ _ IH U).
      intros [key x] [Hk Hx] V. cbn [fst snd] in *. apply Forall_app in V as [V1 V2]. fl.
      destruct key as [s|e]; [now inversion V1|]. destruct e; auto; try (now apply Hk). apply key_flat.
    - destruct t as [s|d s m]; inversion U as [|? ? H1 H2]; [|cbn in H1; tauto].
      unfold tplexpr_text, fraw. fl.
    - now inversion U.
    - apply Forall_app in U as [U1 U2]. fl. apply flat_concat. rewrite Forall_map. apply Forall_flat_map in U2.
      apply (Forall_two _ _ _ _ IHo U2). intros [| |s|i|i] Hi V; try lf; fl.
      + now inversion V.
      + apply digits_flat, show_N_digits.
    - rewrite !Forall_app in U. destruct U as [U1 [U2 U3]]. inversion U2; subst. fl.
      + now apply fname_flat.
      + apply Forall_flat_map in U3.
        assert (A : Forall (fun x => flat (show u sf c true n x)) args).
        { apply (Forall_two _ _ _ _ IH U3). intros x Hx V. apply Hx; auto using orb_true_r. }
        destruct A as [|x l Hx A]; [tauto|]. cbn [map args_text]. fl. rewrite flat_map_concat_map. apply flat_concat.
        rewrite !Forall_map. eapply Forall_impl; [|exact A]. intros y Hy. fl.
      + destruct ex; lf.
    - fl.
    - rewrite !Forall_app in U. destruct U as [U1 [U2 U3]].
      fl; [apply Ia|apply Ib|apply Id]; auto using orb_true_r.
    - fl. apply unop_flat.
    - rewrite !Forall_app in U. destruct U as [U1 U2]. fl. apply binop_flat.
    - cbn zeta. rewrite !Forall_app in U. destruct U as [U1 [U2 [U3 [U4 [U5 U6]]]]]. inversion U2; subst.
      fl; auto.
      + destruct key; lf.
      + destruct kv; [inversion U1; subst; fl|cbn; tauto].
      + destruct key; [fl|cbn; tauto].
      + destruct (_ && _); lf.
      + destruct cond; [fl|cbn; tauto].
      + destruct key; lf.
  Qed.

  (** ** Depth *)
  Lemma reindent_app p s t : reindent p (s ++ t) = reindent p s ++ reindent p t.
  Proof. apply flat_map_app. Qed.
  Lemma reindent_flat p s : flat s -> reindent p s = s.
  Proof.
    intros H. induction s as [|x s IH]; [reflexivity|]. cbn [reindent flat_map].
    destruct (N.eqb_spec x 10) as [E|_]; [exfalso; apply H; left; congruence|]. cbn [app]. f_equal. apply IH.
    intros I. apply H. now right.
  Qed.
  Lemma reindent_twice p q s : flat p -> reindent q (reindent p s) = reindent (q ++ p) s.
  Proof.
    intros P. induction s as [|x s IH]; [reflexivity|].
    change (reindent q (reindent p ([x] ++ s)) = reindent (q ++ p) ([x] ++ s)).
    rewrite !reindent_app, IH. ap; [|reflexivity].
    assert (S : forall p, reindent p [x] = if x =? 10 then 10 :: p else [x]) by (intros; cbn; apply app_nil_r).
    rewrite !S. destruct (N.eqb_spec x 10) as [E|E].
    - change (10 :: p) with ([10] ++ p). rewrite reindent_app, (reindent_flat q p) by exact P. cbn. now rewrite app_nil_r.
    - rewrite S. destruct (N.eqb_spec x 10); [contradiction|reflexivity].
  Qed.
  Lemma reindent_concat p l : reindent p (concat l) = concat (map (reindent p) l).
  Proof. induction l; cbn [concat map]; [reflexivity|]. now rewrite reindent_app, IHl. Qed.
  Lemma pad_snoc n : pad c n ++ c_indent c = pad c (S n).
  Proof.
    unfold pad. induction n; [cbn; now rewrite app_nil_r|]. cbn [repeat concat] in *. now rewrite <- app_assoc, IHn.
  Qed.

  Hypothesis HI : flat (c_indent c).
  Lemma pad_flat n : flat (pad c n).
  Proof. unfold pad. apply flat_concat. apply Forall_forall. intros x Hx. apply repeat_spec in Hx. now subst. Qed.
  Lemma reindent_newline n m : reindent (pad c n) (newline c m) = newline c (n + m).
  Proof.
    unfold newline. rewrite reindent_app. cbn [reindent flat_map N.eqb app]. fold (reindent (pad c n) (pad c m)).
    rewrite reindent_flat by apply pad_flat. cbn. rewrite app_nil_r. f_equal.
    unfold pad. now rewrite repeat_app, concat_app.
  Qed.
  Lemma reindent_seq p o a s l cl ts :
    reindent p (seq_text o a s l cl ts)
    = seq_text (reindent p o) (reindent p a) (reindent p s) (reindent p l) (reindent p cl) (map (reindent p) ts).
  Proof.
    unfold seq_text. destruct ts as [|t ts]; rewrite !reindent_app; [reflexivity|].
    cbn [map]. aps.
    rewrite flat_map_concat_map, reindent_concat, map_map, flat_map_map, flat_map_concat_map. f_equal.
    apply map_ext. intros x. apply reindent_app.
  Qed.
  Lemma seq_ext o a s l cl a' s' l' ts ts' :
    a = a' -> s = s' -> l = l' -> ts = ts' -> seq_text o a s l cl ts = seq_text o a' s' l' cl ts'.
  Proof. intros; now subst. Qed.

  (** The text at depth [n + m] is the text at depth [m], each line but the first shifted by [n]. *)
  Theorem show_depth e : forall k n m, unbroken e -> show u sf c k (n + m)%nat e = reindent (pad c n) (show u sf c k m e).
  Proof.
    unfold unbroken.
    induction e as [|b|x|s|l IH|mm IH|t|x|e ops IH IHo|fn args ex IH|e IH|a b d Ia Ib Id|o e IH|l o r IHl IHr
                   |kv vv coll key val g cond Ic Ik Iv Id] using expr_ind'; intros k n m U; cbn [show verbatim] in *;
      rewrite ?reindent_app.
    - reflexivity.
    - destruct b; reflexivity.
    - symmetry. apply reindent_flat, num_flat.
    - symmetry. apply reindent_flat, fquoted_flat.
    - apply Forall_flat_map in U. unfold arr_text. destruct (c_arrays c || k); rewrite reindent_seq.
      + apply seq_ext; try reflexivity. rewrite map_map. apply map_ext_in. intros x Hx. cbn [deeper].
        rewrite Forall_forall in IH, U. auto.
      + apply seq_ext; rewrite ?reindent_app, ?reindent_newline; try (rewrite ?Nat.add_succ_r; reflexivity).
        rewrite map_map. apply map_ext_in. intros x Hx. cbn [deeper]. rewrite <- Nat.add_succ_r.
        rewrite Forall_forall in IH, U. auto.
    - apply Forall_flat_map in U.
      assert (K : forall N0 M0 p, N0 = (n + M0)%nat -> In p mm ->
        fst (match fst p with KIdent s => s | KExpr (EStr s) => str_key u c s | KExpr e => show u sf c k N0 e end, show u sf c k N0 (snd p)) ++ lit " = " ++
        snd (match fst p with KIdent s => s | KExpr (EStr s) => str_key u c s | KExpr e => show u sf c k N0 e end, show u sf c k N0 (snd p))
        = reindent (pad c n)
       (fst (match fst p with KIdent s => s | KExpr (EStr s) => str_key u c s | KExpr e => show u sf c k M0 e end, show u sf c k M0 (snd p)) ++ lit " = " ++
        snd (match fst p with KIdent s => s | KExpr (EStr s) => str_key u c s | KExpr e => show u sf c k M0 e end, show u sf c k M0 (snd p)))).
      { intros N0 M0 [key x] -> Hp. rewrite Forall_forall in IH, U. specialize (IH _ Hp). specialize (U _ Hp).
        cbn [fst snd] in *. destruct IH as [Hk Hx]. apply Forall_app in U as [U1 U2].
        rewrite !reindent_app. ap; [|ap; [reflexivity|now apply Hx]].
        destruct key as [s|e]; [inversion U1; symmetry; now apply reindent_flat|].
        destruct e; try (now apply Hk). symmetry. apply reindent_flat, key_flat. }
      unfold obj_text. destruct (c_objects c || k); rewrite reindent_seq.
      + apply seq_ext; try reflexivity. rewrite !map_map. apply map_ext_in. intros p Hp. now apply K.
      + apply seq_ext; rewrite ?reindent_app, ?reindent_newline; try (rewrite ?Nat.add_succ_r; reflexivity).
        rewrite !map_map. apply map_ext_in. intros p Hp. apply K; [|exact Hp]. cbn [deeper]. lia.
    - destruct t as [s|d s md]; inversion U as [|? ? H1 H2]; [|cbn in H1; tauto].
      unfold tplexpr_text, fraw. symmetry. apply reindent_flat. fl.
    - inversion U. symmetry. now apply reindent_flat.
    - apply Forall_app in U as [U1 U2]. ap; [now apply IH|]. rewrite reindent_concat, map_map. f_equal.
      apply map_ext_in. intros o Ho. apply Forall_flat_map in U2. rewrite Forall_forall in IHo, U2.
      specialize (IHo _ Ho). specialize (U2 _ Ho).
      destruct o as [| |s|i|i]; cbn [trop_all] in *; try reflexivity; rewrite ?reindent_app.
      + inversion U2. now rewrite (reindent_flat _ s).
      + aps. now apply IHo.
      + rewrite (reindent_flat _ (show_N i)) by (apply digits_flat, show_N_digits). reflexivity.
    - rewrite !Forall_app in U. destruct U as [U1 [U2 U3]]. inversion U2; subst.
      rewrite (reindent_flat _ (fname_str fn)) by now apply fname_flat.
      rewrite (reindent_flat _ (if ex then _ else _)) by (destruct ex; lf). aps.
      apply Forall_flat_map in U3.
      assert (A : map (show u sf c true (n + m)) args = map (reindent (pad c n)) (map (show u sf c true m) args)).
      { rewrite map_map. apply map_ext_in. intros x Hx. rewrite Forall_forall in IH, U3. auto. }
      rewrite A. destruct (map (show u sf c true m) args) as [|t ts]; [reflexivity|]. cbn [map args_text].
      rewrite reindent_app. ap; [reflexivity|].
      rewrite flat_map_map, !flat_map_concat_map, reindent_concat, map_map. reflexivity.
    - aps. now apply IH.
    - rewrite !Forall_app in U. destruct U as [U1 [U2 U3]]. rewrite (Ia true n m), (Ib true n m), (Id true n m) by assumption. reflexivity.
    - rewrite (reindent_flat _ (unop_str o)) by apply unop_flat. aps. now apply IH.
    - rewrite !Forall_app in U. destruct U as [U1 U2]. rewrite (IHl k n m), (IHr k n m) by assumption.
      now rewrite (reindent_flat _ (binop_str o)) by apply binop_flat.
    - cbn zeta. rewrite !Forall_app in U. destruct U as [U1 [U2 [U3 [U4 [U5 U6]]]]]. inversion U2; subst.
      rewrite (reindent_flat _ (if match key with Some _ => true | None => false end then lit "{" else lit "[")) by (destruct key; lf).
      rewrite (reindent_flat _ (if match key with Some _ => true | None => false end then lit "}" else lit "]")) by (destruct key; lf).
      rewrite (reindent_flat _ (if _ && g then _ else _)) by (destruct (_ && _); lf).
      rewrite (reindent_flat _ vv) by assumption.
      rewrite (reindent_flat _ (match kv with Some x => x ++ lit ", " | None => [] end))
        by (destruct kv; [inversion U1; subst; fl|cbn; tauto]).
      rewrite (Ic k n m), (Iv k n m) by assumption.
      aps; [destruct key; [|reflexivity]|destruct cond; [|reflexivity]]; rewrite reindent_app; aps; auto.
  Qed.
End Lines.

Section TwoTemplates.
  Context (u : unicode) (sf : f64 -> str) (c c' : cfg) (f : chr -> bool).
  Hypothesis HU : EatLeaf.ascii_exact u.
  Hypothesis F32 : f 32 = true.
  Hypothesis F10 : f 10 = true.
  Hypothesis Fi : forallb f (c_indent c) = true.
  Hypothesis Fi' : forallb f (c_indent c') = true.
  Hypothesis FK : f 34 = true \/ c_ident_keys c = c_ident_keys c'.
  Hypothesis FO : f 44 = true \/ c_objects c = c_objects c'.
  Notation sq := (squash f).

  Lemma FO' k : f 44 = true \/ (c_objects c = c_objects c' /\ k = k :> bool).
  Proof. destruct FO; auto. Qed.
  Lemma sq_wrap s t t' : sq t = sq t' -> sq (interp_text s t) = sq (interp_text s t').
  Proof. intros E. unfold interp_text, strip_text. rewrite !sq_app. aps. exact E. Qed.
  Lemma sq_directive s t t' : sq t = sq t' -> sq (directive_text s t) = sq (directive_text s t').
  Proof. intros E. unfold directive_text, strip_text. rewrite !sq_app. aps. exact E. Qed.
  Lemma sq_elem e k n n' : sq (show_elem u sf c k n e) = sq (show_elem u sf c' k n' e).
  Proof.
    assert (M : forall l, Forall (fun e => sq (show_elem u sf c k n e) = sq (show_elem u sf c' k n' e)) l ->
      sq (concat (map (show_elem u sf c k n) l)) = sq (concat (map (show_elem u sf c' k n') l))).
    { induction 1 as [|x l E _ IH]; [reflexivity|]. cbn [map concat]. rewrite !sq_app. aps; assumption. }
    pose proof (fun e => sq_expr u sf c c' f HU F32 F10 Fi Fi' FK e k k n n' (FO' k)) as S.
    induction e as [s|e s|a t g s1 s2 s3 It If|kv vv coll t s1 s2 It] using elem_ind'; cbn [show_elem].
    - reflexivity.
    - apply sq_wrap, S.
    - rewrite !sq_app. ap; [apply sq_directive; rewrite !sq_app; aps; apply S|]. ap; [now apply M|]. aps.
      destruct g as [t'|]; [|reflexivity]. rewrite !sq_app. aps. now apply M.
    - rewrite !sq_app. ap; [apply sq_directive; rewrite !sq_app; aps; apply S|]. aps. now apply M.
  Qed.
  Theorem sq_job j : sq (text u sf c j) = sq (text u sf c' j).
  Proof.
    destruct j as [e|v|t|s|b]; cbn [text].
    - apply sq_expr; auto using FO'.
    - apply sq_value; auto using FO'.
    - unfold show_template. induction t as [|x l IH]; [reflexivity|]. cbn [map concat]. rewrite !sq_app.
      ap; [apply sq_elem|exact IH].
    - apply sq_struct; auto using FO'.
    - apply sq_body; auto using FO'.
  Qed.
End TwoTemplates.

(** ** Reuse *)
Section Reuse.
  Context (u : unicode) (sf : f64 -> str) (c : cfg).
  Definition idle (s : fstate) : fmt := Fmt [] s false 0 false 0 [].
  Definition final (st : fstate) (l : list struct_) : fstate := fold_left (fun _ s => after_struct s) l st.

  Definition job_text (st : fstate) (j : job) : str :=
    match j with
    | JExpr e => show u sf c false 0 e
    | JValue v => show_value u sf c false 0 v
    | JTemplate t => show_template u sf c false 0 t
    | JStruct s => gap c st s ++ show_struct u sf c false 0 s
    | JBody b => show_body u sf c false 0 st b
    end.
  Lemma job_idle st j :
    format_string (fm_job u sf c j) (idle st) = Done (job_text st j, idle (final st (structs_of j))).
  Proof.
    unfold format_string, idle. destruct j as [e|v|t|s|b]; cbn [fm_job job_text structs_of].
    - now rewrite fm_expr_writes.
    - now rewrite fm_value_writes.
    - now rewrite fm_template_writes.
    - now rewrite fm_struct_moves.
    - now rewrite fm_body_moves.
  Qed.
  Lemma used_idle hist : forall st, used u sf c hist (idle st) = Done (idle (final st (flat_map structs_of hist))).
  Proof.
    induction hist as [|j hist IH]; intros st; [reflexivity|]. cbn [used flat_map]. rewrite job_idle. cbn [rbind snd].
    rewrite IH. unfold final. now rewrite fold_left_app.
  Qed.
  Lemma final_last l : forall st, final st l = match last (map Some l) None with Some s => after_struct s | None => st end.
  Proof.
    induction l as [|s l IH] using rev_ind; intros st; [reflexivity|]. unfold final. rewrite fold_left_app. cbn [fold_left].
    rewrite map_app. cbn [map]. rewrite last_last. reflexivity.
  Qed.
  Lemma fresh_text j : format_fresh (fm_job u sf c j) = Done (text u sf c j).
  Proof.
    unfold format_fresh. change fresh with (idle Initial). rewrite job_idle. cbn [rmap fst].
    destruct j; reflexivity.
  Qed.
  Lemma gap_last l s : gap c (after_struct l) s = if negb (c_dense c) && (is_block l || is_block s) then [10] else [].
  Proof. unfold gap. destruct l, s, c as [i [] a o p]; reflexivity. Qed.
  Theorem reuse hist j : exists st,
    used u sf c hist fresh = Done st /\
    rmap fst (format_string (fm_job u sf c j) st)
    = rmap (app (if separated c hist j then [10] else [])) (format_fresh (fm_job u sf c j)).
  Proof.
    exists (idle (final Initial (flat_map structs_of hist))). split; [apply used_idle|].
    rewrite fresh_text, job_idle. cbn [rmap fst]. f_equal. rewrite final_last. unfold separated.
    destruct (last (map Some (flat_map structs_of hist)) None) as [l|].
    - destruct j as [e|v|t|s|b]; cbn [structs_of job_text text]; try reflexivity.
      + now rewrite gap_last.
      + destruct b as [|s b]; [reflexivity|]. unfold show_body. cbn [body_text].
        rewrite gap_last. reflexivity.
    - destruct j as [e|v|t|s|b]; reflexivity.
  Qed.
End Reuse.

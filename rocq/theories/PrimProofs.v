(** Proofs about identifiers, operators and template markers. *)
From Coq Require Import NArith Bool Ascii String List Lia.
From Verif Require Import Str PrimModel.
Import ListNotations.
Open Scope N_scope.

(** ** Identifiers *)

(** What the theorems need of the Unicode tables: XID_Start is included in XID_Continue and the
    underscore is XID_Continue (both hold of every Unicode version). *)
Definition xid_tables_ok (u : unicode) : Prop :=
  (forall c, xid_start u c = true -> xid_continue u c = true) /\ xid_continue u 95 = true.

(** Specification: start character followed by continue characters. *)
Definition valid_ident (u : unicode) (s : str) : Prop :=
  exists c r, s = c :: r /\ (xid_start u c = true \/ c = 95) /\
    (forall d, In d r -> xid_continue u d = true \/ d = 45).

Lemma is_ident_valid u s : is_ident u s = true <-> valid_ident u s.
Proof.
  unfold valid_ident. destruct s as [|c r]; cbn [is_ident].
  - split; [discriminate|]. intros (c & r & H & _). discriminate.
  - rewrite andb_true_iff, forallb_forall. unfold is_id_start, is_id_continue. split.
    + intros [H1 H2]. exists c, r. split; [reflexivity|]. split.
      * apply orb_true_iff in H1. rewrite N.eqb_eq in H1. exact H1.
      * intros d Hd. specialize (H2 d Hd). apply orb_true_iff in H2. rewrite N.eqb_eq in H2. exact H2.
    + intros (c' & r' & H & H1 & H2). injection H as <- <-. split.
      * apply orb_true_iff. rewrite N.eqb_eq. exact H1.
      * intros d Hd. apply orb_true_iff. rewrite N.eqb_eq. exact (H2 d Hd).
Qed.

Lemma sanitize_tail_ok u s : xid_tables_ok u -> forallb (is_id_continue u) (sanitize_tail u s) = true.
Proof.
  intros [_ U]. apply forallb_forall. intros c H. unfold sanitize_tail in H. apply in_map_iff in H.
  destruct H as (d & <- & _). destruct (is_id_continue u d) eqn:E; [exact E|].
  unfold is_id_continue. rewrite U. reflexivity.
Qed.

Lemma sanitize_tail_id u s : forallb (is_id_continue u) s = true -> sanitize_tail u s = s.
Proof.
  induction s as [|c s IH]; [reflexivity|]. cbn [forallb]. intros H. apply andb_true_iff in H.
  destruct H as [H1 H2]. cbn [sanitize_tail map]. rewrite H1. f_equal. apply IH. exact H2.
Qed.

Lemma sanitized_is_ident u s : xid_tables_ok u -> is_ident u (ident_new_sanitized u s) = true.
Proof.
  intros U. destruct s as [|c r]; cbn [ident_new_sanitized].
  - cbn [is_ident forallb]. unfold is_id_start. rewrite orb_true_r. reflexivity.
  - destruct (is_id_start u c) eqn:E1; [|destruct (is_id_continue u c) eqn:E2].
    + cbn [app is_ident]. rewrite E1. apply sanitize_tail_ok. exact U.
    + cbn [app is_ident forallb]. unfold is_id_start. rewrite orb_true_r, E2. apply sanitize_tail_ok. exact U.
    + cbn [app is_ident]. unfold is_id_start. rewrite orb_true_r. apply sanitize_tail_ok. exact U.
Qed.

Lemma sanitized_id u s : is_ident u s = true -> ident_new_sanitized u s = s.
Proof.
  destruct s as [|c r]; cbn [is_ident]; [discriminate|]. intros H. apply andb_true_iff in H.
  destruct H as [H1 H2]. cbn [ident_new_sanitized]. rewrite H1, sanitize_tail_id by exact H2. reflexivity.
Qed.

Lemma sanitized_length u s : s <> [] ->
  length (ident_new_sanitized u s) = length s \/
  (length (ident_new_sanitized u s) = S (length s) /\ hd 0 (ident_new_sanitized u s) = 95).
Proof.
  destruct s as [|c r]; [congruence|intros _]. cbn [ident_new_sanitized].
  unfold sanitize_tail. rewrite app_length, map_length.
  destruct (is_id_start u c); [left; reflexivity|].
  destruct (is_id_continue u c); [right; split; reflexivity|left; reflexivity].
Qed.

(** ** Operators *)
Lemma unop_round o : unop_from_str (unop_str o) = Some o.
Proof. destruct o; reflexivity. Qed.
Lemma binop_round o : binop_from_str (binop_str o) = Some o.
Proof. destruct o; reflexivity. Qed.
Lemma unop_from_inv s o : unop_from_str s = Some o -> s = unop_str o.
Proof.
  unfold unop_from_str. destruct (seqb s (lit "-")) eqn:E1.
  - apply seqb_eq in E1. intros H. injection H as <-. exact E1.
  - destruct (seqb s (lit "!")) eqn:E2; [|discriminate].
    apply seqb_eq in E2. intros H. injection H as <-. exact E2.
Qed.
Lemma binop_from_inv s o : binop_from_str s = Some o -> s = binop_str o.
Proof.
  unfold binop_from_str.
  repeat match goal with
  | |- (if seqb ?s ?l then _ else _) = _ -> _ =>
      let E := fresh "E" in destruct (seqb s l) eqn:E;
      [apply seqb_eq in E; intros H; injection H as <-; exact E|]
  end.
  discriminate.
Qed.

(** ** Template markers *)

(** Specification of how template text is read (HCL spec, "Templates"): [$${] and [%%{] stand for
    the two literal characters, [${] and [%{] start an interpolation or a directive, every other
    character is literal. *)
Inductive tok := TChar (c : chr) | TMarker (c : chr).
Fixpoint read_template (s : str) : list tok :=
  match s with
  | [] => []
  | c :: r =>
      match r with
      | [] => [TChar c]
      | c2 :: r2 =>
          if is_mark c && (c2 =? 123) then TMarker c :: read_template r2
          else
            match r2 with
            | c3 :: r3 =>
                if is_mark c && (c2 =? c) && (c3 =? 123)
                then TChar c :: TChar 123 :: read_template r3
                else TChar c :: read_template r
            | [] => TChar c :: read_template r
            end
      end
  end.

(** Runs of [$]/[%]: [R0] = not in a run, [R1] = odd length so far, [R2] = even length. *)
Inductive run := R0 | R1 | R2.
Definition run_next (st : run) (c : chr) : run :=
  if is_mark c then match st with R0 => R1 | R1 => R2 | R2 => R1 end else R0.
(** No run of even length directly before a [{]. *)
Fixpoint odd_runs (st : run) (s : str) : bool :=
  match s with
  | [] => true
  | c :: r => (match st with R2 => negb (c =? 123) | _ => true end) && odd_runs (run_next st c) r
  end.
(** The text from the first marker on. *)
Fixpoint from_first_marker (s : str) : str :=
  match s with
  | [] => []
  | c :: r =>
      match r with
      | c2 :: _ => if is_mark c && (c2 =? 123) then s else from_first_marker r
      | [] => []
      end
  end.
Definition escape_ok (s : str) : bool := odd_runs R0 (from_first_marker s).

Lemma mark_not_brace c : is_mark c = true -> (c =? 123) = false.
Proof. unfold is_mark. intros H. apply orb_true_iff in H. rewrite !N.eqb_eq in H. apply N.eqb_neq. lia. Qed.

Lemma read_plain c r : is_mark c = false -> read_template (c :: r) = TChar c :: read_template r.
Proof.
  intros H. cbn [read_template]. destruct r as [|c2 r2]; [reflexivity|]. rewrite H. cbn [andb].
  destruct r2; reflexivity.
Qed.

Lemma read_mark_esc c r : is_mark c = true ->
  read_template (c :: c :: 123 :: r) = TChar c :: TChar 123 :: read_template r.
Proof.
  intros H. cbn [read_template]. rewrite H, (mark_not_brace c H), N.eqb_refl. reflexivity.
Qed.

Lemma read_mark_other c c2 r : is_mark c = true -> c2 <> 123 ->
  (match r with c3 :: _ => c2 <> c \/ c3 <> 123 | [] => True end) ->
  read_template (c :: c2 :: r) = TChar c :: read_template (c2 :: r).
Proof.
  intros H H2 H3. cbn [read_template]. rewrite H.
  destruct (N.eqb_spec c2 123); [contradiction|]. cbn [andb].
  destruct r as [|c3 r3]; [reflexivity|].
  destruct (N.eqb_spec c2 c); cbn [andb]; [|reflexivity].
  destruct (N.eqb_spec c3 123); [|reflexivity].
  destruct H3; contradiction.
Qed.

Lemma map_TChar_inj a b : map TChar a = map TChar b -> a = b.
Proof.
  revert b. induction a as [|x a IH]; intros [|y b] H; try discriminate; [reflexivity|].
  injection H as -> H. f_equal. apply IH. exact H.
Qed.

Lemma escape_markers_cons c c2 r : escape_markers (c :: c2 :: r) =
  if is_mark c && (c2 =? 123) then escape_loop (c :: c2 :: r) else c :: escape_markers (c2 :: r).
Proof. reflexivity. Qed.

Lemma escape_loop_head s : hd_error (escape_loop s) = hd_error s.
Proof.
  destruct s as [|c r]; [reflexivity|]. cbn [escape_loop]. destruct (is_mark c); [|reflexivity].
  destruct r as [|c2 r']; [reflexivity|]. destruct (c2 =? 123); reflexivity.
Qed.

Lemma escape_markers_head s : hd_error (escape_markers s) = hd_error s.
Proof.
  destruct s as [|c r]; [reflexivity|]. cbn [escape_markers]. destruct r as [|c2 r']; [reflexivity|].
  destruct (is_mark c && (c2 =? 123)); [|reflexivity]. rewrite escape_loop_head. reflexivity.
Qed.

(** Output never starts with an unescaped marker. *)
Lemma escape_loop_second s c e2 r : escape_loop s = c :: e2 :: r -> is_mark c = true -> e2 <> 123.
Proof.
  destruct s as [|x s]; cbn [escape_loop]; [discriminate|]. destruct (is_mark x) eqn:M.
  - destruct s as [|x2 s']; [discriminate|]. destruct (N.eqb_spec x2 123) as [->|Nx].
    + intros H _. injection H as <- <- _. intros ->. discriminate M.
    + intros H _. injection H as <- <- _. exact Nx.
  - intros H Hc. injection H as -> _. congruence.
Qed.

Lemma odd_runs_R2 s : odd_runs R2 s = match s with 123 :: _ => false | _ => odd_runs R0 s end.
Proof.
  destruct s as [|c r]; [reflexivity|]. cbn [odd_runs andb].
  destruct (N.eqb_spec c 123) as [->|Nc]; cbn [negb andb]; [reflexivity|].
  assert (E : run_next R2 c = run_next R0 c) by (unfold run_next; destruct (is_mark c); reflexivity).
  rewrite E. destruct c as [|p]; [reflexivity|].
  repeat (destruct p as [p|p|]; try reflexivity). congruence.
Qed.

Lemma brace_dec (s : str) : (exists r, s = 123 :: r) \/ (hd_error s <> Some 123).
Proof.
  destruct s as [|c r]; [right; discriminate|]. destruct (N.eq_dec c 123) as [->|N].
  - left. exists r. reflexivity.
  - right. cbn. congruence.
Qed.

Lemma odd_runs_R2_brace s r : s = 123 :: r -> odd_runs R2 s = false.
Proof. intros ->. reflexivity. Qed.
Lemma odd_runs_R2_other s : hd_error s <> Some 123 -> odd_runs R2 s = odd_runs R0 s.
Proof.
  intros H. destruct s as [|c r]; [reflexivity|]. cbn [odd_runs andb].
  destruct (N.eqb_spec c 123) as [->|Nc]; [exfalso; apply H; reflexivity|]. cbn [negb andb].
  unfold run_next. destruct (is_mark c); reflexivity.
Qed.

Lemma read_cons_head c E : is_mark c = true -> hd_error E <> Some 123 ->
  (forall x e2 r, E = x :: e2 :: r -> x = c -> e2 <> 123) ->
  read_template (c :: E) = TChar c :: read_template E.
Proof.
  intros M H1 H2. destruct E as [|x E]; [reflexivity|].
  apply read_mark_other; [exact M|cbn in H1; congruence|].
  destruct E as [|y E]; [exact I|]. destruct (N.eq_dec x c) as [->|Nx]; [right|left; exact Nx].
  apply (H2 c y E); reflexivity.
Qed.

Lemma escape_loop_correct s : odd_runs R0 s = true <-> read_template (escape_loop s) = map TChar s.
Proof.
  remember (length s) as n eqn:E. revert s E.
  induction n as [n IH] using (well_founded_induction Wf_nat.lt_wf). intros s ->.
  assert (IH' : forall t, (length t < length s)%nat ->
    (odd_runs R0 t = true <-> read_template (escape_loop t) = map TChar t)) by (intros t Ht; eapply IH; eauto).
  clear IH. destruct s as [|c r]; [cbn; tauto|].
  destruct (is_mark c) eqn:M.
  2: { cbn [escape_loop odd_runs map]. rewrite M, read_plain by exact M.
       unfold run_next. rewrite M. cbn [andb]. rewrite IH' by (cbn; lia). split; intros H; [congruence|].
       injection H as H. exact H. }
  destruct r as [|c2 r].
  { cbn. unfold run_next. rewrite M. tauto. }
  assert (RN : run_next R0 c = R1) by (unfold run_next; rewrite M; reflexivity).
  cbn [escape_loop odd_runs map]. rewrite M, RN. cbn [andb].
  destruct (N.eqb_spec c2 123) as [->|N2].
  - rewrite read_mark_esc by exact M. change (run_next R1 123) with R0. rewrite IH' by (cbn; lia). split; intros H; [congruence|].
    injection H as H. exact H.
  - unfold run_next. destruct (is_mark c2) eqn:M2.
    + destruct (brace_dec r) as [[r' ->]|NB].
      * cbn [odd_runs N.eqb Pos.eqb negb andb]. split; [discriminate|].
        cbn [escape_loop is_mark N.eqb Pos.eqb orb]. cbn [read_template].
        rewrite M, M2. destruct (N.eqb_spec c2 123); [contradiction|]. cbn [andb].
        change (123 =? 123) with true. rewrite andb_true_r.
        destruct (N.eqb_spec c2 c) as [->|]; cbn [map]; intros H; [|discriminate].
        injection H as H _. congruence.
      * rewrite odd_runs_R2_other by exact NB. rewrite IH' by (cbn; lia).
        assert (NB' : hd_error (escape_loop r) <> Some 123) by (rewrite escape_loop_head; exact NB).
        rewrite (read_cons_head c); [|exact M|cbn; congruence|].
        2: { intros x e2 t Ht _. injection Ht as _ Ht. rewrite Ht in NB'. cbn in NB'. congruence. }
        rewrite (read_cons_head c2); [|exact M2|exact NB'|].
        2: { intros x e2 t Ht ->. exact (escape_loop_second r c2 e2 t Ht M2). }
        split; intros H; [congruence|]. injection H as H. exact H.
    + rewrite (read_cons_head c); [|exact M|cbn; congruence|].
      2: { intros x e2 t Ht ->. injection Ht as -> _. congruence. }
      rewrite read_plain by exact M2. rewrite IH' by (cbn; lia).
      split; intros H; [congruence|]. injection H as H. exact H.
Qed.

Lemma escape_markers_correct s : escape_ok s = true <-> read_template (escape_markers s) = map TChar s.
Proof.
  unfold escape_ok. induction s as [|c r IH]; [cbn; tauto|].
  cbn [from_first_marker escape_markers]. destruct r as [|c2 r]; [cbn; tauto|].
  destruct (is_mark c && (c2 =? 123)) eqn:K; [apply escape_loop_correct|].
  rewrite IH. cbn [map].
  assert (R : read_template (c :: escape_markers (c2 :: r)) = TChar c :: read_template (escape_markers (c2 :: r))).
  { destruct (is_mark c) eqn:M; [|apply read_plain; exact M]. cbn [andb] in K. apply N.eqb_neq in K.
    apply read_cons_head; [exact M|rewrite escape_markers_head; cbn; congruence|].
    intros x e2 t Ht ->. destruct r as [|c3 r]; [discriminate|]. rewrite escape_markers_cons in Ht.
    destruct (is_mark c2 && (c3 =? 123)) eqn:K2.
    - apply (escape_loop_second _ _ _ _ Ht M).
    - assert (c2 = c) as -> by congruence.
      assert (Ht' : escape_markers (c3 :: r) = e2 :: t) by congruence.
      rewrite M in K2. cbn [andb] in K2. apply N.eqb_neq in K2.
      pose proof (escape_markers_head (c3 :: r)) as Hh. rewrite Ht' in Hh. cbn in Hh. congruence. }
  rewrite R. split; intros H; [congruence|]. injection H as H. exact H.
Qed.

(** No two adjacent marks anywhere: a readable sufficient condition. *)
Fixpoint no_adjacent_marks (s : str) : bool :=
  match s with
  | [] => true
  | c :: r => negb (is_mark c && match r with c2 :: _ => is_mark c2 | [] => false end) && no_adjacent_marks r
  end.

Lemma no_adjacent_odd s : no_adjacent_marks s = true ->
  forall st, st = R0 \/ (st = R1 /\ match s with c :: _ => is_mark c = false | [] => True end) ->
  odd_runs st s = true.
Proof.
  induction s as [|c r IH]; [reflexivity|]. cbn [no_adjacent_marks odd_runs]. intros H st Hst.
  apply andb_true_iff in H. destruct H as [H1 H2]. apply negb_true_iff in H1.
  assert (A : match st with R2 => negb (c =? 123) | _ => true end = true)
    by (destruct Hst as [->|[-> _]]; reflexivity).
  rewrite A. cbn [andb]. apply IH; [exact H2|]. unfold run_next.
  destruct (is_mark c) eqn:M; [|left; destruct st; reflexivity].
  destruct Hst as [->|[-> Hm]]; [|congruence]. right. split; [reflexivity|].
  destruct r; [exact I|exact H1].
Qed.

Lemma no_adjacent_from s : no_adjacent_marks s = true -> no_adjacent_marks (from_first_marker s) = true.
Proof.
  induction s as [|c r IH]; [reflexivity|]. cbn [from_first_marker]. intros H. destruct r as [|c2 r]; [reflexivity|].
  destruct (is_mark c && (c2 =? 123)); [exact H|]. apply IH. cbn [no_adjacent_marks] in H.
  apply andb_true_iff in H. apply H.
Qed.

Lemma no_adjacent_escape_ok s : no_adjacent_marks s = true -> escape_ok s = true.
Proof.
  intros H. unfold escape_ok. apply no_adjacent_odd; [apply no_adjacent_from; exact H|left; reflexivity].
Qed.

(** ** escape then unescape *)

(** From the first marker on, every mark is followed by [{] or by two characters which are not
    marks (or by the end of the text). *)
Fixpoint spaced (s : str) : bool :=
  match s with
  | [] => true
  | c :: r =>
      if is_mark c then
        match r with
        | [] => true
        | c2 :: r2 =>
            if c2 =? 123 then spaced r2
            else negb (is_mark c2) &&
              match r2 with [] => true | c3 :: r3 => negb (is_mark c3) && spaced r3 end
        end
      else spaced r
  end.

Lemma unescape_escape_loop s : spaced s = true -> unescape_loop (escape_loop s) = s.
Proof.
  remember (length s) as n eqn:E. revert s E.
  induction n as [n IH] using (well_founded_induction Wf_nat.lt_wf). intros s -> H.
  assert (IH' : forall t, (length t < length s)%nat -> spaced t = true -> unescape_loop (escape_loop t) = t)
    by (intros t Ht; eapply IH; eauto).
  clear IH. destruct s as [|c r]; [reflexivity|]. cbn [spaced escape_loop] in *.
  destruct (is_mark c) eqn:M.
  2: { cbn [unescape_loop]. rewrite M. f_equal. apply IH'; [cbn; lia|exact H]. }
  destruct r as [|c2 r].
  { cbn [unescape_loop]. rewrite M. reflexivity. }
  destruct (N.eqb_spec c2 123) as [->|N2].
  - cbn [unescape_loop]. rewrite M, N.eqb_refl. cbn [andb N.eqb Pos.eqb]. do 2 f_equal.
    apply IH'; [cbn; lia|exact H].
  - apply andb_true_iff in H. destruct H as [H2 H3]. apply negb_true_iff in H2.
    destruct r as [|c3 r].
    { cbn [escape_loop unescape_loop]. rewrite M. reflexivity. }
    apply andb_true_iff in H3. destruct H3 as [H3 H4]. apply negb_true_iff in H3.
    cbn [escape_loop]. rewrite H3. cbn [unescape_loop]. rewrite M.
    destruct (N.eqb_spec c2 c) as [->|]; [congruence|]. cbn [andb]. do 3 f_equal.
    apply IH'; [cbn; lia|exact H4].
Qed.

Lemma unescape_unescaped_loop c r : is_mark c = true ->
  unescape_markers (c :: c :: 123 :: r) = unescape_loop (c :: c :: 123 :: r).
Proof. intros M. cbn [unescape_markers]. rewrite M, N.eqb_refl. reflexivity. Qed.

Lemma unescape_copy c E : (forall e r, E = e :: 123 :: r -> is_mark c = true -> e <> c) ->
  unescape_markers (c :: E) = c :: unescape_markers E.
Proof.
  intros H. cbn [unescape_markers]. destruct E as [|e [|e2 r]]; [reflexivity|reflexivity|].
  destruct (is_mark c) eqn:M; [|reflexivity]. cbn [andb].
  destruct (N.eqb_spec e c) as [->|]; [|reflexivity]. cbn [andb].
  destruct (N.eqb_spec e2 123) as [->|]; [|reflexivity].
  exfalso. apply (H c r); reflexivity.
Qed.

Lemma unescape_escape s : spaced (from_first_marker s) = true -> unescape_markers (escape_markers s) = s.
Proof.
  induction s as [|c r IH]; [reflexivity|]. cbn [from_first_marker escape_markers].
  destruct r as [|c2 r]; [reflexivity|].
  destruct (is_mark c && (c2 =? 123)) eqn:K.
  - intros H. apply andb_true_iff in K. destruct K as [M K]. apply N.eqb_eq in K. subst c2.
    rewrite <- (unescape_escape_loop _ H) at 2. cbn [escape_loop]. rewrite M. cbn [N.eqb Pos.eqb].
    apply unescape_unescaped_loop. exact M.
  - intros H. rewrite unescape_copy; [f_equal; apply IH; exact H|].
    intros e t Ht M. rewrite M in K. cbn [andb] in K. apply N.eqb_neq in K.
    intros ->. pose proof (escape_markers_head (c2 :: r)) as Hh. rewrite Ht in Hh. cbn in Hh.
    injection Hh as ->. destruct r as [|c3 r]; [discriminate|]. rewrite escape_markers_cons in Ht.
    destruct (is_mark c2 && (c3 =? 123)) eqn:K2.
    + exact (escape_loop_second _ _ _ _ Ht M eq_refl).
    + assert (Ht' : escape_markers (c3 :: r) = 123 :: t) by congruence.
      rewrite M in K2. cbn [andb] in K2. apply N.eqb_neq in K2.
      pose proof (escape_markers_head (c3 :: r)) as Hh. rewrite Ht' in Hh. cbn in Hh. congruence.
Qed.

(** Text without markers is left alone by both functions. *)
Lemma escape_plain s : from_first_marker s = [] -> escape_markers s = s.
Proof.
  induction s as [|c r IH]; [reflexivity|]. cbn [from_first_marker escape_markers].
  destruct r as [|c2 r]; [reflexivity|]. destruct (is_mark c && (c2 =? 123)); [discriminate|].
  intros H. f_equal. apply IH. exact H.
Qed.

(** ** What escaping changes *)

(** [unescaped s t]: [t] is [s] with some markers [$${] and [%%{] replaced by [${] and [%{], and
    nothing else changed. *)
Inductive unescaped : str -> str -> Prop :=
| unescaped_nil : unescaped [] []
| unescaped_char c s t : unescaped s t -> unescaped (c :: s) (c :: t)
| unescaped_marker c s t : is_mark c = true -> unescaped s t -> unescaped (c :: c :: 123 :: s) (c :: 123 :: t).
Lemma unescaped_refl s : unescaped s s.
Proof. induction s; constructor; auto. Qed.
Lemma unescape_loop_only n : forall s : str, (length s <= n)%nat -> unescaped s (unescape_loop s).
Proof.
  induction n as [|n IH]; intros [|c r] L; cbn [length] in L; try (cbn; constructor); try lia.
  cbn [unescape_loop]. destruct (is_mark c) eqn:M; [|constructor; apply IH; lia].
  destruct r as [|c2 [|c3 r]]; try apply unescaped_refl. cbn [length] in L.
  destruct (N.eqb_spec c2 c) as [->|]; cbn [andb]; [destruct (N.eqb_spec c3 123) as [->|]|].
  - apply unescaped_marker; [exact M|]. apply IH. lia.
  - do 3 constructor. apply IH. lia.
  - do 3 constructor. apply IH. lia.
Qed.
Lemma unescape_only s : unescaped s (unescape_markers s).
Proof.
  induction s as [|c r IH]; [constructor|]. cbn [unescape_markers]. destruct r as [|c2 [|c3 r]]; try (constructor; exact IH).
  destruct (is_mark c && (c2 =? c) && (c3 =? 123)); [apply (unescape_loop_only _ _ (le_n _))|constructor; exact IH].
Qed.
Lemma escape_loop_only n : forall s : str, (length s <= n)%nat -> unescaped (escape_loop s) s.
Proof.
  induction n as [|n IH]; intros [|c r] L; cbn [length] in L; try (cbn; constructor); try lia.
  cbn [escape_loop]. destruct (is_mark c) eqn:M; [|constructor; apply IH; lia].
  destruct r as [|c2 r]; [apply unescaped_refl|]. cbn [length] in L. destruct (N.eqb_spec c2 123) as [->|].
  - apply unescaped_marker; [exact M|]. apply IH. lia.
  - do 2 constructor. apply IH. lia.
Qed.
Lemma escape_only s : unescaped (escape_markers s) s.
Proof.
  induction s as [|c r IH]; [constructor|]. cbn [escape_markers]. destruct r as [|c2 r]; [apply unescaped_refl|].
  destruct (is_mark c && (c2 =? 123)); [apply (escape_loop_only _ _ (le_n _))|constructor; exact IH].
Qed.

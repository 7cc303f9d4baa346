(** Proofs about error locations. *)
From Coq Require Import NArith Arith Bool List Lia.
From Verif Require Import Res Str Utf8 LocModel LocSpec.
Import ListNotations.
Open Scope nat_scope.

Lemma firstn_exact {A} (a b : list A) : firstn (length a) (a ++ b) = a.
Proof. rewrite firstn_app, Nat.sub_diag, firstn_all. cbn. apply app_nil_r. Qed.
Lemma skipn_exact {A} (a b : list A) : skipn (length a) (a ++ b) = b.
Proof. rewrite skipn_app, Nat.sub_diag, skipn_all. reflexivity. Qed.
Lemma slice_to_exact {A} (a b : list A) : slice_to (a ++ b) (length a) = Done a.
Proof.
  unfold slice_to. rewrite app_length. destruct (Nat.leb_spec (length a) (length a + length b)); [|lia].
  rewrite firstn_exact. reflexivity.
Qed.
Lemma slice_from_exact {A} (a b : list A) : slice_from (a ++ b) (length a) = Done b.
Proof.
  unfold slice_from. rewrite app_length. destruct (Nat.leb_spec (length a) (length a + length b)); [|lia].
  rewrite skipn_exact. reflexivity.
Qed.
Lemma slice_exact {A} (a b c : list A) n : n = length a + length b -> slice (a ++ b ++ c) (length a) n = Done b.
Proof.
  intros ->. unfold slice. rewrite !app_length.
  destruct (Nat.leb_spec (length a) (length a + length b)); [|lia].
  destruct (Nat.leb_spec (length a + length b) (length a + (length b + length c))); [|lia].
  cbn [andb]. rewrite skipn_exact. replace (length a + length b - length a) with (length b) by lia.
  rewrite firstn_exact. reflexivity.
Qed.
Lemma usub_ok a b : b <= a -> usub a b = Done (a - b).
Proof. intros H. unfold usub. destruct (Nat.leb_spec b a); [reflexivity|lia]. Qed.

Lemma position_none {A} (p : A -> bool) l : (forall x, In x l -> p x = false) -> position p l = None.
Proof.
  induction l as [|x l IH]; intros H; [reflexivity|]. cbn [position]. rewrite (H x (or_introl eq_refl)).
  rewrite IH; [reflexivity|]. intros y Hy. apply H. right. exact Hy.
Qed.
Lemma position_some {A} (p : A -> bool) a x b : (forall y, In y a -> p y = false) -> p x = true ->
  position p (a ++ x :: b) = Some (length a).
Proof.
  induction a as [|y a IH]; intros H Hx; cbn [app position length].
  - rewrite Hx. reflexivity.
  - rewrite (H y (or_introl eq_refl)). rewrite IH; [reflexivity| |exact Hx]. intros z Hz. apply H. right. exact Hz.
Qed.
Lemma position_lt {A} (p : A -> bool) l n : position p l = Some n -> n < length l.
Proof.
  revert n. induction l as [|x l IH]; intros n; cbn [position length]; [discriminate|].
  destruct (p x); [injection 1 as <-; lia|]. destruct (position p l); [|discriminate].
  cbn [option_map]. intros H. injection H as <-. specialize (IH _ eq_refl). lia.
Qed.

(** Newlines in a text and in its bytes. *)
Lemma nl_encode s : In newline s <-> In 10%N (encode s).
Proof.
  unfold encode. rewrite in_concat. split.
  - intros H. exists (encode_char newline). split; [apply in_map; exact H|]. left. reflexivity.
  - intros [l [Hl H]]. apply in_map_iff in Hl. destruct Hl as [c [<- Hc]].
    destruct (N.lt_ge_cases c 128) as [Hlt|Hge].
    + rewrite encode_char_ascii in H by exact Hlt. destruct H as [H|[]]. subst c. exact Hc.
    + apply encode_char_high in H; [lia|exact Hge].
Qed.
Lemma no_nl s : ~ In newline s -> forall x, In x (encode s) -> is_nl x = false.
Proof.
  intros H x Hx. unfold is_nl. apply N.eqb_neq. intros ->. apply H. apply nl_encode. exact Hx.
Qed.
Lemma count_encode s : length (filter is_nl (encode s)) = count_occ N.eq_dec s newline.
Proof.
  induction s as [|c s IH]; [reflexivity|]. rewrite encode_cons, filter_app, app_length, IH. cbn [count_occ].
  destruct (N.lt_ge_cases c 128) as [Hlt|Hge].
  - rewrite encode_char_ascii by exact Hlt. cbn [filter]. unfold is_nl.
    destruct (N.eq_dec c newline) as [->|Hn]; [reflexivity|].
    destruct (N.eqb_spec c 10) as [->|]; [contradiction|]. reflexivity.
  - destruct (N.eq_dec c newline) as [->|Hn]; [unfold newline in Hge; lia|].
    assert (filter is_nl (encode_char c) = []) as ->; [|reflexivity].
    assert (forall x, In x (encode_char c) -> is_nl x = false) as HF.
    { intros x Hx. apply encode_char_high in Hx; [|exact Hge]. unfold is_nl. apply N.eqb_neq. lia. }
    clear -HF. induction (encode_char c) as [|b l IH]; [reflexivity|]. cbn [filter].
    rewrite (HF b (or_introl eq_refl)). apply IH. intros x Hx. apply HF. right. exact Hx.
Qed.

(** The part above the current line, including its newline. *)
Lemma line_start_above before rest : line_start before rest ->
  exists above, before = above ++ rest /\ (above = [] \/ exists a, above = a ++ [newline]).
Proof.
  intros [Hn [->|[a ->]]].
  - exists []. auto.
  - exists (a ++ [newline]). split; [rewrite <- app_assoc; reflexivity|]. right. exists a. reflexivity.
Qed.

(** The core: the input is [above ++ cols ++ more] in bytes, [above] is empty or ends with a newline,
    the error is at the last byte of [cols]. *)
Lemma locate_core above col b more lines err_offset :
  (above = [] \/ exists a, above = a ++ [10%N]) ->
  (forall x, In x col -> is_nl x = false) ->
  (forall x, In x lines -> is_nl x = false) ->
  (col ++ b :: more = lines \/ exists below, col ++ b :: more = lines ++ 10%N :: below) ->
  Nat.min err_offset (length (above ++ col ++ b :: more) - 1) = length above + length col ->
  locate_error (above ++ col ++ b :: more) err_offset =
  Done (lines,
        {| loc_line := length (filter is_nl above) + 1;
           loc_column := match decode (col ++ [b]) with Some s => length s | None => length col + 1 end
                         + (err_offset - (length above + length col));
           loc_offset := length above + length col |}).
Proof.
  intros Ha Hc Hl Hlines Hoff. unfold locate_error.
  destruct (above ++ col ++ b :: more) as [|i0 ir] eqn:Ei.
  { destruct above; [destruct col|]; discriminate. }
  rewrite <- Ei in *. clear i0 ir Ei. 
  assert (Hlen : 1 <= length (above ++ col ++ b :: more)) by (rewrite !app_length; cbn [length]; lia).
  rewrite usub_ok by exact Hlen. cbn [rbind]. rewrite Hoff.
  assert (Hle : length above + length col <= err_offset) by lia.
  rewrite usub_ok by exact Hle. cbn [rbind].
  assert (E1 : above ++ col ++ b :: more = (above ++ col) ++ b :: more) by (rewrite <- app_assoc; reflexivity).
  assert (E2 : slice_to (above ++ col ++ b :: more) (length above + length col) = Done (above ++ col)).
  { rewrite E1, <- app_length. apply slice_to_exact. }
  rewrite E2. cbn [rbind].
  assert (E3 : match position is_nl (rev (above ++ col)) with
    | Some pos => usub (length above + length col) pos | None => Done 0 end = Done (length above)).
  { rewrite rev_app_distr. destruct Ha as [->|[a ->]].
    - cbn [rev app length]. rewrite app_nil_r. rewrite position_none; [reflexivity|].
      intros x Hx. apply Hc. apply in_rev. exact Hx.
    - rewrite rev_unit. rewrite position_some.
      + rewrite rev_length, usub_ok by lia. f_equal. lia.
      + intros y Hy. apply Hc. apply in_rev. exact Hy.
      + reflexivity. }
  rewrite E3. cbn [rbind]. rewrite slice_from_exact. cbn [rbind].
  assert (E4 : match position is_nl (col ++ b :: more) with
    | Some pos => slice (above ++ col ++ b :: more) (length above) (length above + pos)
    | None => Done (col ++ b :: more) end = Done lines).
  { destruct Hlines as [->|[below ->]].
    - rewrite position_none by exact Hl. reflexivity.
    - rewrite position_some by (exact Hl || reflexivity). apply slice_exact. reflexivity. }
  rewrite E4. cbn [rbind]. rewrite slice_to_exact. cbn [rbind].
  assert (E5 : slice (above ++ col ++ b :: more) (length above) (length above + length col + 1) = Done (col ++ [b])).
  { replace (col ++ b :: more) with ((col ++ [b]) ++ more) by (rewrite <- app_assoc; reflexivity).
    apply slice_exact. rewrite app_length. cbn [length]. lia. }
  rewrite E5. cbn [rbind].
  destruct (decode (col ++ [b])) as [s|].
  - reflexivity.
  - rewrite usub_ok by lia. cbn [rmap rbind]. replace (length above + length col - length above) with (length col) by lia.
    reflexivity.
Qed.

Lemma above_encode above : (above = [] \/ exists a, above = a ++ [newline]) ->
  encode above = [] \/ exists a, encode above = a ++ [10%N].
Proof.
  intros [->|[a ->]]; [left; reflexivity|]. right. exists (encode a). rewrite encode_app. reflexivity.
Qed.
Lemma count_no l : ~ In newline l -> count_occ N.eq_dec l newline = 0.
Proof. intros H. apply count_occ_not_In. exact H. Qed.

(** Line number and line of an error at any character. *)
Lemma locate_char before c after l r :
  forallb scalar (before ++ c :: after) = true ->
  line_start before l -> line_end (c :: after) r ->
  locate_error (encode (before ++ c :: after)) (length (encode before)) =
  Done (encode (l ++ r),
        {| loc_line := line_number before;
           loc_column := 1 + (if (c <? 128)%N then length l else length (encode l));
           loc_offset := length (encode before) |}).
Proof.
  intros Hsc Hl Hr. destruct (line_start_above _ _ Hl) as [above [-> Ha]].
  destruct Hl as [Hln _]. destruct Hr as [Hrn Hr].
  rewrite <- app_assoc, !encode_app, encode_cons.
  destruct (encode_char c) as [|b bs] eqn:Ec; [exfalso; exact (encode_char_nonempty c Ec)|].
  cbn [app]. 
  rewrite (locate_core (encode above) (encode l) b (bs ++ encode after) (encode (l ++ r)) _).
  - rewrite count_encode. rewrite encode_app, app_length. unfold line_number.
    rewrite count_occ_app, (count_no l Hln).
    assert (E : match decode (encode l ++ [b]) with Some s => length s | None => length (encode l) + 1 end
                + (length (encode above) + length (encode l) - (length (encode above) + length (encode l)))
                = 1 + (if (c <? 128)%N then length l else length (encode l))).
    { rewrite Nat.sub_diag, Nat.add_0_r.
      assert (Hs : forallb scalar l = true /\ scalar c = true).
      { rewrite <- app_assoc, !forallb_app in Hsc. cbn [forallb] in Hsc. rewrite !andb_true_iff in Hsc. tauto. }
      destruct Hs as [Hs Hsc']. rewrite decode_encode_app by exact Hs.
      destruct (N.ltb_spec c 128) as [Hlt|Hge].
      - rewrite encode_char_ascii in Ec by exact Hlt. injection Ec as <- <-.
        cbn [decode]. destruct (N.ltb_spec c 128); [|lia]. cbn [option_map]. rewrite app_length. cbn [length]. lia.
      - rewrite (decode_lead c b bs Hge Ec). cbn [option_map]. lia. }
    rewrite E. rewrite Nat.add_0_r, (Nat.add_comm 1 (count_occ _ _ _)). reflexivity.
  - apply above_encode. exact Ha.
  - apply no_nl. exact Hln.
  - apply no_nl. intros H. apply in_app_or in H. destruct H; contradiction.
  - change (b :: bs ++ encode after) with ((b :: bs) ++ encode after). rewrite <- Ec, <- encode_cons.
    rewrite encode_app. destruct Hr as [->|[below ->]]; [left; reflexivity|right].
    exists (encode below). rewrite encode_app, <- app_assoc. reflexivity.
  - rewrite !app_length. cbn [length]. lia.
Qed.

(** Error at the end of the input. *)
Lemma locate_eof before l :
  forallb scalar before = true -> before <> [] -> line_start before l -> l <> [] ->
  locate_error (encode before) (length (encode before)) =
  Done (encode l,
        {| loc_line := line_number before; loc_column := 1 + length l; loc_offset := length (encode before) - 1 |}).
Proof.
  intros Hsc Hne Hl Hle. destruct (line_start_above _ _ Hl) as [above [-> Ha]].
  destruct Hl as [Hln _].
  destruct (exists_last Hle) as [l0 [c E0]].
  assert (Hb : exists b0 b, encode l = b0 ++ [b]).
  { subst l. rewrite encode_app. unfold encode at 2. cbn [map concat]. rewrite app_nil_r.
    destruct (exists_last (encode_char_nonempty c)) as [k [b ->]]. exists (encode l0 ++ k), b. apply app_assoc. }
  destruct Hb as [b0 [b Hb]].
  rewrite encode_app, Hb.
  rewrite (locate_core (encode above) b0 b [] (encode l) _).
  - rewrite count_encode. unfold line_number. rewrite count_occ_app, (count_no l Hln), Nat.add_0_r.
    rewrite <- Hb. rewrite decode_encode by (rewrite forallb_app in Hsc; apply andb_true_iff in Hsc; apply Hsc).
    assert (El : length (encode l) = length b0 + 1) by (rewrite Hb, app_length; reflexivity).
    rewrite !app_length, El. f_equal. f_equal.
    rewrite Nat.add_comm. f_equal; lia.
  - apply above_encode. exact Ha.
  - intros x Hx. apply (no_nl l Hln). rewrite Hb. apply in_or_app. left. exact Hx.
  - apply no_nl. exact Hln.
  - left. symmetry. exact Hb.
  - rewrite !app_length. cbn [length]. lia.
Qed.

(** No panic, for any bytes and offset. *)
Lemma locate_total input off : exists r, locate_error input off = Done r.
Proof.
  unfold locate_error. destruct input as [|i0 ir]; [eexists; reflexivity|].
  remember (i0 :: ir) as input eqn:Ei.
  assert (Hlen : 1 <= length input) by (subst; cbn [length]; lia).
  rewrite usub_ok by exact Hlen. cbn [rbind].
  set (o := Nat.min off (length input - 1)). rewrite usub_ok by lia. cbn [rbind].
  unfold slice_to at 1. destruct (Nat.leb_spec o (length input)); [|lia]. cbn [rbind].
  assert (Hlb : exists lb, match position is_nl (rev (firstn o input)) with
      | Some pos => usub o pos | None => Done 0 end = Done lb /\ lb <= o).
  { destruct (position is_nl (rev (firstn o input))) as [p|] eqn:Ep.
    - apply position_lt in Ep. rewrite rev_length, firstn_length in Ep.
      rewrite usub_ok by lia. eexists. split; [reflexivity|lia].
    - exists 0. split; [reflexivity|lia]. }
  destruct Hlb as [lb [-> Hlb]]. cbn [rbind].
  unfold slice_from. destruct (Nat.leb_spec lb (length input)); [|lia]. cbn [rbind].
  assert (Hctx : exists k, match position is_nl (skipn lb input) with
      | Some pos => slice input lb (lb + pos) | None => Done (skipn lb input) end = Done k).
  { destruct (position is_nl (skipn lb input)) as [p|] eqn:Ep; [|eexists; reflexivity].
    apply position_lt in Ep. rewrite skipn_length in Ep. unfold slice.
    destruct (Nat.leb_spec lb (lb + p)); [|lia]. destruct (Nat.leb_spec (lb + p) (length input)); [|lia].
    eexists. reflexivity. }
  destruct Hctx as [k ->]. cbn [rbind].
  unfold slice_to. destruct (Nat.leb_spec lb (length input)); [|lia]. cbn [rbind].
  unfold slice. destruct (Nat.leb_spec lb (o + 1)); [|lia]. destruct (Nat.leb_spec (o + 1) (length input)); [|lia].
  cbn [andb rbind]. destruct (decode (firstn (o + 1 - lb) (skipn lb input))).
  - eexists. reflexivity.
  - rewrite usub_ok by lia. cbn [rmap rbind]. eexists. reflexivity.
Qed.

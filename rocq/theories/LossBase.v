(** * Printing what was parsed: the parts

    Lemmas about the printer's combinators and about the places where the parser may lose
    something: operator chains and object entries. *)
From Coq Require Import NArith ZArith Arith Bool String List Lia.
From Coq Require Decimal DecimalN.
From Verif Require Import Res Str Dec NumberModel PrimModel DedentModel EAst EncModel ParseBase ParseModel Grammar.
From Verif Require Import ParseLemmas ParseSound ParseSoundRec ParseTop PrattSpec PrattProofs LossSpec.
Import ListNotations.
Open Scope N_scope.

(** If the check [c] passes, [f] writes [t] and leaves the flag where [c] leaves it. *)
Definition prints (c : chk) (f : out) (t : str) : Prop := forall fl, fst (c fl) = true -> f fl = (t, snd (c fl)).
Lemma prints_wr c s : (forall fl, snd (c fl) = fl) -> prints c (wr s) s.
Proof. intros H fl _. unfold wr. now rewrite H. Qed.
Lemma prints_pass s : prints pass (wr s) s.
Proof. now apply prints_wr. Qed.
Lemma prints_cat c1 c2 f1 f2 t1 t2 : prints c1 f1 t1 -> prints c2 f2 t2 -> prints (c1 &> c2) (f1 >>> f2) (t1 ++ t2).
Proof.
  intros H1 H2 fl. unfold both, cat. destruct (c1 fl) as [a fl1] eqn:E1. destruct (c2 fl1) as [b fl2] eqn:E2. cbn [fst snd].
  intros H. apply andb_prop in H. destruct H as [-> ->]. rewrite (H1 fl), E1 by now rewrite E1. cbn [snd].
  rewrite (H2 fl1), E2 by now rewrite E2. reflexivity.
Qed.
Lemma prints_cat_l c s f t : prints c f t -> prints c (wr s >>> f) (s ++ t).
Proof. intros H fl Hc. unfold cat, wr. now rewrite (H fl Hc). Qed.
Lemma prints_cat_r c f t s : prints c f t -> prints c (f >>> wr s) (t ++ s).
Proof. intros H fl Hc. unfold cat, wr. now rewrite (H fl Hc). Qed.
Lemma prints_r c f g t s : prints c f t -> prints pass g s -> prints c (f >>> g) (t ++ s).
Proof. intros H H2 fl Hc. unfold cat. rewrite (H fl Hc), H2; reflexivity. Qed.
Lemma prints_l c f g t s : prints pass f t -> prints c g s -> prints c (f >>> g) (t ++ s).
Proof. intros H H2 fl Hc. unfold cat. rewrite H by reflexivity. cbn [snd pass]. now rewrite H2. Qed.
Lemma prints_must b c f t : (b = true -> prints c f t) -> prints (must b &> c) f t.
Proof. intros H fl. unfold both, must. destruct (c fl) eqn:E. cbn. intros X. apply andb_prop in X. destruct X as [-> X]. rewrite (H eq_refl), E; [reflexivity|]. now rewrite E. Qed.
Lemma prints_must' b f t : (b = true -> prints pass f t) -> prints (must b) f t.
Proof. intros H fl. cbn. intros E. rewrite H; auto. Qed.
Lemma prints_must_r b c f t : (b = true -> prints c f t) -> prints (c &> must b) f t.
Proof. intros H fl. unfold both, must. destruct (c fl) eqn:E. cbn. intros X. apply andb_prop in X. destruct X as [X ->]. rewrite (H eq_refl), E; [reflexivity|]. now rewrite E. Qed.
Lemma prints_nil c : (forall fl, snd (c fl) = fl) -> prints c (wr []) [].
Proof. apply prints_wr. Qed.
Lemma prints_eq c f t t' : t = t' -> prints c f t -> prints c f t'.
Proof. now intros ->. Qed.
Lemma prints_ext c c' f t : (forall fl, c fl = c' fl) -> prints c f t -> prints c' f t.
Proof. intros E H fl. rewrite <- E. apply H. Qed.
Lemma cat_assoc f g h : forall fl, ((f >>> g) >>> h) fl = (f >>> g >>> h) fl.
Proof. intros fl. unfold cat. destruct (f fl) as [a ?], (g b) as [x ?], (h b0) as [y ?]. now rewrite app_assoc. Qed.
Lemma prints_out c f f' t : (forall fl, f fl = f' fl) -> prints c f t -> prints c f' t.
Proof. intros E H fl Hc. rewrite <- E. now apply H. Qed.
Lemma prints_quotes c f t : prints c f t -> prints (in_quotes c) (escaped f) t.
Proof. intros H fl. unfold in_quotes, escaped. cbn [fst snd]. intros E. now rewrite H. Qed.

(** Decor written as it was read. *)
Lemma raw_of_str_enc t d : raw_enc (raw_of_str t) d = t.
Proof. destruct t; reflexivity. Qed.
Definition lead (m : meta) (df p : str) : Prop := enc_prefix (m_decor m) df = p.
Definition trail (m : meta) (df z : str) : Prop := enc_suffix (m_decor m) df = z.
Lemma prints_deco c m df f p t z : lead m (fst df) p -> trail m (snd df) z -> prints c f t -> prints c (deco (m_decor m) df f) (p ++ t ++ z).
Proof. intros <- <- H. unfold deco. apply prints_cat_l. now apply prints_cat_r. Qed.

(** ** Indices written in decimal *)
Lemma uint_of_digits d : forallb is_digit d = true -> exists u, d = uint_str u.
Proof.
  induction d as [|c d IH]; intros H; [now exists Decimal.Nil|]. cbn [forallb] in H. apply andb_prop in H. destruct H as [Hc H].
  destruct (IH H) as (u & ->). unfold is_digit in Hc. apply andb_prop in Hc. destruct Hc as [H1 H2]. apply N.leb_le in H1, H2.
  assert (E : c = 48 \/ c = 49 \/ c = 50 \/ c = 51 \/ c = 52 \/ c = 53 \/ c = 54 \/ c = 55 \/ c = 56 \/ c = 57) by lia.
  destruct E as [->|[->|[->|[->|[->|[->|[->|[->|[->| ->]]]]]]]]];
    [exists (Decimal.D0 u)|exists (Decimal.D1 u)|exists (Decimal.D2 u)|exists (Decimal.D3 u)|exists (Decimal.D4 u)|exists (Decimal.D5 u)|exists (Decimal.D6 u)|exists (Decimal.D7 u)|exists (Decimal.D8 u)|exists (Decimal.D9 u)]; reflexivity.
Qed.
Lemma show_digits d : forallb is_digit d = true -> (exists c r, d = c :: r /\ (c <> 48 \/ r = [])) -> show_N (digits_val d) = d.
Proof.
  intros H (c & r & E & Hc). destruct (uint_of_digits d H) as (u & ->). unfold show_N. rewrite <- of_uint_digits, DecimalN.Unsigned.to_of.
  destruct u; cbn [uint_str] in E |- *; try reflexivity; try discriminate.
  injection E as <- E. destruct Hc as [Hc|Hc]; [congruence|]. subst r. destruct u; try discriminate. reflexivity.
Qed.

(** ** Object entries

    [kend k p]: the text of the key [k] with its suffix and one more character ends at [p];
    [vstart v p]: the text of the value [v] with its prefix starts at [p]. *)
Definition kend (k : meta) (p : N) : Prop := exists s a, m_span k = Some (s, a) /\ a + raw_len (d_suffix (m_decor k)) + 1 = p.
Definition vstart (v : meta) (p : N) : Prop := exists b e, m_span v = Some (b, e) /\ p + raw_len (d_prefix (m_decor v)) = b.
Lemma follows_pos k v p q : kend k p -> vstart v q -> (follows k v = true <-> p = q).
Proof.
  intros (s & a & E1 & <-) (b & e & E2 & <-). unfold follows. rewrite E1, E2, N.eqb_eq. lia.
Qed.
Section Items.
Context (f : meta -> meta).
Definition ival (i : xitem) : xexpr := match i with XItem _ _ v _ => v end.
Definition ikey (i : xitem) : meta := f (key_meta (item_key i)).
Definition ivm (i : xitem) : meta := f (x_meta (ival i)).
Definition kept (i : xitem) : bool := follows (ikey i) (ivm i).
(** The items of a text: one after the other, each value after its key. *)
Fixpoint placed (o : N) (l : list xitem) : Prop :=
  match l with [] => True | i :: l => exists p, kend (ikey i) p /\ vstart (ivm i) p /\ o < p /\ placed p l end.
Lemma placed_le o o' l : o' <= o -> placed o l -> placed o' l.
Proof. destruct l as [|i l]; [auto|]. intros Ho (p & H1 & H2 & H3 & H4). exists p. repeat split; auto. lia. Qed.

(** What [fold_left] of [items_insert] accumulates: all keys end before [o]; if an entry was dropped,
    some item is not kept. *)
Definition before (o : N) (i : xitem) : Prop := exists p q, kend (ikey i) p /\ vstart (ivm i) q /\ p <= o.
Definition seen (o : N) (all acc : list xitem) : Prop :=
  Forall (before o) acc /\ (acc = all \/ exists i, In i acc /\ kept i = false).
Lemma insert_inv o p i : kend (ikey i) p -> vstart (ivm i) p -> o < p -> forall acc, Forall (before o) acc ->
  Forall (before p) (items_insert i acc) /\
  (items_insert i acc = acc ++ [i] \/ exists j, In j (items_insert i acc) /\ kept j = false) /\
  ((exists j, In j acc /\ kept j = false) -> exists j, In j (items_insert i acc) /\ kept j = false).
Proof.
  intros Hk Hv Ho. induction acc as [|j acc IH]; intros Hb; cbn [items_insert].
  - repeat split; [|now left|intros (j & [] & _)]. constructor; [|constructor]. exists p, p. repeat split; auto. lia.
  - inversion Hb as [|? ? Hj Hb2]; subst. destruct (IH Hb2) as (I1 & I2 & I3). clear IH.
    assert (Wk : forall x, before o x -> before p x) by (intros x (a & c & ? & ? & ?); exists a, c; repeat split; auto; lia).
    destruct (key_eqb (item_key j) (item_key i)).
    + destruct i as [ki ai vi ti]. unfold ikey, ivm in Hk, Hv; cbn [item_key ival] in *. destruct Hj as (a & c & Ha & Hc & Hle).
      set (x := XItem (item_key j) ai vi ti).
      assert (Kx : kept x = false).
      { destruct (kept x) eqn:E; [|reflexivity]. exfalso. unfold kept, x, ikey, ivm, ival in E. cbn [item_key] in E.
        apply (proj1 (follows_pos _ _ a p Ha Hv)) in E. lia. }
      repeat split.
      * constructor; [|eapply Forall_impl; [|exact Hb2]; auto]. exists a, p. repeat split; auto; lia.
      * right. exists x. split; [now left|exact Kx].
      * intros _. exists x. split; [now left|exact Kx].
    + repeat split.
      * constructor; auto.
      * destruct I2 as [->|(y & Hy & Ky)]; [now left|]. right. exists y. split; [now right|exact Ky].
      * intros (y & [->|Hy] & Ky); [exists y; split; [now left|exact Ky]|]. destruct (I3 (ex_intro _ y (conj Hy Ky))) as (z & Hz & Kz).
        exists z. split; [now right|exact Kz].
Qed.
Lemma fold_seen l : forall o all acc, placed o l -> seen o all acc ->
  let r := fold_left (fun acc i => items_insert i acc) l acc in r = all ++ l \/ exists i, In i r /\ kept i = false.
Proof.
  induction l as [|i l IH]; intros o all acc Hp [Hb Hs]; cbn [fold_left].
  - rewrite app_nil_r. exact Hs.
  - destruct Hp as (p & Hk & Hv & Ho & Hp). destruct (insert_inv o p i Hk Hv Ho acc Hb) as (I1 & I2 & I3).
    specialize (IH p (all ++ [i]) (items_insert i acc) Hp). rewrite <- app_assoc in IH. apply IH. split; [exact I1|].
    destruct Hs as [->|Hs]; [exact I2|right; auto].
Qed.
Lemma fold_kept o l : placed o l -> (forall i, In i (fold_left (fun acc i => items_insert i acc) l []) -> kept i = true) ->
  fold_left (fun acc i => items_insert i acc) l [] = l.
Proof.
  intros Hp Hk. destruct (fold_seen l o [] [] Hp) as [E|(i & Hi & Ki)]; [split; [constructor|now left]|exact E|].
  rewrite (Hk i Hi) in Ki. discriminate.
Qed.
End Items.

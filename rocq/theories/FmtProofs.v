(** The formatter appends the text of [FmtSpec] and restores its state. *)
From Coq Require Import NArith Bool String List Lia.
From Verif Require Import Res Str Dec NumberModel PrimModel DedentModel Ast AstInd FmtModel FmtSpec.
Import ListNotations.
Open Scope nat_scope.

Definition add (s : str) (st : fmt) : fmt :=
  Fmt (f_out st ++ s) (f_state st) (f_first st) (f_indent st) (f_has st) (f_compact st) (f_nest st).

(** [f] appends a text depending on the compact mode and the depth only. *)
Definition writes (f : fm) (t : bool -> nat -> str) : Prop :=
  forall st, f st = Done (add (t (in_compact st) (f_indent st)) st).

Lemma add_add s t st : add t (add s st) = add (s ++ t) st.
Proof. unfold add; cbn. now rewrite app_assoc. Qed.
Lemma add_nil st : add [] st = st.
Proof. destruct st; unfold add; cbn. now rewrite app_nil_r. Qed.
Lemma writes_put s : writes (put s) (fun _ _ => s).
Proof. intros st. reflexivity. Qed.
Lemma writes_skip : writes skip (fun _ _ => []).
Proof. intros st. unfold skip. now rewrite add_nil. Qed.
Lemma writes_seq f g t1 t2 : writes f t1 -> writes g t2 -> writes (f ;; g) (fun k n => t1 k n ++ t2 k n).
Proof. intros F G st. unfold fseq. rewrite F. cbn [rbind]. rewrite G, add_add. reflexivity. Qed.
Lemma writes_ext f t t' : writes f t -> (forall k n, t k n = t' k n) -> writes f t'.
Proof. intros F E st. rewrite F, E. reflexivity. Qed.
Lemma writes_if (x : bool) f g t1 t2 :
  writes f t1 -> writes g t2 -> writes (fif x f g) (fun k n => if x then t1 k n else t2 k n).
Proof. destruct x; auto. Qed.
Lemma writes_each l ts :
  Forall2 writes l ts -> writes (each l) (fun k n => concat (map (fun t => t k n) ts)).
Proof.
  induction 1 as [|f t l ts F _ IH]; [apply writes_skip|]. cbn [each map concat]. now apply writes_seq.
Qed.
Lemma writes_each_map {A} (F : A -> fm) (T : bool -> nat -> A -> str) l :
  Forall (fun x => writes (F x) (fun k n => T k n x)) l ->
  writes (each (map F l)) (fun k n => concat (map (T k n) l)).
Proof.
  induction 1 as [|x l F1 _ IH]; [apply writes_skip|]. cbn [each map concat].
  apply (writes_seq _ _ (fun k n => T k n x)); assumption.
Qed.
Lemma writes_compact f t : writes f t -> writes (with_compact f) (fun _ n => t true n).
Proof.
  intros F [o s fi i h k ne]. unfold with_compact, fseq, set_compact. cbn [rbind f_out f_state f_first f_indent f_has f_compact f_nest].
  rewrite F. reflexivity.
Qed.

Lemma seq_done f g st st' : f st = Done st' -> (f ;; g) st = g st'.
Proof. intros E. unfold fseq. now rewrite E. Qed.

Definition on (k : nat) : bool := match k with O => false | S _ => true end.

Section Coll.
  Context (c : cfg).

  Lemma writes_at f t o s fi i h k ne :
    writes f t -> f (Fmt o s fi i h k ne) = Done (Fmt (o ++ t (on k) i) s fi i h k ne).
  Proof. intros F. rewrite F. reflexivity. Qed.

  Lemma begin_array_at o s fi i h k ne :
    begin_array c (Fmt o s fi i h k ne)
    = Done (Fmt (o ++ lit "[") s true (deeper (c_arrays c || on k) i) false k ((fi, h) :: ne)).
  Proof.
    unfold begin_array, fseq, compact_arrays, in_compact. cbn. fold (on k). destruct (c_arrays c || on k); reflexivity.
  Qed.
  Lemma array_first o s i h k ne :
    begin_array_value c (Fmt o s true i h k ne)
    = Done (Fmt (o ++ if c_arrays c || on k then [] else newline c i) s false i h k ne).
  Proof.
    unfold begin_array_value, fseq, compact_arrays, in_compact. cbn. fold (on k).
    destruct (c_arrays c || on k); cbn; [unfold skip; now rewrite app_nil_r|].
    unfold fseq, write_indent, put, newline; cbn. now rewrite <- app_assoc.
  Qed.
  Lemma array_next o s i h k ne :
    begin_array_value c (Fmt o s false i h k ne)
    = Done (Fmt (o ++ if c_arrays c || on k then lit ", " else [44%N] ++ newline c i) s false i h k ne).
  Proof.
    unfold begin_array_value, fseq, compact_arrays, in_compact. cbn. fold (on k).
    destruct (c_arrays c || on k); cbn; [reflexivity|]. unfold fseq, write_indent, put, newline; cbn. now rewrite <- app_assoc.
  Qed.
  Lemma end_array_at o s fi0 i h0 k fi h ne :
    end_array c (Fmt o s fi0 (deeper (c_arrays c || on k) i) h0 k ((fi, h) :: ne))
    = Done (Fmt (o ++ (if c_arrays c || on k then [] else if h0 then newline c i else []) ++ lit "]") s fi i h k ne).
  Proof.
    unfold end_array, fseq, compact_arrays, in_compact. cbn [f_compact]. fold (on k).
    destruct (c_arrays c || on k), h0; cbn; unfold fseq, write_indent, put, newline; cbn; now repeat rewrite <- app_assoc.
  Qed.
  Lemma end_value_at o s fi i h k ne : end_array_value (Fmt o s fi i h k ne) = Done (Fmt o s fi i true k ne).
  Proof. reflexivity. Qed.

  Definition one_value v := begin_array_value c ;; v ;; end_array_value.
  Lemma value_first v t o s i h k ne :
    writes v t ->
    one_value v (Fmt o s true i h k ne)
    = Done (Fmt (o ++ (if c_arrays c || on k then [] else newline c i) ++ t (on k) i) s false i true k ne).
  Proof.
    intros F. unfold one_value. rewrite (seq_done _ _ _ _ (array_first _ _ _ _ _ _)).
    rewrite (seq_done _ _ _ _ (writes_at _ _ _ _ _ _ _ _ _ F)), end_value_at. now rewrite <- app_assoc.
  Qed.
  Lemma value_next v t o s i h k ne :
    writes v t ->
    one_value v (Fmt o s false i h k ne)
    = Done (Fmt (o ++ (if c_arrays c || on k then lit ", " else [44%N] ++ newline c i) ++ t (on k) i) s false i true k ne).
  Proof.
    intros F. unfold one_value. rewrite (seq_done _ _ _ _ (array_next _ _ _ _ _ _)).
    rewrite (seq_done _ _ _ _ (writes_at _ _ _ _ _ _ _ _ _ F)), end_value_at. now rewrite <- app_assoc.
  Qed.
  Lemma array_tail vs (ts : list (bool -> nat -> str)) o s i k ne :
    Forall2 writes vs ts ->
    each (map one_value vs) (Fmt o s false i true k ne)
    = Done (Fmt (o ++ flat_map (fun t => (if c_arrays c || on k then lit ", " else [44%N] ++ newline c i) ++ t (on k) i) ts)
                s false i true k ne).
  Proof.
    intros F. revert o. induction F as [|f t vs ts F _ IH]; intros o; cbn [map each flat_map].
    - unfold skip. now rewrite app_nil_r.
    - rewrite (seq_done _ _ _ _ (value_next _ _ _ _ _ _ _ _ F)), IH. now repeat rewrite <- app_assoc.
  Qed.
  Lemma writes_array vs ts :
    Forall2 writes vs ts ->
    writes (fm_array c vs)
      (fun k n => let k' := c_arrays c || k in
                  arr_text c k' n (map (fun t : bool -> nat -> str => t k (deeper k' n)) ts)).
  Proof.
    intros F [o s fi i h k ne]. unfold fm_array. fold one_value.
    rewrite (seq_done _ _ _ _ (begin_array_at _ _ _ _ _ _ _)). cbn zeta.
    change (in_compact _) with (on k). cbn [f_indent].
    unfold add; cbn [f_out f_state f_first f_indent f_has f_compact f_nest]. unfold arr_text, seq_text.
    destruct F as [|f t vs ts F F2]; cbn [map each].
    - unfold skip at 1, fseq at 1. cbn [rbind]. rewrite end_array_at.
      destruct (c_arrays c || on k); now rewrite <- app_assoc.
    - erewrite seq_done by (erewrite seq_done by (apply value_first; exact F); apply array_tail; exact F2).
      rewrite end_array_at.
      destruct (c_arrays c || on k); cbn [deeper app]; f_equal; f_equal;
        repeat rewrite <- app_assoc; rewrite ?flat_map_concat_map, ?map_map; reflexivity.
  Qed.

  Lemma begin_object_at o s fi i h k ne :
    begin_object c (Fmt o s fi i h k ne)
    = Done (Fmt (o ++ lit "{") s true (deeper (c_objects c || on k) i) false k ((fi, h) :: ne)).
  Proof.
    unfold begin_object, fseq, compact_objects, in_compact. cbn. fold (on k). destruct (c_objects c || on k); reflexivity.
  Qed.
  Lemma object_first o s i h k ne :
    begin_object_key c (Fmt o s true i h k ne)
    = Done (Fmt (o ++ if c_objects c || on k then [32%N] else newline c i) s false i h k ne).
  Proof.
    unfold begin_object_key, fseq, compact_objects, in_compact. cbn. fold (on k).
    destruct (c_objects c || on k); cbn; [reflexivity|].
    unfold fseq, write_indent, put, newline; cbn. now rewrite <- app_assoc.
  Qed.
  Lemma object_next o s i h k ne :
    begin_object_key c (Fmt o s false i h k ne)
    = Done (Fmt (o ++ if c_objects c || on k then lit ", " else newline c i) s false i h k ne).
  Proof.
    unfold begin_object_key, fseq, compact_objects, in_compact. cbn. fold (on k).
    destruct (c_objects c || on k); cbn; [reflexivity|]. unfold fseq, write_indent, put, newline; cbn. now rewrite <- app_assoc.
  Qed.
  Lemma end_object_at o s fi0 i h0 k fi h ne :
    end_object c (Fmt o s fi0 (deeper (c_objects c || on k) i) h0 k ((fi, h) :: ne))
    = Done (Fmt (o ++ (if h0 then if c_objects c || on k then [32%N] else newline c i else []) ++ lit "}") s fi i h k ne).
  Proof.
    unfold end_object, fseq, compact_objects, in_compact. cbn [f_compact]. fold (on k).
    destruct (c_objects c || on k), h0; cbn; unfold fseq, write_indent, put, newline; cbn; now repeat rewrite <- app_assoc.
  Qed.

  Definition one_item (i : fm * fm) :=
    begin_object_key c ;; fst i ;; begin_object_value ;; snd i ;; end_object_value.
  Lemma item_first v w t t' o s i h k ne :
    writes v t -> writes w t' ->
    one_item (v, w) (Fmt o s true i h k ne)
    = Done (Fmt (o ++ (if c_objects c || on k then [32%N] else newline c i) ++
                 t (on k) i ++ lit " = " ++ t' (on k) i) s false i true k ne).
  Proof.
    intros F G. unfold one_item, begin_object_value. cbn [fst snd]. rewrite (seq_done _ _ _ _ (object_first _ _ _ _ _ _)).
    rewrite (seq_done _ _ _ _ (writes_at _ _ _ _ _ _ _ _ _ F)).
    rewrite (seq_done _ _ _ _ (writes_at _ _ _ _ _ _ _ _ _ (writes_put _))).
    rewrite (seq_done _ _ _ _ (writes_at _ _ _ _ _ _ _ _ _ G)).
    unfold end_object_value. rewrite end_value_at. now repeat rewrite <- app_assoc.
  Qed.
  Lemma item_next v w t t' o s i h k ne :
    writes v t -> writes w t' ->
    one_item (v, w) (Fmt o s false i h k ne)
    = Done (Fmt (o ++ (if c_objects c || on k then lit ", " else newline c i) ++
                 t (on k) i ++ lit " = " ++ t' (on k) i) s false i true k ne).
  Proof.
    intros F G. unfold one_item, begin_object_value. cbn [fst snd]. rewrite (seq_done _ _ _ _ (object_next _ _ _ _ _ _)).
    rewrite (seq_done _ _ _ _ (writes_at _ _ _ _ _ _ _ _ _ F)).
    rewrite (seq_done _ _ _ _ (writes_at _ _ _ _ _ _ _ _ _ (writes_put _))).
    rewrite (seq_done _ _ _ _ (writes_at _ _ _ _ _ _ _ _ _ G)).
    unfold end_object_value. rewrite end_value_at. now repeat rewrite <- app_assoc.
  Qed.
  Definition both (f : fm * fm) (t : (bool -> nat -> str) * (bool -> nat -> str)) : Prop :=
    writes (fst f) (fst t) /\ writes (snd f) (snd t).
  Lemma object_tail vs (ts : list ((bool -> nat -> str) * (bool -> nat -> str))) o s i k ne :
    Forall2 both vs ts ->
    each (map one_item vs) (Fmt o s false i true k ne)
    = Done (Fmt (o ++ flat_map (fun t => (if c_objects c || on k then lit ", " else newline c i) ++
                                         fst t (on k) i ++ lit " = " ++ snd t (on k) i) ts)
                s false i true k ne).
  Proof.
    intros F. revert o. induction F as [|[f g] [t t'] vs ts [F G] _ IH]; intros o; cbn [map each flat_map fst snd] in *.
    - unfold skip. now rewrite app_nil_r.
    - rewrite (seq_done _ _ _ _ (item_next _ _ _ _ _ _ _ _ _ _ F G)), IH. now repeat rewrite <- app_assoc.
  Qed.
  Lemma writes_object vs ts :
    Forall2 both vs ts ->
    writes (fm_object c vs)
      (fun k n => let k' := c_objects c || k in
                  obj_text c k' n (map (fun t : (bool -> nat -> str) * (bool -> nat -> str) =>
                                          (fst t k (deeper k' n), snd t k (deeper k' n))) ts)).
  Proof.
    intros F [o s fi i h k ne]. unfold fm_object. fold one_item.
    rewrite (seq_done _ _ _ _ (begin_object_at _ _ _ _ _ _ _)). cbn zeta.
    change (in_compact _) with (on k). cbn [f_indent].
    unfold add; cbn [f_out f_state f_first f_indent f_has f_compact f_nest]. unfold obj_text, seq_text.
    destruct F as [|[f g] [t t'] vs ts [F G] F2]; cbn [map each fst snd] in *.
    - unfold skip at 1, fseq at 1. cbn [rbind]. rewrite end_object_at.
      destruct (c_objects c || on k); now rewrite <- app_assoc.
    - erewrite seq_done by (erewrite seq_done by (apply item_first; [exact F|exact G]); apply object_tail; exact F2).
      rewrite end_object_at.
      destruct (c_objects c || on k); cbn [deeper]; f_equal; f_equal;
        repeat rewrite <- app_assoc; rewrite ?flat_map_concat_map, ?map_map; reflexivity.
  Qed.

  Lemma Forall2_map_self {A B C} (R : B -> C -> Prop) (f : A -> B) (g : A -> C) l :
    Forall (fun x => R (f x) (g x)) l -> Forall2 R (map f l) (map g l).
  Proof. induction 1; cbn; constructor; auto. Qed.
End Coll.

Section Sound.
  Context (u : unicode) (sf : f64 -> str) (c : cfg).

  Ltac w := first
    [ apply writes_put | apply writes_skip | apply writes_if | apply writes_seq ].

  Lemma writes_indent (f : nat -> str) : writes (fun st => put (f (f_indent st)) st) (fun _ n => f n).
  Proof. intros st. reflexivity. Qed.
  Lemma fm_tplexpr_writes t : writes (fm_tplexpr c t) (fun _ n => tplexpr_text c n t).
  Proof.
    destruct t as [s|d s m]; [apply writes_put|]. cbn [fm_tplexpr tplexpr_text].
    apply (writes_seq _ _ (fun _ _ => _)); [w|]. apply (writes_seq _ _ (fun _ _ => _)); [w|].
    apply (writes_seq _ _ (fun _ _ => _)); [w|]. apply (writes_seq _ _ (fun _ _ => _)); [w|].
    apply (writes_seq _ _ (fun _ _ => _)); [w; w|].
    apply (writes_indent (fun n => match m with HdNone => d | HdIndent => indented c n d end)).
  Qed.

  Lemma fm_args_writes l ts :
    Forall2 writes l ts -> writes (fm_args l) (fun k n => args_text (map (fun t : bool -> nat -> str => t k n) ts)).
  Proof.
    intros [|f t l0 ts0 F H]; [apply writes_skip|]. cbn [fm_args args_text map].
    apply writes_seq; [exact F|].
    refine (writes_ext _ (fun k n => concat (map (fun t : bool -> nat -> str => t k n) (map (fun (t : bool -> nat -> str) k n => lit ", " ++ t k n) ts0))) _ _ _).
    - apply writes_each. clear F. induction H as [|f' t' l1 ts1 F _ IH]; cbn [map]; constructor; auto.
      apply writes_seq; [w|exact F].
    - intros k n. now rewrite flat_map_concat_map, !map_map.
  Qed.

  Theorem fm_expr_writes e : writes (fm_expr u sf c e) (fun k n => show u sf c k n e).
  Proof.
    induction e as [|b|x|s|l IH|m IH|t|x|e ops IH IHo|f args ex IH|e IH|a b d Ia Ib Id|o e IH|l o r IHl IHr
                   |kv vv coll key val g cond Ic Ik Iv Id] using expr_ind'; cbn [fm_expr show]; try apply writes_put.
    - refine (writes_ext _ _ _ (writes_array c _ (map (fun e k n => show u sf c k n e) l) _) _).
      + apply Forall2_map_self. exact IH.
      + intros k n. cbn zeta. now rewrite map_map.
    - refine (writes_ext _ _ _ (writes_object c _ (map (fun p =>
          ((fun k n => match fst p with KIdent s => s | KExpr (EStr s) => str_key u c s | KExpr e => show u sf c k n e end),
           (fun k n => show u sf c k n (snd p)))) m) _) _).
      + apply Forall2_map_self. eapply Forall_impl; [|exact IH]. intros [k x] [Hk Hx]. split; [|exact Hx].
        cbn [fst snd] in *. destruct k as [s|e]; [apply writes_put|]. destruct e; try exact Hk; apply writes_put.
      + intros k n. cbn zeta. now rewrite map_map.
    - apply fm_tplexpr_writes.
    - apply writes_seq; [exact IH|].
      refine (writes_each_map _ (fun k n o => match o with
          | AttrSplat => lit ".*" | FullSplat => lit "[*]" | GetAttr s => lit "." ++ s
          | Index e => lit "[" ++ show u sf c k n e ++ lit "]" | LegacyIndex i => lit "." ++ show_N i end) _ _).
      eapply Forall_impl; [|exact IHo]. intros [| |s|i|i] H; try apply writes_put.
      + refine (writes_seq _ _ (fun _ _ => _) (fun _ _ => _) _ _); w.
      + refine (writes_seq _ _ (fun _ _ => _) _ _ _); [w|]. refine (writes_seq _ _ _ (fun _ _ => _) H _). w.
      + refine (writes_seq _ _ (fun _ _ => _) (fun _ _ => _) _ _); w.
    - refine (writes_seq _ _ (fun _ _ => _) _ _ _); [w|]. refine (writes_seq _ _ (fun _ _ => _) _ _ _); [w|].
      refine (writes_seq _ _ (fun _ n => _) (fun _ _ => _) _ _); [|w].
      refine (writes_ext _ _ _ (writes_compact _ _ (fm_args_writes _ (map (fun e k n => show u sf c k n e) args) _)) _).
      + apply Forall2_map_self. exact IH.
      + intros _ n. now rewrite map_map.
    - refine (writes_seq _ _ (fun _ _ => _) _ _ _); [w|]. refine (writes_seq _ _ _ (fun _ _ => _) IH _). w.
    - refine (writes_compact _ (fun k n => show u sf c k n a ++ lit " ? " ++ show u sf c k n b ++ lit " : " ++ show u sf c k n d) _).
      apply writes_seq; [exact Ia|]. refine (writes_seq _ _ (fun _ _ => _) _ _ _); [w|].
      apply writes_seq; [exact Ib|]. refine (writes_seq _ _ (fun _ _ => _) _ _ _); [w|]. exact Id.
    - refine (writes_seq _ _ (fun _ _ => _) _ _ IH). w.
    - apply writes_seq; [exact IHl|]. do 3 (refine (writes_seq _ _ (fun _ _ => _) _ _ _); [w|]). exact IHr.
    - cbn zeta.
      refine (writes_seq _ _ (fun _ _ => _) _ _ _); [w|]. refine (writes_seq _ _ (fun _ _ => _) _ _ _); [w|].
      refine (writes_seq _ _ (fun _ _ => match kv with Some k => k ++ lit ", " | None => [] end) _ _ _);
        [destruct kv; [refine (writes_seq _ _ (fun _ _ => _) (fun _ _ => _) _ _); w|w]|].
      refine (writes_seq _ _ (fun _ _ => _) _ _ _); [w|]. refine (writes_seq _ _ (fun _ _ => _) _ _ _); [w|].
      apply writes_seq; [exact Ic|]. refine (writes_seq _ _ (fun _ _ => _) _ _ _); [w|].
      refine (writes_seq _ _ (fun k n => match key with Some e => show u sf c k n e ++ lit " => " | None => [] end) _ _ _);
        [destruct key; [refine (writes_seq _ _ _ (fun _ _ => _) Ik _); w|w]|].
      apply writes_seq; [exact Iv|].
      refine (writes_seq _ _ (fun _ _ => _) _ _ _);
        [apply (writes_if _ _ _ (fun _ _ => _) (fun _ _ => _)); w|].
      refine (writes_seq _ _ (fun k n => match cond with Some e => lit " if " ++ show u sf c k n e | None => [] end) (fun _ _ => _) _ _); [|w].
      destruct cond; [refine (writes_seq _ _ (fun _ _ => _) _ _ Id); w|w].
  Qed.

  Theorem fm_value_writes v : writes (fm_value u sf c v) (fun k n => show_value u sf c k n v).
  Proof.
    induction v as [|b|x|s|l IH|m IH] using value_ind'; cbn [fm_value show_value]; try apply writes_put.
    - refine (writes_ext _ _ _ (writes_array c _ (map (fun e k n => show_value u sf c k n e) l) _) _).
      + apply Forall2_map_self. exact IH.
      + intros k n. cbn zeta. now rewrite map_map.
    - refine (writes_ext _ _ _ (writes_object c _ (map (fun p =>
          ((fun _ _ => str_key u c (fst p)), (fun k n => show_value u sf c k n (snd p)))) m) _) _).
      + apply Forall2_map_self. eapply Forall_impl; [|exact IH]. intros [k x] Hx. split; [apply writes_put|exact Hx].
      + intros k n. cbn zeta. now rewrite map_map.
  Qed.

  Lemma fm_strip_writes s f t : writes f t -> writes (fm_strip s f) (fun k n => strip_text s (t k n)).
  Proof.
    intros F. refine (writes_seq _ _ (fun _ _ => _) _ _ _); [apply (writes_if _ _ _ (fun _ _ => _) (fun _ _ => _)); w|].
    refine (writes_seq _ _ _ (fun _ _ => _) F _). apply (writes_if _ _ _ (fun _ _ => _) (fun _ _ => _)); w.
  Qed.
  Lemma fm_interp_writes s f t : writes f t -> writes (fm_interp s f) (fun k n => interp_text s (t k n)).
  Proof.
    intros F. refine (writes_seq _ _ (fun _ _ => _) _ _ _); [w|].
    refine (writes_seq _ _ _ (fun _ _ => _) (fm_strip_writes _ _ _ F) _). w.
  Qed.
  Lemma fm_directive_writes s f t : writes f t -> writes (fm_directive s f) (fun k n => directive_text s (t k n)).
  Proof.
    intros F. refine (writes_seq _ _ (fun _ _ => _) _ _ _); [w|].
    refine (writes_seq _ _ _ (fun _ _ => _) (fm_strip_writes _ _ _ _) _); [|w].
    refine (writes_seq _ _ (fun _ _ => _) _ _ _); [w|]. refine (writes_seq _ _ _ (fun _ _ => _) F _). w.
  Qed.
  Theorem fm_elem_writes e : writes (fm_elem u sf c e) (fun k n => show_elem u sf c k n e).
  Proof.
    induction e as [s|e s|a t f s1 s2 s3 It If|kv vv coll t s1 s2 It] using elem_ind'; cbn [fm_elem show_elem].
    - apply writes_put.
    - apply fm_interp_writes, fm_expr_writes.
    - apply writes_seq.
      { apply fm_directive_writes. refine (writes_seq _ _ (fun _ _ => _) _ _ (fm_expr_writes a)). w. }
      apply writes_seq; [apply writes_each_map; exact It|].
      refine (writes_seq _ _ (fun k n => match f with
        | Some t => directive_text s2 (lit "else") ++ concat (map (show_elem u sf c k n) t) | None => [] end) (fun _ _ => _) _ _).
      + destruct f; [|w].
        refine (writes_seq _ _ (fun _ _ => _) _ (fm_directive_writes _ _ (fun _ _ => _) (writes_put _)) _).
        apply writes_each_map. exact If.
      + apply (fm_directive_writes _ _ (fun _ _ => _)). w.
    - apply writes_seq.
      { apply fm_directive_writes. refine (writes_seq _ _ (fun _ _ => _) _ _ _); [w|].
        refine (writes_seq _ _ (fun _ _ => match kv with Some k => k ++ lit ", " | None => [] end) _ _ _);
        [destruct kv; [refine (writes_seq _ _ (fun _ _ => _) (fun _ _ => _) _ _); w|w]|].
        do 2 (refine (writes_seq _ _ (fun _ _ => _) _ _ _); [w|]). apply fm_expr_writes. }
      apply writes_seq; [apply writes_each_map; exact It|].
      apply (fm_directive_writes _ _ (fun _ _ => _)). w.
  Qed.
  Theorem fm_template_writes t : writes (fm_template u sf c t) (fun k n => show_template u sf c k n t).
  Proof. apply writes_each_map, Forall_forall. intros e _. apply fm_elem_writes. Qed.

  (** Structures also change [f_state]. *)
  Definition moves (f : fm) (t : bool -> nat -> fstate -> str) (next : fstate -> fstate) : Prop :=
    forall o s fi i h k ne,
      f (Fmt o s fi i h k ne) = Done (Fmt (o ++ t (on k) i s) (next s) fi i h k ne).
  Lemma each_moves (l : rbody) (F : struct_ -> fm) (T : bool -> nat -> struct_ -> str) :
    Forall (fun s => moves (F s) (fun k n st => gap c st s ++ T k n s) (fun _ => after_struct s)) l ->
    moves (each (map F l)) (fun k n st => body_text c (T k n) st l) (fun st => fold_left (fun _ s => after_struct s) l st).
  Proof.
    induction 1 as [|s l H _ IH]; intros o st fi i h k ne; cbn [map each body_text fold_left].
    - unfold skip. now rewrite app_nil_r.
    - rewrite (seq_done _ _ _ _ (H _ _ _ _ _ _ _)), IH. now repeat rewrite <- app_assoc.
  Qed.
  Theorem fm_struct_moves s :
    moves (fm_struct u sf c s) (fun k n st => gap c st s ++ show_struct u sf c k n s) (fun _ => after_struct s).
  Proof.
    induction s as [key e|i ls b IH] using struct_ind'; intros o st fi n h k ne; cbn [fm_struct show_struct after_struct].
    - assert (A : begin_attribute c (Fmt o st fi n h k ne)
                  = Done (Fmt (o ++ gap c st (SAttribute key e) ++ pad c n) AttributeStart fi n h k ne)).
      { unfold begin_attribute, maybe_newline, fseq, gap, before_struct. cbn [f_state].
        destruct (newline_between c st AttributeStart); cbn; unfold write_indent, put; cbn; [|reflexivity].
        now rewrite <- app_assoc. }
      rewrite (seq_done _ _ _ _ A). unfold begin_attribute_value.
      do 2 rewrite (seq_done _ _ _ _ (writes_at _ _ _ _ _ _ _ _ _ (writes_put _))).
      rewrite (seq_done _ _ _ _ (writes_at _ _ _ _ _ _ _ _ _ (fm_expr_writes e))).
      unfold end_attribute, fseq, put, set_state; cbn. now repeat rewrite <- app_assoc.
    - assert (A : begin_block c (Fmt o st fi n h k ne)
                  = Done (Fmt (o ++ gap c st (SBlk i ls b) ++ pad c n) BlockStart fi n h k ne)).
      { unfold begin_block, maybe_newline, fseq, gap, before_struct. cbn [f_state].
        destruct (newline_between c st BlockStart); cbn; unfold write_indent, put; cbn; [|reflexivity].
        now rewrite <- app_assoc. }
      rewrite (seq_done _ _ _ _ A).
      rewrite (seq_done _ _ _ _ (writes_at _ _ _ _ _ _ _ _ _ (writes_put _))).
      assert (L : writes (each (map (fun l => put (lit " ") ;; put (label_str l)) ls))
                    (fun _ _ => concat (map (fun l => lit " " ++ label_str l) ls))).
      { apply (writes_each_map _ (fun _ _ l => lit " " ++ label_str l)). apply Forall_forall. intros l _.
        refine (writes_seq _ _ (fun _ _ => _) (fun _ _ => _) _ _); w. }
      rewrite (seq_done _ _ _ _ (writes_at _ _ _ _ _ _ _ _ _ L)).
      assert (B : forall o, begin_block_body (Fmt o BlockStart fi n h k ne)
                  = Done (Fmt (o ++ lit " {") BlockBodyStart fi (S n) h k ne)) by reflexivity.
      rewrite (seq_done _ _ _ _ (B _)).
      rewrite (seq_done _ _ _ _ (each_moves b (fm_struct u sf c) (fun k n => show_struct u sf c k n) IH _ _ _ _ _ _ _)).
      unfold end_block, fseq, write_indent, less_indent, set_indent, put, set_state; cbn. rewrite flat_map_concat_map.
      repeat rewrite <- app_assoc. reflexivity.
  Qed.
  Theorem fm_body_moves b :
    moves (fm_body u sf c b) (fun k n st => show_body u sf c k n st b) (fun st => fold_left (fun _ s => after_struct s) b st).
  Proof. apply (each_moves b _ (fun k n => show_struct u sf c k n)), Forall_forall. intros s _. apply fm_struct_moves. Qed.
End Sound.

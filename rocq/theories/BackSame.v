(** * Reading printed trees: the text of what is read *)
From Coq Require Import NArith ZArith Arith Bool String List Lia.
From Verif Require Import Res Str Dec NumberModel PrimModel EAst EncModel EqSpec PrattSpec ParseSpec BackSpec SameSpec BackLex BackWear BackExpr BackColl.
Import ListNotations.
Open Scope N_scope.

Section Same.
Context {inp : str} (sf : f64 -> str).
Notation text := (x_text sf).
Notation D := (raw_despan inp).
Notation DX := (x_map D leave).
Notation Dm := (meta_map D).
Notation wears := (wears inp).
Notation slot := (@slot inp).
Notation gid_fits := (@gid_fits inp).

(** The text of [x], with texts in place of spans, is the text of [e]. *)
Definition same (e x : xexpr) : Prop := settled e -> forall q, text q (DX x) = text q e.
Lemma DX_meta x : x_meta (DX x) = Dm (x_meta x).
Proof. destruct x; reflexivity. Qed.
Lemma same_upd e f x : same e x -> same e (x_upd f x).
Proof. intros H S q. rewrite <- (H S q). destruct x; reflexivity. Qed.
Lemma lone_DX x : lone (DX x) <-> lone x.
Proof. destruct x; try reflexivity. destruct grouping, cond; reflexivity. Qed.
Lemma lone_bare x e : bare x = bare e -> lone e -> lone x.
Proof.
  destruct x; cbn [lone]; auto. destruct e; try discriminate. cbn [bare lone]. intros E. assert (E1 := f_equal (fun y => match y with XFor _ _ _ _ _ _ _ g c => (g, match c with None => true | Some _ => false end) | _ => (false, false) end) E).
  cbn in E1. destruct cond, cond0; cbn in E1; injection E1 as -> ; try discriminate; auto.
Qed.
Lemma lone_read x e : bare (DX x) = bare e -> lone e -> lone x.
Proof. intros H L. apply lone_DX. exact (lone_bare _ e H L). Qed.

Lemma worn_in q df a z x e : wears a z (x_meta x) -> worn a (fst df) = pre df (x_meta e) -> worn z (snd df) = suf df (x_meta e) -> text q (DX x) = text q e ->
  text_in (text q) df (DX x) = text_in (text q) df e.
Proof. intros H1 H2 H3 H4. unfold text_in. rewrite DX_meta, (wears_around inp df a z _ _ H1), H2, H3, H4. reflexivity. Qed.
Lemma slot_in q df x e (Q : xexpr -> Prop) : slot (pre df (x_meta e)) (suf df (x_meta e)) Q x -> text q (DX x) = text q e -> text_in (text q) df (DX x) = text_in (text q) df e.
Proof. intros [_ H] E. now apply (worn_in q df _ _ x e H). Qed.
Lemma bald_in q x : bald x -> lone x -> text_in (text q) NO (DX x) = text q (DX x).
Proof.
  intros [B1 B2] L. unfold text_in. rewrite DX_meta, (wears_around inp NO None None).
  - cbn [worn fst snd NO app]. apply app_nil_r.
  - split; [now rewrite B1|]. now rewrite (B2 L).
Qed.
Lemma left_around df a z m t : wears a z m -> around df (meta_map leave m) t = left_as a (fst df) ++ t ++ left_as z (snd df).
Proof. intros H. now rewrite <- (wears_left inp df a z m t H). Qed.
Lemma one_gap_left w : one_gap w -> left_as (Some w) SP = w.
Proof. intros [->| ->]; reflexivity. Qed.
Lemma gid_in df i i' : gid_fits (pre df (i_meta i), i_name i, suf df (i_meta i)) i' -> did_text df (did_map D i') = did_text df i.
Proof. intros [H1 H2]. unfold did_text, did_map. cbn [i_meta i_name fst snd] in *. rewrite (wears_around inp df _ _ _ _ H2), H1. reflexivity. Qed.

End Same.

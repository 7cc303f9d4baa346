(** * Repeated keys are rejected: proofs *)
From Coq Require Import NArith ZArith Arith Bool String List Lia.
From Verif Require Import Res Str Dec NumberModel PrimModel PrimProofs EAst EAstInd EncModel EqSpec EqProofs PrattSpec.
From Verif Require Import ParseBase ParseModel ParseSpec ParseLemmas Eat StrSpec StrProofs EatLeaf EatExpr EatColl ReadProofs.
From Verif Require Import BackSpec BackBodySpec BackEq BackLex BackExpr BackColl BackProofs BackAll BackPrint BackBody.
From Verif Require EatName.
Import ListNotations.
Open Scope N_scope.

(** The parser gives up for good between [t] and [r]. *)
Definition die (inp : str) {A} (p : parser A) (t r : str) : Prop :=
  forall o, tail_at inp o (t ++ r) -> p (mk o (t ++ r)) = PErr true (mk (o + blen t) r).
Section Die.
Context {inp : str}.
Lemma die_1 {A B} (p : parser A) (f : A -> parser B) t r : die inp p t r -> die inp (ParseBase.bind p f) t r.
Proof. intros H o Ho. unfold ParseBase.bind. now rewrite (H o Ho). Qed.
Lemma die_2 {A B} (p : parser A) (f : A -> parser B) t1 t2 P r :
  eat inp p t1 P (t2 ++ r) -> (forall a, P a -> die inp (f a) t2 r) -> die inp (ParseBase.bind p f) (t1 ++ t2) r.
Proof.
  intros H1 H2 o Ho. rewrite <- app_assoc in *. destruct (H1 o Ho) as (a & E & Ha). unfold ParseBase.bind. rewrite E. rewrite (H2 a Ha); [|now apply tail_app].
  rewrite blen_app. now rewrite N.add_assoc.
Qed.
Lemma die_look {A B} (p : parser A) (f : A -> parser B) t P r : eat inp p [] P (t ++ r) -> (forall a, P a -> die inp (f a) t r) -> die inp (ParseBase.bind p f) t r.
Proof. intros H1 H2. exact (die_2 p f [] t P r H1 H2). Qed.
Lemma die_with_span {A} (p : parser A) t r : die inp p t r -> die inp (with_span p) t r.
Proof. intros H o Ho. unfold with_span. now rewrite (H o Ho). Qed.
Lemma die_alt1 {A} (p q : parser A) t r : die inp p t r -> die inp (alt p q) t r.
Proof. intros H o Ho. unfold alt. now rewrite (H o Ho). Qed.
(** It gives up at the state [z]. *)
Definition halts (A : Type) (p : parser A) (s : str) (z : st) : Prop := forall o, tail_at inp o s -> p (mk o s) = PErr true z.
Lemma halts_2 {A B} (p : parser A) (f : A -> parser B) t P r z : eat inp p t P r -> (forall a, P a -> halts B (f a) r z) -> halts B (ParseBase.bind p f) (t ++ r) z.
Proof. intros H1 H2 o Ho. destruct (H1 o Ho) as (a & E & Ha). unfold ParseBase.bind. rewrite E. apply (H2 a Ha). now apply tail_app. Qed.
End Die.

Section Dup.
Context {inp : str} (u : unicode) (b : build) (pf : str -> f64) (sf : f64 -> str).
Context (HU : ascii_exact u).
Notation Rn n := (recs_at u b pf pratt_group items_insert n).
Notation idc := (is_id_continue u).
Notation T := EatLeaf.T.
Notation struct_ok := (struct_ok u b pf sf).
Notation STRUCT := (@STRUCT inp u b pf sf).
Notation line := (line sf). Notation lines := (lines sf).
Notation next := BackBody.next.

Lemma name_next g a r : Gap true g -> is_id_start u a = true -> next (g ++ a :: r).
Proof. intros Hg Ha. exists g, [], (a :: r). destruct (id_quiet u HU a r Ha) as (C1 & C2 & C3). repeat split; auto. Qed.
Lemma lines_then l rest : lall struct_ok l -> next rest -> next (lines false l ++ rest).
Proof.
  intros HL HR. destruct l as [|s l]; [exact HR|]. destruct HL as [HL _]. rewrite lines_cons. destruct (struct_gaps u b pf sf s HL) as (G1 & _). destruct (core_split u b pf sf s HL) as (a & t & E & Ha).
  unfold BackBody.line, around. rewrite E. repeat rewrite <- app_assoc. rewrite (app_assoc (pre _ _)). cbn [app]. now apply name_next.
Qed.

(** Lines before an item where the parser gives up. *)
Definition keys_after (l : list xstruct) (keys : list str) : list str := rev (attr_names l) ++ keys.
Lemma keys_after_cons s l keys : keys_after (s :: l) keys = keys_after l (new_keys s keys).
Proof. unfold keys_after, attr_names. destruct s; cbn [flat_map new_keys app rev]; [now rewrite <- app_assoc|reflexivity]. Qed.
Lemma die_lines j t r : next (t ++ r) -> forall l, Forall STRUCT l -> lall struct_ok l -> forall keys om n o, free keys l ->
  die inp (body_item u (Rn j) (keys_after l keys)) t r ->
  tail_at inp o ((lines false l ++ t) ++ r) -> (length (lines false l) < n)%nat -> (length (lines false l) <= j)%nat ->
  body_loop u (Rn j) n keys om (mk o ((lines false l ++ t) ++ r)) = PErr true (mk (o + blen (lines false l ++ t)) r).
Proof.
  intros HX. induction 1 as [|s l HS HL IH]; intros HR keys om n o HK HD Ho Hn Hj; (destruct n as [|n]; [lia|]).
  - cbn [BackBody.lines app] in *. cbn [body_loop]. change (keys_after [] keys) with keys in HD. now rewrite (HD o Ho).
  - destruct HR as [HR1 HR2]. rewrite lines_cons in *. cbn [andb] in *. set (t2 := lines false l) in *.
    assert (ET : ((line s ++ [10] ++ t2) ++ t) ++ r = (line s ++ [10]) ++ (t2 ++ t) ++ r) by now rewrite <- !app_assoc.
    rewrite ET in *. destruct HK as [HK1 HK2].
    assert (HKs : free keys [s]). { split; [destruct s; cbn; repeat constructor; intros []|]. intros x Hx. apply HK2. unfold attr_names in *. cbn [flat_map] in *. rewrite app_nil_r in Hx. apply in_or_app. now left. }
    assert (Hc : (1 <= length (core sf s))%nat) by (destruct (core_split u b pf sf s HR1) as (a & t' & -> & _); cbn [length]; lia).
    assert (Hlen : (length (core sf s) <= length (line s ++ [10%N]))%nat). { unfold BackBody.line, around. repeat rewrite app_length. lia. }
    assert (Hnext : next ((t2 ++ t) ++ r)) by (rewrite <- app_assoc; now apply lines_then).
    assert (HJ : (length (core sf s) <= j)%nat) by (repeat rewrite app_length in Hj; repeat rewrite app_length in Hlen; lia).
    destruct (read_item u b pf sf HU s keys j [] false ((t2 ++ t) ++ r) HS HR1 ltac:(constructor) HKs HJ Hnext o Ho) as ([[x ks] e] & E & H1 & H2 & H3).
    cbn [fst snd app line_break] in *. subst ks e. cbn [body_loop]. rewrite E. cbn [snd].
    destruct (Nat.eqb_spec (length ((t2 ++ t) ++ r)) (length ((line s ++ [10]) ++ (t2 ++ t) ++ r))) as [F|_].
    { rewrite (app_length (line s ++ [10])) in F. lia. }
    assert (HK' : free (new_keys s keys) l).
    { split; [unfold attr_names in *; cbn [flat_map] in HK1; destruct s; cbn [app] in HK1; [now inversion HK1|exact HK1]|]. intros y Hy. destruct s as [m k e|m i ls l']; cbn [new_keys existsb].
      - apply orb_false_iff. split; [|apply HK2; unfold attr_names; cbn [flat_map app]; now right]. unfold attr_names in HK1. cbn [flat_map app] in HK1. inversion HK1 as [|? ? Hnin _]; subst.
        destruct (seqb y (i_name k)) eqn:Ey; [|reflexivity]. apply seqb_eq in Ey. subst y. contradiction.
      - apply HK2. exact Hy. }
    rewrite keys_after_cons in HD. rewrite IH; auto.
    + f_equal. f_equal. rewrite <- N.add_assoc, <- blen_app. f_equal. f_equal. rewrite <- !app_assoc. reflexivity.
    + now apply tail_app.
    + fold t2. repeat rewrite app_length in Hn. cbn [length] in Hn. lia.
    + fold t2. repeat rewrite app_length in Hj. cbn [length] in Hj. lia.
Qed.
Lemma die_body j l t r : next (t ++ r) -> lall struct_ok l -> NoDup (attr_names l) -> (length (lines false l) <= j)%nat ->
  die inp (body_item u (Rn j) (keys_after l [])) t r -> die inp (pbody u (Rn j)) (lines false l ++ t) r.
Proof.
  intros HX HL HN Hj HD. unfold pbody. apply die_1, die_with_span. intros o Ho. cbv beta. cbn [snd]. apply die_lines; auto.
  - apply Forall_forall. intros s _. now apply all_STRUCT.
  - split; [exact HN|auto].
  - repeat rewrite app_length. lia.
Qed.

(** A repeated key. *)
Lemma die_key j keys g k w r : Gap true g -> is_ident u k = true -> Gap false w -> In k keys -> die inp (body_item u (Rn j) keys) g (k ++ w ++ [61] ++ r).
Proof.
  intros Hg Hk Hw HI. destruct (ident_split u k Hk) as (a & t & E & Ha). unfold body_item. rewrite <- (app_nil_r g).
  apply (die_2 _ _ g [] T).
  - apply eat_pspan; [|intros; exact I]. apply (eat_imp _ _ T); [|auto]. apply (eat_gap true); [exact Hg|]. rewrite E. cbn [app]. now apply (id_quiet u HU).
  - intros sp1 _. apply die_1. unfold structure. apply (die_look _ _ [] T); [now apply eat_pos|]. intros start _ o Ho. cbv beta. cbn [app] in *.
    set (s0 := mk o (k ++ w ++ 61 :: r)) in *.
    assert (HI' : existsb (seqb k) keys = true) by (apply existsb_exists; exists k; split; [exact HI|now apply seqb_eq]).
    assert (EB : blen [] = 0) by reflexivity. rewrite EB, N.add_0_r. fold s0. unfold s0 at 2.
    refine (halts_2 (peek (one_of (is_id_start u))) _ [] T (k ++ w ++ 61 :: r) s0 _ _ o Ho).
    + rewrite E. change ((a :: t) ++ w ++ 61 :: r) with ([a] ++ t ++ w ++ 61 :: r). apply eat_peek. now apply eat_one_of.
    + intros _ _. apply (halts_2 _ _ k (fun p => exists sp, p = (k, sp))).
      * apply eat_with_span, eat_cut, eat_str_ident; [exact Hk| |eauto]. apply (@gap_idc inp u HU false); [exact Hw|]. left. cbn [app ends]. now apply (not_cont u HU).
      * intros p (sp2 & ->). apply (halts_2 _ _ w T).
        -- apply eat_raw_any; [|intros; exact I]. apply (eat_imp _ _ T); [|auto]. apply (eat_gap false); [exact Hw|split; reflexivity].
        -- intros w' _. apply (halts_2 _ _ [] (eq 61)); [apply (eat_peek any [61]); now apply eat_any|]. intros c <-. cbv beta zeta. cbn [N.eqb Pos.eqb]. rewrite HI'.
           intros o' _. reflexivity.
Qed.

(** A block in which the parser gives up. *)
Lemma die_block_body j c t r : last_gap false c = true -> die inp (pbody u (Rn j)) t r -> die inp (block_body u (Rn (S j))) ([123] ++ c ++ [10] ++ t) r.
Proof.
  intros HC HD. destruct (last_gap_spec _ _ HC) as (w & z & EP & Hw & Hz). unfold block_body. apply (die_2 _ _ [123] _ T); [now apply eat_cut, eat_char|]. intros _ _.
  apply die_1, die_alt1. unfold prefix_decorated. rewrite EP. apply (die_2 _ _ (w ++ z) _ T).
  - apply eat_pspan; [|intros; exact I]. apply (eat_imp _ _ T); [|auto]. apply read_line_end; auto. right. exists [10]. eexists. split; [now left|]. cbn [app]. reflexivity.
  - intros sp1 _. unfold spanned. apply die_1, die_1, die_with_span. apply (die_2 _ _ [10] _ T).
    + unfold line_ending. apply eat_taken; [|exact I]. apply eat_alt1. now apply eat_tag.
    + intros _ _. exact HD.
Qed.
Lemma die_block j keys g i w ls c t r : Gap true g -> is_ident u i = true -> gap false w = true -> lall (label_ok u) ls -> spaced w ls -> last_gap false c = true ->
  die inp (pbody u (Rn j)) t r -> die inp (body_item u (Rn (S j)) keys) (g ++ i ++ w ++ flat_map label_text ls ++ [123] ++ c ++ [10] ++ t) r.
Proof.
  intros Hg Hi Hw H3 H4 HC HD. pose proof (die_block_body j c t r HC HD) as HB. set (B := [123] ++ c ++ [10] ++ t) in *.
  destruct (ident_split u i Hi) as (a & x & E & Ha). unfold body_item.
  assert (EB : exists r', B = 123 :: r') by (eexists; reflexivity). destruct EB as (B' & EB).
  assert (Hg0 : Gap false w) by (now apply gap_spec).
  rewrite labels_text. replace (i ++ w ++ (lgap ls ++ labels ls) ++ B) with (i ++ (w ++ lgap ls) ++ labels ls ++ B) by now rewrite <- !app_assoc.
  assert (HG : Gap false (w ++ lgap ls)) by (apply Gap_app; [exact Hg0|now apply (lgap_gap u)]).
  pose proof (@spaced_idc inp u HU w ls (B' ++ r) H3 Hg0 H4) as HI.
  assert (HCL : clear true (labels ls ++ B ++ r)) by (rewrite EB; cbn [app]; now apply (labels_clear u HU)).
  set (gg := w ++ lgap ls) in *. clearbody B gg.
  apply (die_2 _ _ g _ T).
  { apply eat_pspan; [|intros; exact I]. apply (eat_imp _ _ T); [|auto]. apply (eat_gap true); [exact Hg|]. rewrite E. cbn [app]. now apply (id_quiet u HU). }
  intros sp1 _. apply die_1. unfold structure. apply (die_look _ _ _ T); [now apply eat_pos|]. intros start _ o Ho. cbv beta.
  match goal with |- ?p _ = _ => enough (HX : die inp p (i ++ gg ++ labels ls ++ B) r) by exact (HX o Ho) end.
  apply (die_look _ _ _ T).
  { rewrite E. repeat rewrite <- app_assoc. change ((a :: x) ++ gg ++ labels ls ++ B ++ r) with ([a] ++ x ++ gg ++ labels ls ++ B ++ r). apply eat_peek. now apply eat_one_of. }
  intros _ _. apply (die_2 _ _ i _ (fun p => exists sp, p = (i, sp))).
  { apply eat_with_span, eat_cut, eat_str_ident; [exact Hi| |eauto]. rewrite EB. repeat rewrite <- app_assoc. cbn [app]. exact HI. }
  intros p (sp2 & ->). apply (die_2 _ _ gg _ T).
  { apply eat_raw_any; [|intros; exact I]. apply (eat_imp _ _ T); [|auto]. apply (eat_gap false); [exact HG|apply clear_down; rewrite <- app_assoc; exact HCL]. }
  intros w' _. destruct ls as [|lb ls].
  - cbn [labels app]. apply (die_look _ _ _ (eq 123)); [rewrite EB; apply (eat_peek any [123] (eq 123) (B' ++ r)); now apply eat_any|intros y <-]. cbv beta zeta. cbn [N.eqb Pos.eqb].
    apply die_1. exact HB.
  - assert (HL : label_ok u lb) by apply H3.
    destruct (label_split u lb HL) as (y & t' & Ea & Hy). destruct (label_char u HU y [] Hy) as (C1 & C2 & _).
    apply (die_look _ _ _ (eq y)); [|intros y' <-].
    { cbn [labels]. rewrite Ea. cbn [app]. apply (eat_peek any [y]). now apply eat_any. }
    cbv beta zeta. rewrite C1, C2, Hy.
    eapply (die_2 _ _ (labels (lb :: ls)) B); [rewrite EB; cbn [app]; apply (read_labels u HU _ w); auto|]. intros xs _.
    apply die_1. exact HB.
Qed.

Lemma lines_show l : lall struct_ok l -> show_body sf (XBody no_meta l false false) = lines false l.
Proof. intros H. rewrite (print_body u b pf sf no_meta l false false H). cbn. now rewrite app_nil_r. Qed.
Lemma attr_names_ident l k : lall struct_ok l -> In k (attr_names l) -> is_ident u k = true.
Proof.
  induction l as [|s l IH]; [intros _ []|]. intros [H1 H2] HI. unfold attr_names in HI. cbn [flat_map] in HI. apply in_app_or in HI. destruct HI as [HI|HI]; [|now apply IH].
  destruct s as [m i v|]; [|destruct HI]. destruct HI as [<-|[]]. apply H1.
Qed.
Lemma repeats_next t r : repeats u b pf sf t r -> next (t ++ r).
Proof.
  intros []; (match goal with H : lines_of _ _ _ _ _ _ |- _ => destruct H as (HL & HN & ->) end); rewrite lines_show by exact HL; rewrite <- app_assoc; apply lines_then; auto.
  - destruct (ident_split u k (attr_names_ident _ _ HL H0)) as (a & x & -> & Ha). cbn [app]. apply name_next; [now apply gap_spec|exact Ha].
  - destruct (ident_split u i H1) as (a & x & -> & Ha). repeat rewrite <- app_assoc. cbn [app]. apply name_next; [now apply gap_spec|exact Ha].
Qed.
Lemma repeats_die t r : repeats u b pf sf t r -> forall j, (length (t ++ r) <= j)%nat -> die inp (pbody u (Rn j)) t r.
Proof.
  induction 1 as [l t g k w r HL Hk Hg Hw|l t g i w ls c t' r HL Hg Hi Hw H3 H4 HC HR IH]; destruct HL as (HL & HN & ->); intros j Hj; rewrite lines_show in * by exact HL.
  - apply die_body; auto.
    + destruct (ident_split u k (attr_names_ident _ _ HL Hk)) as (a & x & -> & Ha). cbn [app]. apply name_next; [now apply gap_spec|exact Ha].
    + repeat rewrite app_length in Hj. lia.
    + apply die_key; [now apply gap_spec|now apply (attr_names_ident l)|now apply gap_spec|]. unfold keys_after. rewrite app_nil_r. now apply in_rev in Hk.
  - apply die_body; auto.
    + destruct (ident_split u i Hi) as (a & x & -> & Ha). repeat rewrite <- app_assoc. cbn [app]. apply name_next; [now apply gap_spec|exact Ha].
    + repeat rewrite app_length in Hj. lia.
    + destruct j as [|j]; [repeat rewrite app_length in Hj; cbn [length] in Hj; lia|]. apply die_block; auto; [now apply gap_spec|]. apply IH. repeat rewrite app_length in *. cbn [length] in Hj. lia.
Qed.
End Dup.
Lemma repeats_rejected u b pf sf t r : ascii_exact u -> repeats u b pf sf t r -> parse_body u b pf (t ++ r) = ParseError (blen t).
Proof.
  intros HU HR. pose proof (@repeats_die (t ++ r) u b pf sf HU t r HR (length (t ++ r)) ltac:(lia) 0 ltac:(apply tail_0)) as E.
  unfold parse_body, parse_body_with, parse_body_raw, parse, top. cbn [recs_at unroll r_body]. unfold ParseBase.bind at 1. change (mk 0 (t ++ r)) with (@pair N str 0 (t ++ r)) in E. rewrite E. reflexivity.
Qed.

(** * Formatted bodies are read back: proofs *)
From Coq Require Import NArith ZArith Arith Bool String List Lia.
From Verif Require Import Res Str Dec NumberModel PrimModel PrimProofs Ast AstInd EAst EqSpec.
From Verif Require Import ConvModel ConvSpec ConvProofs PrattSpec FmtModel FmtSpec FmtLayout.
From Verif Require Import ParseBase ParseModel ParseLemmas ParseSpec ParseFacts Eat StrSpec StrProofs EatLeaf EatExpr EatColl ReadProofs EatName.
From Verif Require Import FmtReadSpec FmtReadProofs.
Import ListNotations.
Open Scope N_scope.

Section Body.
Context {inp : str} (u : unicode) (b : build) (pf : str -> f64) (sf : f64 -> str) (c : cfg).
Context (HU : ascii_exact u) (HI : forallb is_space (c_indent c) = true).
Notation Rn n := (recs_at u b pf pratt_group items_insert n).
Notation idc := (is_id_continue u).
Notation pad := (pad c). Notation show_struct := (show_struct u sf c). Notation body_text := (body_text c).
Notation struct_readable := (struct_readable u b pf sf c).
Notation SR := (struct_as_read u c).
Notation D := (raw_despan inp).
Notation Q := (@Q inp u sf c).
(** What is read stands for the structure after the spans have been replaced by texts. *)
Definition SQ (s : struct_) (x : xstruct) : Prop := of_struct sf (struct_map D leave x) = SR s.
Definition BQ (l : rbody) (x : xbody) : Prop := of_body sf (body_map D leave x) = map SR l.
Definition LQ (l : blabel) (x : xlabel) : Prop := of_label x = l /\ forall f, of_label (label_map f x) = l.
Lemma SQ_upd h s x : SQ s x -> SQ s (struct_upd h x).
Proof. now destruct x. Qed.
Lemma BQ_upd h l x : BQ l x -> BQ l (body_upd h x).
Proof. now destruct x. Qed.
Lemma LQ_upd h l x : LQ l x -> LQ l (label_upd h x).
Proof. now destruct x. Qed.

(** ** Labels *)
Definition labels_text (ls : list blabel) : str := flat_map (fun l => label_str l ++ [32]) ls.
Lemma label_split l : label_readable u l -> exists a t, label_str l = a :: t /\ ((a =? 34) || is_id_start u a = true).
Proof.
  destruct l as [x|s]; cbn [label_readable label_str].
  - destruct x as [|a x]; [discriminate|]. cbn [is_ident]. rewrite andb_true_iff. intros [H _]. exists a, x. now rewrite H, orb_true_r.
  - intros _. exists 34, (fescaped s ++ [34]). split; reflexivity.
Qed.
Lemma label_char a : (a =? 34) || is_id_start u a = true -> (a =? 61) = false /\ (a =? 123) = false /\ is_space a = false /\ (a =? 35) = false /\ (a =? 47) = false.
Proof.
  intros H. apply orb_true_iff in H. destruct H as [H|H]; [apply N.eqb_eq in H; subst a; repeat split; reflexivity|].
  unfold is_space. rewrite !(id_start_not u HU a _ H) by (lia || reflexivity). repeat split; reflexivity.
Qed.
(** Where something follows blanks. *)
Definition solid (r : str) : Prop := ends (blank false) r /\ nocomment r = true.
Lemma solid_char a r : is_space a = false -> (a =? 35) = false -> (a =? 47) = false -> solid (a :: r).
Proof.
  intros H1 H2 H3. split; [exact H1|]. unfold nocomment. lits. cbn [starts_with]. rewrite (N.eqb_sym 35), (N.eqb_sym 47), H2, H3. reflexivity.
Qed.
Lemma solid_label l r : label_readable u l -> solid (label_str l ++ r).
Proof. intros H. destruct (label_split l H) as (a & t & -> & Ha). destruct (label_char a Ha) as (_ & _ & H1 & H2 & H3). now apply solid_char. Qed.
Lemma eat_sp w r (Q : unit -> Prop) : forallb is_space w = true -> solid r -> Q tt -> eat inp sp w Q r.
Proof. intros H1 [H2 H3] HQ. eapply eat_imp; [apply (eat_blank false); [exact H1|exact H2|exact H3]|]. now intros []. Qed.
Lemma eat_label l r : label_readable u l -> solid r -> eat inp (suffix_decorated label_upd (block_label u) sp) (label_str l ++ [32]) (LQ l) r.
Proof.
  intros HL [H1 H2]. apply (eat_suffix label_upd false (block_label u) (label_str l) [32] (LQ l)); [reflexivity|exact H1|exact H2| |].
  - unfold block_label. destruct l as [x|s]; cbn [label_readable label_str] in *.
    + apply eat_alt2.
      * apply miss_pmap. unfold pstring. apply miss_bind1, miss_char. destruct x as [|a x]; [discriminate|]. cbn [is_ident] in HL. apply andb_true_iff in HL. destruct HL as [HL _].
        cbn [app ends]. rewrite N.eqb_sym. now apply (id_start_not u HU).
      * apply eat_pmap. unfold ident. apply eat_pmap. apply eat_str_ident; [exact HL|now apply (not_cont u HU)|]. split; reflexivity.
    + apply eat_alt1, eat_pmap. apply (eat_pstring (fescaped s) s); [now apply fquoted_reads|]. split; reflexivity.
  - intros f g x Hx. now apply LQ_upd, LQ_upd.
Qed.
Lemma eat_labels ls r : lall (label_readable u) ls -> eat inp (block_labels u) (labels_text ls) (Forall2 LQ ls) (123 :: r).
Proof.
  intros HL. apply eat_many0. revert HL.
  assert (G : forall ls (Q : list xlabel -> Prop), lall (label_readable u) ls -> (forall xs, Forall2 LQ ls xs -> Q xs) -> eat_loop inp (suffix_decorated label_upd (block_label u) sp) (labels_text ls) Q (123 :: r)).
  2: { intros HL. now apply G. }
  clear ls. induction ls as [|l ls IH]; intros Q HL HQ; cbn [labels_text flat_map].
  - apply eat_loop_nil; [|apply HQ; constructor]. unfold suffix_decorated, spanned. apply miss_bind1, miss_bind1, miss_with_span. unfold block_label. apply miss_alt; apply miss_pmap.
    + unfold pstring. now apply miss_bind1, miss_char.
    + unfold ident, str_ident. apply miss_pmap, miss_taken, miss_bind1, miss_one_of. cbn [ends]. apply not_true_iff_false. intros E. pose proof (id_start_not u HU 123 123 E). now discriminate H.
  - destruct HL as [H1 H2]. apply (eat_loop_cons _ (label_str l ++ [32]) (labels_text ls) (LQ l)).
    + now destruct (label_str l).
    + apply eat_label; [exact H1|]. destruct ls as [|l' ls]; [now apply solid_char|]. cbn [labels_text flat_map]. rewrite <- !app_assoc. apply solid_label, H2.
    + intros x Hx. apply IH; [exact H2|]. intros xs Hxs. apply HQ. now constructor.
Qed.

(** ** Structures *)
Definition core (k : bool) (d : nat) (s : struct_) : str :=
  match s with
  | SAttribute key e => key ++ [32] ++ [61] ++ [32] ++ show u sf c k d e
  | SBlk i ls l => i ++ [32] ++ labels_text ls ++ [123] ++ (body_text (show_struct k (S d)) BlockBodyStart l ++ pad d) ++ [125]
  end.
Lemma labels_shift ls r : flat_map (fun l => lit " " ++ label_str l) ls ++ lit " {" ++ r = [32] ++ labels_text ls ++ [123] ++ r.
Proof.
  induction ls as [|l ls IH]; cbn [flat_map labels_text]; [reflexivity|]. rewrite <- !app_assoc, IH. lits. cbn [app]. reflexivity.
Qed.
Lemma core_text k d s : show_struct k d s = pad d ++ core k d s ++ [10].
Proof.
  destruct s as [key e|i ls l]; cbn [FmtSpec.show_struct core].
  - rewrite <- !app_assoc. do 2 f_equal.
  - rewrite labels_shift. rewrite <- !app_assoc. lits. reflexivity.
Qed.
Lemma core_calm k d s : struct_readable s -> calm (core k d s).
Proof. destruct s as [key e|i ls l]; cbn [FmtReadSpec.struct_readable core]; intros [H _]; now apply calm_app, (calm_ident u HU). Qed.

(** What follows the line of a structure does not continue its value. *)
Definition next (r : str) : Prop := call2 (l2 (EatLeaf.skip true r)) = false /\ stop (EatLeaf.skip true r) = true.
Lemma next_calm w r : multi w -> calm r -> next (w ++ r).
Proof. intros Hw Hr. unfold next. rewrite (skip_app true w r Hw). destruct (calm_stop r Hr) as (H1 & H2 & H3). rewrite H3. auto. Qed.
Lemma next_nil w : multi w -> next w.
Proof. intros Hw. unfold next. rewrite <- (app_nil_r w). rewrite (skip_app true w [] Hw). split; reflexivity. Qed.
Lemma next_ctx w r : next r -> ctx u stop w false (10 :: r).
Proof.
  intros [H1 H2]. split; [now apply (not_cont u HU)|]. split; [exact I|]. intros m _ _. destruct m.
  - change (10 :: r) with ([10] ++ r). rewrite (skip_app true [10]) by reflexivity. auto.
  - rewrite skip_ends by reflexivity. split; [now destruct r|reflexivity].
Qed.
Definition new_keys (s : struct_) (keys : list str) : list str := match s with SAttribute k _ => k :: keys | SBlk _ _ _ => keys end.
Definition free (keys : list str) (l : rbody) : Prop := NoDup (attr_keys l) /\ forall x, In x (attr_keys l) -> existsb (seqb x) keys = false.
Definition STRUCT (s : struct_) : Prop := struct_readable s -> forall k d keys j rest, free keys [s] -> (length (core k d s) <= j)%nat -> next rest ->
  eat inp (structure u (Rn j) keys) (core k d s) (fun p => SQ s (fst p) /\ snd p = new_keys s keys) (10 :: rest).

Lemma eat_gap r (Q : raw -> Prop) : solid r -> (forall w, Q w) -> eat inp (raw_string sp) [32] Q r.
Proof. intros Hs HQ. unfold raw_string. apply eat_pmap, eat_pspan; [now apply eat_sp|auto]. Qed.
Lemma eat_value n k d e rest : readable u b pf sf c e -> (S (length (show u sf c k d e)) < n)%nat -> next rest ->
  eat inp (attribute_expr (Rn n)) ([61] ++ [32] ++ show u sf c k d e) (Q e) (10 :: rest).
Proof.
  intros HR Hn Hr. unfold attribute_expr. apply (eat_bind _ _ [61] _ EatLeaf.T); [now apply eat_cut, eat_char|]. intros _ _.
  pose proof (show_opens u b pf sf c HU e HR k d) as HO.
  apply (eat_prefix x_upd false _ [32] _ (Q e)); [reflexivity|now apply (opens_ends u HU)|now apply (opens_nocomment u HU)| |].
  - apply EXPR_rec; [|lia]. apply (expr_read u b pf sf c HU HI); [exact HR|now apply next_ctx].
  - intros f g x Hx. now apply Q_stable, Q_stable.
Qed.
Lemma STRUCT_attr key e : STRUCT (SAttribute key e).
Proof.
  intros [H1 H2] k d keys j rest [_ HF] Hj Hr. unfold structure. cbn [core] in *. rewrite app_length in Hj. cbn [length] in Hj.
  apply (eat_bind' _ _ _ [] (key ++ [32] ++ [61] ++ [32] ++ show u sf c k d e) EatLeaf.T); [reflexivity|now apply eat_pos|]. intros start _.
  intros o Ho. cbv beta.
  refine (eat_name u _ key ([32] ++ [61] ++ [32] ++ show u sf c k d e) _ _ (10 :: rest) H1 _ _ o Ho); [now apply (not_cont u HU)|]. intros sp'. cbv beta iota.
  apply (eat_bind _ _ [32] ([61] ++ [32] ++ show u sf c k d e) EatLeaf.T); [apply eat_gap; [now apply solid_char|intros; exact I]|]. intros w _.
  apply (eat_bind' _ _ _ [] ([61] ++ [32] ++ show u sf c k d e) (eq 61)); [reflexivity| |intros a <-].
  - rewrite <- app_assoc. apply (eat_peek any [61]). now apply eat_any.
  - cbv beta zeta. cbn [N.eqb Pos.eqb]. rewrite (HF key) by (left; reflexivity).
    apply (eat_bind' _ _ _ ([61] ++ [32] ++ show u sf c k d e) [] (Q e)); [now rewrite app_nil_r| |].
    + apply eat_value; [exact H2|cbn [app length] in Hj; cbn [app length]; destruct key; [discriminate|cbn [length] in Hj; lia]|exact Hr].
    + intros x (A1 & A2). apply (eat_bind' _ _ _ [] [] EatLeaf.T); [reflexivity|now apply eat_pos|]. intros z _. apply eat_ret. cbn [fst snd new_keys]. split; [|reflexivity].
      unfold SQ. cbn [struct_map of_struct did_map i_name struct_as_read]. now rewrite A2.
Qed.

(** ** Items *)
Lemma eat_item s k d keys j w rest : STRUCT s -> struct_readable s -> multi w -> free keys [s] -> (length (core k d s) <= j)%nat -> next rest ->
  eat inp (body_item u (Rn j) keys) (w ++ core k d s ++ [10]) (fun p => SQ s (fst (fst p)) /\ snd (fst p) = new_keys s keys /\ snd p = false) rest.
Proof.
  intros HS HR Hw HF Hj Hr. unfold body_item. destruct (core_calm k d s HR) as (a & t & E & Ha1 & Ha2). lits_in Ha2. cbn [existsb] in Ha2. rewrite !orb_false_iff in Ha2.
  apply (eat_bind _ _ w (core k d s ++ [10]) EatLeaf.T).
  - apply eat_pspan; [|intros; exact I]. apply (eat_blank true); [exact Hw|rewrite E; exact Ha1|]. rewrite E. unfold nocomment. lits. cbn [app starts_with]. rewrite (N.eqb_sym 35), (N.eqb_sym 47).
    destruct Ha2 as (-> & -> & _). reflexivity.
  - intros sp1 _. apply (eat_bind _ _ (core k d s) [10] (fun p => SQ s (fst p) /\ snd p = new_keys s keys)); [now apply HS|]. intros [x ks] [H1 H2]. cbn [fst snd] in H1, H2.
    apply (eat_bind' _ _ [10] [] [10] EatLeaf.T); [reflexivity| |].
    + apply eat_pspan; [|intros; exact I]. unfold sp_comment. apply (eat_bind' _ _ [] [] [] EatLeaf.T); [reflexivity|apply eat_sp; [reflexivity|now apply solid_char|exact I]|]. intros _ _.
      apply (eat_bind' _ _ [] [] [] EatLeaf.T); [reflexivity| |intros; now apply eat_ret]. apply eat_opt_none; [|exact I]. unfold line_comment.
      apply (miss_bind2 (peek any) _ [] (eq 10)); [apply (eat_peek any [10]); now apply eat_any|]. intros y <-. cbn [N.eqb Pos.eqb]. apply miss_fail.
    + intros sp2 _. apply (eat_bind' _ _ [10] [10] [] (eq false)); [reflexivity| |].
      * apply eat_cut, eat_alt1. apply (eat_bind' _ _ [10] [10] [] EatLeaf.T); [reflexivity| |intros; now apply eat_ret].
        unfold line_ending. apply eat_taken; [|exact I]. apply eat_alt1. now apply eat_tag.
      * intros z <-. apply eat_ret. cbn [fst snd]. split; [now apply SQ_upd|auto].
Qed.
(** Where a body ends. *)
Definition closing (r : str) : Prop := r = [] \/ exists r', r = 125 :: r'.
Lemma miss_item keys j w r : multi w -> closing r -> miss inp (body_item u (Rn j) keys) (w ++ r).
Proof.
  intros Hw Hr. unfold body_item. apply (miss_bind2 _ _ w EatLeaf.T r).
  - apply eat_pspan; [|intros; exact I]. apply (eat_blank true); [exact Hw|destruct Hr as [-> |(r' & ->)]; [exact I|reflexivity]|destruct Hr as [-> |(r' & ->)]; reflexivity].
  - intros sp1 _. apply miss_bind1. unfold structure. apply (miss_bind2 pos _ [] EatLeaf.T r); [now apply eat_pos|]. intros start _. intros o Ho. cbv beta.
    enough (M : miss inp (peek (one_of (is_id_start u))) r) by (destruct (M o Ho) as (s' & E); unfold ParseBase.bind at 1; rewrite E; eauto).
    apply miss_peek, miss_one_of. destruct Hr as [-> |(r' & ->)]; [exact I|exact (not_start u HU)].
Qed.
Lemma body_next st l k d w r : multi w -> closing r -> lall struct_readable l -> next (body_text (show_struct k d) st l ++ w ++ r).
Proof.
  intros Hw Hr HL. destruct l as [|s l]; cbn [FmtSpec.body_text].
  - cbn [app]. destruct Hr as [-> |(r' & ->)]; [rewrite app_nil_r; now apply next_nil|]. apply next_calm; [exact Hw|]. exists 125, r'. repeat split; reflexivity.
  - destruct HL as [HL _]. rewrite core_text, <- !app_assoc. rewrite (app_assoc (gap c st s)). apply next_calm; [|now apply calm_app, core_calm].
    rewrite forallb_app. apply andb_true_iff. split; [unfold gap; now destruct (newline_between c st (before_struct s))|now apply (pad_multi c HI)].
Qed.
Lemma loop_items j k d w r (Hw : multi w) (Hr : closing r) : forall l, Forall STRUCT l -> lall struct_readable l -> forall keys st n o, free keys l ->
  tail_at inp o (body_text (show_struct k d) st l ++ w ++ r) -> (length (body_text (show_struct k d) st l) < n)%nat -> (length (body_text (show_struct k d) st l) <= j)%nat ->
  exists xs, body_loop u (Rn j) n keys false (mk o (body_text (show_struct k d) st l ++ w ++ r)) = POk (xs, false) (mk (o + blen (body_text (show_struct k d) st l)) (w ++ r)) /\ Forall2 SQ l xs.
Proof.
  induction 1 as [|s l HS HL IH]; intros HR keys st n o HF Ho Hn Hj; (destruct n as [|n]; [lia|]); cbn [FmtSpec.body_text] in *.
  - exists []. split; [|constructor]. cbn [body_loop app blen]. destruct (miss_item keys j w r Hw Hr o Ho) as (s' & ->). cbn [app] in *. unfold blen. cbn [map fold_right]. rewrite N.add_0_r. reflexivity.
  - destruct HR as [HR1 HR2]. rewrite core_text in *. set (g := gap c st s) in *. set (t2 := body_text (show_struct k d) (after_struct s) l) in *.
    assert (Hg : multi (g ++ pad d)). { rewrite forallb_app. apply andb_true_iff. split; [unfold g, gap; now destruct (newline_between c st (before_struct s))|now apply (pad_multi c HI)]. }
    assert (ET : g ++ (pad d ++ core k d s ++ [10]) ++ t2 = ((g ++ pad d) ++ core k d s ++ [10]) ++ t2) by now rewrite <- !app_assoc.
    rewrite ET in *. rewrite <- (app_assoc _ t2) in *. destruct HF as [HF1 HF2].
    assert (HF1s : free keys [s]). { split; [destruct s; cbn; repeat constructor; intros []|]. intros x Hx. apply HF2. unfold attr_keys in *. cbn [flat_map] in *. rewrite app_nil_r in Hx. apply in_or_app. now left. }
    assert (Hlen : (length (core k d s) <= j)%nat). { rewrite !app_length in Hj. lia. }
    destruct (eat_item s k d keys j (g ++ pad d) (t2 ++ w ++ r) HS HR1 Hg HF1s Hlen (body_next _ l k d w r Hw Hr HR2) o Ho) as ([[x ks] e] & E & H1 & H2 & H3).
    cbn [fst snd] in H1, H2, H3. subst ks e. cbn [body_loop]. rewrite E. cbn [snd]. rewrite !app_length in *. cbn [length] in *.
    destruct (Nat.eqb_spec (length t2 + (length w + length r)) (length g + length (pad d) + (length (core k d s) + 1) + (length t2 + (length w + length r)))) as [F|_]; [lia|].
    assert (HF' : free (new_keys s keys) l).
    { split; [unfold attr_keys in *; cbn [flat_map] in HF1; destruct s; cbn [app] in HF1; [now inversion HF1|exact HF1]|]. intros y Hy. destruct s as [key e|i ls l']; cbn [new_keys existsb].
      - apply orb_false_iff. split; [|apply HF2; unfold attr_keys; cbn [flat_map app]; now right]. unfold attr_keys in HF1. cbn [flat_map app] in HF1. inversion HF1 as [|? ? Hnin _]; subst.
        destruct (seqb y key) eqn:Ey; [|reflexivity]. apply seqb_eq in Ey. subst y. contradiction.
      - apply HF2. exact Hy. }
    cbn [orb]. destruct (IH HR2 (new_keys s keys) (after_struct s) n (o + blen ((g ++ pad d) ++ core k d s ++ [10])) HF') as (xs & E' & Hxs).
    + now apply tail_app.
    + fold t2. lia.
    + fold t2. lia.
    + fold t2 in E'. rewrite E'. exists (x :: xs). split; [|now constructor]. f_equal. f_equal. rewrite (blen_app _ t2). lia.
Qed.
Lemma eat_body j k d w r l st : Forall STRUCT l -> lall struct_readable l -> NoDup (attr_keys l) -> multi w -> closing r -> (length (body_text (show_struct k d) st l) <= j)%nat ->
  eat inp (pbody u (Rn j)) (body_text (show_struct k d) st l ++ w) (BQ l) r.
Proof.
  intros HS HR HN Hw Hr Hj. unfold pbody. apply (eat_bind _ _ (body_text (show_struct k d) st l) w (fun p => snd (fst p) = false /\ Forall2 SQ l (fst (fst p)))).
  - apply eat_with_span. intros o Ho. cbv beta. cbn [snd]. destruct (loop_items j k d w r Hw Hr l HS HR [] st (S (length (body_text (show_struct k d) st l ++ w ++ r))) o) as (xs & E & Hxs); auto.
    + split; [exact HN|auto].
    + rewrite app_length. lia.
    + exists (xs, false). split; [exact E|]. auto.
  - intros [[xs omit] sp'] [H1 H2]. cbn [fst snd] in *. subst omit. apply (eat_bind' _ _ w w [] EatLeaf.T); [now rewrite app_nil_r| |].
    + unfold raw_string. apply eat_pmap, eat_pspan; [|intros; exact I]. apply (eat_blank true); [exact Hw|destruct Hr as [-> |(r' & ->)]; [exact I|reflexivity]|destruct Hr as [-> |(r' & ->)]; reflexivity].
    + intros z _. apply eat_ret. clear - H2. unfold BQ. cbn [of_body body_map].
      change (map (of_struct sf) (map (struct_map D leave) xs) = map SR l). induction H2 as [|s x l xs A _ IH]; [reflexivity|]. cbn [map]. now rewrite A, IH.
Qed.

(** ** Blocks *)
Lemma body_gap k d s l : body_text (show_struct k d) BlockBodyStart (s :: l) = [10] ++ body_text (show_struct k d) Initial (s :: l).
Proof. reflexivity. Qed.
Lemma eat_no_comment w r : forallb is_space w = true -> is_space r = false -> (r =? 35) = false -> (r =? 47) = false -> forall r', eat inp sp_comment w EatLeaf.T (r :: r').
Proof.
  intros Hw H1 H2 H3 r'. unfold sp_comment. apply (eat_bind' _ _ w w [] EatLeaf.T); [now rewrite app_nil_r|apply eat_sp; [exact Hw|now apply solid_char|exact I]|]. intros _ _.
  apply (eat_bind' _ _ [] [] [] EatLeaf.T); [reflexivity| |intros; now apply eat_ret]. apply eat_opt_none; [|exact I]. unfold line_comment.
  apply (miss_bind2 (peek any) _ [] (eq r)); [apply (eat_peek any [r]); now apply eat_any|]. intros y <-. rewrite H2, H3. apply miss_fail.
Qed.
Lemma eat_block_body j k d l r : Forall STRUCT l -> lall struct_readable l -> NoDup (attr_keys l) -> (length (body_text (show_struct k (S d)) BlockBodyStart l) < j)%nat ->
  eat inp (block_body u (Rn j)) ([123] ++ (body_text (show_struct k (S d)) BlockBodyStart l ++ pad d) ++ [125]) (BQ l) r.
Proof.
  intros HS HR HN Hj. unfold block_body. apply (eat_bind _ _ [123] _ EatLeaf.T); [now apply eat_cut, eat_char|]. intros _ _.
  pose proof (pad_space c HI d) as HP.
  apply (eat_bind _ _ (body_text (show_struct k (S d)) BlockBodyStart l ++ pad d) [125] (BQ l)).
  2: { intros x Hx. apply (eat_bind' _ _ _ [125] [] EatLeaf.T); [reflexivity|apply eat_cut; now apply eat_char|]. intros _ _. now apply eat_ret. }
  destruct l as [|s l].
  - cbn [FmtSpec.body_text app]. apply eat_alt2.
    + unfold prefix_decorated. apply (miss_bind2 _ _ (pad d) EatLeaf.T ([125] ++ r)).
      * apply eat_pspan; [|intros; exact I]. now apply eat_no_comment.
      * intros sp1 _. apply miss_bind1, miss_spanned, miss_bind1. unfold line_ending. apply miss_taken, miss_alt; apply miss_tag; reflexivity.
    + apply (eat_bind' _ _ _ [] (pad d) (eq None)); [reflexivity| |].
      * apply eat_opt_none; [|reflexivity]. unfold oneline_attr, decorated. apply (miss_bind2 _ _ (pad d) EatLeaf.T ([125] ++ r)).
        -- apply eat_pspan; [|intros; exact I]. apply eat_sp; [exact HP|now apply solid_char|exact I].
        -- intros sp1 _. apply miss_bind1, miss_spanned, miss_bind1. unfold suffix_decorated. apply miss_bind1, miss_spanned. unfold ident. apply miss_pmap, miss_ident. exact (not_start u HU).
      * intros a <-. apply (eat_bind' _ _ _ (pad d) [] EatLeaf.T); [now rewrite app_nil_r| |].
        -- unfold raw_string. apply eat_pmap, eat_pspan; [|intros; exact I]. apply eat_sp; [exact HP|now apply solid_char|exact I].
        -- intros z _. apply eat_ret. reflexivity.
  - apply eat_alt1. rewrite body_gap in *. set (t := body_text (show_struct k (S d)) Initial (s :: l)) in *. rewrite <- app_assoc. cbn [length app] in Hj.
    unfold prefix_decorated. apply (eat_bind' _ _ _ [] ([10] ++ t ++ pad d) EatLeaf.T); [reflexivity|apply eat_pspan; [now apply eat_no_comment|intros; exact I]|]. intros sp1 _.
    unfold spanned. apply (eat_bind' _ _ _ ([10] ++ t ++ pad d) [] (BQ (s :: l))); [now rewrite app_nil_r| |].
    + apply (eat_bind' _ _ _ ([10] ++ t ++ pad d) [] (fun p => BQ (s :: l) (fst p))); [now rewrite app_nil_r| |].
      * apply eat_with_span. apply (eat_bind _ _ [10] (t ++ pad d) EatLeaf.T).
        -- unfold line_ending. apply eat_taken; [|exact I]. apply eat_alt1. now apply eat_tag.
        -- intros _ _. cbn [fst]. destruct j as [|j]; [lia|]. cbn [recs_at unroll r_body]. apply (eat_imp _ _ (BQ (s :: l))); [|auto].
           apply (eat_body j k (S d) (pad d) ([125] ++ r) (s :: l) Initial); auto; [apply (pad_multi c HI)|right; eexists; reflexivity|fold t; lia].
      * intros [x sp2] Hx. apply eat_ret. now apply BQ_upd.
    + intros x Hx. apply eat_ret. now apply BQ_upd.
Qed.
Lemma labels_read ls xs : Forall2 LQ ls xs -> map of_label xs = ls /\ forall f, map of_label (map (label_map f) xs) = ls.
Proof. induction 1 as [|l x ls xs [A1 A2] _ [B1 B2]]; [auto|]. cbn [map]. split; [now rewrite A1, B1|]. intros f. now rewrite A2, B2. Qed.
Lemma block_read i ls l m sp w xs x : Forall2 LQ ls xs -> BQ l x -> SQ (SBlk i ls l) (XBlock m (Did (set_span sp (set_suffix w no_meta)) i) xs x).
Proof.
  intros HL B2. destruct (labels_read ls xs HL) as (_ & A2).
  change (SBlk i (map of_label (map (label_map D) xs)) (of_body sf (body_map D leave x)) = SBlk i ls (map SR l)). now rewrite A2, B2.
Qed.
Lemma STRUCT_block i ls l : Forall STRUCT l -> STRUCT (SBlk i ls l).
Proof.
  intros HS (H1 & H2 & H3 & H4) k d keys j rest _ Hj Hr. unfold structure. cbn [core] in *.
  set (B := [123] ++ (body_text (show_struct k (S d)) BlockBodyStart l ++ pad d) ++ [125]) in *.
  assert (HB : (length (body_text (show_struct k (S d)) BlockBodyStart l) < j)%nat) by (unfold B in Hj; rewrite !app_length in Hj; cbn [length] in Hj; lia). clear Hj.
  apply (eat_bind' _ _ _ [] (i ++ [32] ++ labels_text ls ++ B) EatLeaf.T); [reflexivity|now apply eat_pos|]. intros start _.
  intros o Ho. cbv beta.
  refine (eat_name u _ i ([32] ++ labels_text ls ++ B) _ _ (10 :: rest) H1 _ _ o Ho); [now apply (not_cont u HU)|]. intros sp'. cbv beta iota.
  destruct ls as [|lb ls].
  - cbn [labels_text flat_map app]. apply (eat_bind' _ _ _ [32] B EatLeaf.T); [reflexivity|apply eat_gap; [now apply solid_char|intros; exact I]|]. intros w _.
    apply (eat_bind' _ _ _ [] B (eq 123)); [reflexivity|apply (eat_peek any [123]); now apply eat_any|intros a <-]. cbv beta zeta. cbn [N.eqb Pos.eqb].
    apply (eat_bind' _ _ _ B [] (BQ l)); [now rewrite app_nil_r|now apply eat_block_body|]. intros x Hx.
    apply (eat_bind' _ _ _ [] [] EatLeaf.T); [reflexivity|now apply eat_pos|]. intros z _. apply eat_ret. cbn [fst snd new_keys]. split; [|reflexivity]. now apply block_read.
  - assert (HL : label_readable u lb) by apply H2. apply (eat_bind _ _ [32] (labels_text (lb :: ls) ++ B) EatLeaf.T).
    { apply eat_gap; [cbn [labels_text flat_map]; rewrite <- !app_assoc; now apply solid_label|intros; exact I]. } intros w _.
    destruct (label_split lb HL) as (a & t & Ea & Ha). destruct (label_char a Ha) as (C1 & C2 & _).
    apply (eat_bind' _ _ _ [] (labels_text (lb :: ls) ++ B) (eq a)); [reflexivity| |intros a' <-].
    { cbn [labels_text flat_map]. rewrite Ea. cbn [app]. apply (eat_peek any [a]). now apply eat_any. }
    cbv beta zeta. rewrite C1, C2, Ha.
    apply (eat_bind _ _ (labels_text (lb :: ls)) B (Forall2 LQ (lb :: ls))); [now apply eat_labels|]. intros xs Hxs.
    apply (eat_bind' _ _ _ B [] (BQ l)); [now rewrite app_nil_r|now apply eat_block_body|]. intros x Hx.
    apply (eat_bind' _ _ _ [] [] EatLeaf.T); [reflexivity|now apply eat_pos|]. intros z _. apply eat_ret. cbn [fst snd new_keys]. split; [|reflexivity]. now apply block_read.
Qed.
Lemma all_STRUCT : forall s, STRUCT s.
Proof. apply struct_ind'; [exact STRUCT_attr|exact STRUCT_block]. Qed.
End Body.

Section Top.
Context (u : unicode) (b : build) (pf : str -> f64) (sf : f64 -> str) (c : cfg) (HU : ascii_exact u) (HI : forallb is_space (c_indent c) = true).
Lemma read_body k d st l : body_readable u b pf sf c l -> exists x, parse_body u b pf (show_body u sf c k d st l) = Parsed x /\ of_body sf x = map (struct_as_read u c) l.
Proof.
  intros [HR HN]. destruct (eat_parse_body u b pf (show_body u sf c k d st l) (@BQ (show_body u sf c k d st l) u sf c l)) as (x & E & HQ).
  - intros n Hn. rewrite <- (app_nil_r (show_body u sf c k d st l)) at 2. unfold show_body in *. apply (eat_body u b pf sf c HU HI n k d [] [] l st); auto; [|now left].
    apply Forall_forall. intros s _. apply (all_STRUCT u b pf sf c HU HI).
  - eexists. split; [exact E|]. apply HQ.
Qed.
End Top.

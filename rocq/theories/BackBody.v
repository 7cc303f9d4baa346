(** * Printed bodies are read back: proofs *)
From Coq Require Import NArith ZArith Arith Bool String List Lia.
From Verif Require Import Res Str Dec NumberModel PrimModel PrimProofs EAst EAstInd EncModel EqSpec EqProofs PrattSpec.
From Verif Require Import ParseBase ParseModel ParseSpec ParseLemmas Eat StrSpec StrProofs EatLeaf EatExpr EatColl ReadProofs.
From Verif Require Import BackSpec SameSpec BackWear BackSame BackBodySpec BackEq BackLex BackExpr BackColl BackProofs BackAll BackPrint.
From Verif Require Import ParseFacts.
From Verif Require EatName.
Import ListNotations.
Open Scope N_scope.

(** ** The text of a body *)
Section Text.
  Context (sf : f64 -> str).
  Definition value_text (k : did) (v : xexpr) : str := i_name k ++ suf TRAILING (i_meta k) ++ [61] ++ pre LEADING (x_meta v) ++ x_text sf false v.
  (** A structure consists of what precedes the name, the text, and what follows the value. *)
  Definition lead (s : xstruct) : str := match s with XAttr _ k _ => pre TRAILING (i_meta k) | XBlock _ i _ _ => pre TRAILING (i_meta i) end.
  Definition trail (s : xstruct) : str := match s with XAttr _ _ v => suf LEADING (x_meta v) | XBlock _ _ _ _ => [] end.
  Fixpoint core (s : xstruct) : str :=
    match s with
    | XAttr _ k v => value_text k v
    | XBlock _ i ls b =>
        i_name i ++ suf TRAILING (i_meta i) ++ flat_map label_text ls ++ [123] ++
        match b with
        | XBody m l one _ =>
            around NO m
              (if one && oneline_ok l
               then match l with x :: _ => around BOTH (struct_meta x) (lead x ++ core x ++ trail x) | [] => [] end
               else [10] ++ flat_map (fun x => around NO (struct_meta x) (lead x ++ core x ++ trail x) ++ [10]) l)
        end ++ [125]
    end.
  Definition line (s : xstruct) : str := around NO (struct_meta s) (lead s ++ core s ++ trail s).
  Fixpoint lines (omit : bool) (l : list xstruct) : str :=
    match l with
    | [] => []
    | [x] => line x ++ (if omit then [] else [10])
    | x :: l => line x ++ [10] ++ lines omit l
    end.
  Lemma lines_cons omit x l : lines omit (x :: l) = line x ++ (if omit && match l with [] => true | _ => false end then [] else [10]) ++ lines omit l.
  Proof. destruct l as [|y l]; [|now rewrite andb_false_r]. cbn [lines]. rewrite andb_true_r. now rewrite app_nil_r. Qed.
  Lemma lines_false l : lines false l = flat_map (fun x => line x ++ [10]) l.
  Proof. induction l as [|x l IH]; [reflexivity|]. rewrite lines_cons, IH. cbn [andb flat_map]. now rewrite <- app_assoc. Qed.
End Text.

(** ** Printing *)
Fixpoint even_struct (s : xstruct) : Prop := match s with XAttr _ _ v => even v | XBlock _ _ _ x => even_body x end
with even_body (x : xbody) : Prop := match x with XBody _ l _ _ => lall even_struct l end.
Section Print.
Context (u : unicode) (b : build) (pf : str -> f64) (sf : f64 -> str).
Notation writes o t := (o false = (t, false)).
Lemma w_cat o o' t t' : writes o t -> writes o' t' -> writes (o >>> o') (t ++ t').
Proof. intros H1 H2. unfold cat. rewrite H1, H2. reflexivity. Qed.
Lemma w_wr t : writes (wr t) t. Proof. reflexivity. Qed.
Lemma w_deco m df o t : writes o t -> writes (deco (m_decor m) df o) (around df m t).
Proof. intros H. unfold deco, around. apply w_cat; [apply w_wr|]. apply w_cat; [exact H|apply w_wr]. Qed.
Lemma w_cats {A} (o : A -> out) (f : A -> str) l : Forall (fun x => writes (o x) (f x)) l -> writes (cats (map o l)) (flat_map f l).
Proof. induction 1 as [|x l H _ IH]; [reflexivity|]. cbn [map cats fold_right flat_map]. now apply w_cat. Qed.
Lemma w_even df v : even v -> writes (x_enc sf df v) (pre df (x_meta v) ++ x_text sf false v ++ suf df (x_meta v)).
Proof. intros H. unfold x_enc, xdec. apply w_deco. now apply even_expr. Qed.
Lemma w_expr df v nl : sub (ok u b pf sf false) nl v -> writes (x_enc sf df v) (pre df (x_meta v) ++ x_text sf false v ++ suf df (x_meta v)).
Proof. intros H. apply w_even. exact (proj1 (ok_even u b pf sf) v _ _ _ H). Qed.
Definition Ws (s : xstruct) : Prop := even_struct s -> writes (s_core sf s) (lead s ++ core sf s ++ trail s).
Definition Wb (x : xbody) : Prop := match x with XBody _ l _ _ => Forall Ws l end.
Lemma w_attr m k v : Ws (XAttr m k v).
Proof.
  intros HV. cbn [s_core]. pose proof (w_even LEADING v HV) as H.
  replace (lead (XAttr m k v) ++ core sf (XAttr m k v) ++ trail (XAttr m k v)) with (did_text TRAILING k ++ lit "=" ++ (pre LEADING (x_meta v) ++ x_text sf false v ++ suf LEADING (x_meta v))).
  - apply w_cat; [|apply w_cat; [apply w_wr|exact H]]. destruct k as [km kn]. unfold enc_did, did_text. now apply w_deco.
  - cbn [lead core trail]. unfold value_text, did_text, around. rewrite <- !app_assoc. reflexivity.
Qed.
Lemma w_label l : writes (label_enc l) (label_text l).
Proof. destruct l as [[m x]|m s]; [unfold label_enc, enc_did|cbn [label_enc]]; apply w_deco, w_wr. Qed.
Lemma w_block m i ls x : Wb x -> Ws (XBlock m i ls x).
Proof.
  intros HB H. destruct x as [bm l one om]. cbn [even_struct even_body] in H. fold even_struct in H. cbn [Wb] in HB.
  replace (lead (XBlock m i ls (XBody bm l one om)) ++ core sf (XBlock m i ls (XBody bm l one om)) ++ trail (XBlock m i ls (XBody bm l one om))) with
    (did_text TRAILING i ++ flat_map label_text ls ++ [123] ++ around NO bm
       (if one && oneline_ok l then match l with x :: _ => around BOTH (struct_meta x) (lead x ++ core sf x ++ trail x) | [] => [] end
        else [10] ++ flat_map (fun x => around NO (struct_meta x) (lead x ++ core sf x ++ trail x) ++ [10]) l) ++ [125]).
  2: { cbn [lead core trail]. unfold did_text, around at 1. rewrite <- !app_assoc, app_nil_r. reflexivity. }
  cbn [s_core]. apply w_cat; [destruct i as [im ix]; unfold enc_did, did_text; now apply w_deco|]. apply w_cat; [apply w_cats, Forall_forall; intros y _; apply w_label|].
  apply w_cat; [apply w_wr|]. apply w_cat; [|apply w_wr]. apply w_deco. destruct (one && oneline_ok l).
  - destruct l as [|x l]; [apply w_wr|]. unfold sdec. apply w_deco. apply (Forall_inv HB). apply H.
  - apply w_cat; [apply w_wr|]. apply (w_cats (fun x => sdec (s_core sf) NO x >>> wr [10])).
    clear - HB H. induction HB as [|s l HS _ IH]; [constructor|]. destruct H as [H1 H2]. constructor; [|now apply IH]. apply w_cat; [|apply w_wr]. unfold sdec. apply w_deco. now apply HS.
Qed.
Lemma all_Ws s : Ws s.
Proof. apply (proj1 (xbody_all Ws Wb w_attr w_block (fun m l o n (H : Forall Ws l) => H))). Qed.
Lemma w_structs omit l : lall even_struct l -> writes (structs_enc sf omit l) (lines sf omit l).
Proof.
  assert (HL : forall s, even_struct s -> writes (s_enc sf NO s) (line sf s)) by (intros s Hs; unfold s_enc, sdec; apply w_deco; now apply all_Ws).
  induction l as [|x l IH]; [intros _; reflexivity|]. intros [H1 H2]. destruct l as [|y l]; cbn [structs_enc lines].
  - apply w_cat; [now apply HL|apply w_wr].
  - apply w_cat; [now apply HL|]. apply w_cat; [apply w_wr|]. now apply IH.
Qed.
Lemma print_even m l one omit : lall even_struct l -> show_body sf (XBody m l one omit) = around NO m (lines sf omit l).
Proof. intros H. unfold show_body, body_enc. now rewrite (w_deco m NO _ _ (w_structs omit l H)). Qed.

Lemma attr_even nl k v : attr_ok u b pf sf nl k v -> even v.
Proof. intros (_ & _ & _ & _ & HV). exact (proj1 (ok_even u b pf sf) v _ _ _ HV). Qed.
Lemma struct_even : (forall s, struct_ok u b pf sf s -> even_struct s) /\ (forall x, match x with XBody _ l _ _ => Forall (fun s => struct_ok u b pf sf s -> even_struct s) l end).
Proof.
  apply xbody_all.
  - intros m k v H. exact (attr_even true k v (proj2 H)).
  - intros m i ls [bm l one om] HB H. cbn [struct_ok] in H. destruct H as (_ & _ & _ & _ & _ & _ & H). cbn [even_struct even_body]. fold even_struct. destruct one.
    + destruct H as (_ & _ & H). destruct l as [|[am k v|? ? ? ?] [|? ?]]; try contradiction; [exact I|]. split; [exact (attr_even false k v (proj2 H))|exact I].
    + destruct H as (_ & _ & _ & H & _). clear - HB H. induction HB as [|s l HS _ IH]; [exact I|]. destruct H as [H1 H2]. split; [now apply HS|now apply IH].
  - intros m l o n H. exact H.
Qed.
Lemma structs_even l : lall (struct_ok u b pf sf) l -> lall even_struct l.
Proof. induction l as [|s l IH]; [auto|]. intros [H1 H2]. split; [now apply struct_even|now apply IH]. Qed.
Lemma print_body m l one omit : lall (struct_ok u b pf sf) l -> show_body sf (XBody m l one omit) = pre NO m ++ lines sf omit l ++ suf NO m.
Proof. intros H. exact (print_even m l one omit (structs_even l H)). Qed.
End Print.
Lemma even_body_bare : (forall s, EB even_struct bare_struct s) /\ (forall x, EB even_body bare_body x).
Proof.
  apply xbody_all.
  - intros m k v. exact (proj1 even_bare v).
  - intros m i ls x H. exact H.
  - intros m l o n H. exact (EB_list _ _ _ H).
Qed.
Lemma structs_same l l' : map bare_struct l' = map bare_struct l -> lall even_struct l -> lall even_struct l'.
Proof.
  intros E H. assert (HF : forall l, Forall (EB even_struct bare_struct) l) by (intros k; apply Forall_forall; intros s _; apply even_body_bare).
  apply (EB_list _ _ _ (HF l')). rewrite E. now apply (EB_list _ _ _ (HF l)).
Qed.

(** ** Reading *)
Section Read.
Context {inp : str} (u : unicode) (b : build) (pf : str -> f64) (sf : f64 -> str).
Context (HU : ascii_exact u).
Notation Rn n := (recs_at u b pf pratt_group items_insert n).
Notation idc := (is_id_continue u).
Notation T := EatLeaf.T.
Notation D := (raw_despan inp).
Notation ctx := (@ctx inp u).
Notation struct_ok := (struct_ok u b pf sf).
Notation core := (core sf).
Notation DX := (x_map D leave).
Notation DS := (struct_map D leave).
Notation DB := (body_map D leave).
Notation wears := (wears inp).
Notation from := (from inp).
Definition inner (one : bool) (l : list xstruct) : str :=
  if one && oneline_ok l then match l with x :: _ => around BOTH (struct_meta x) (lead x ++ core x ++ trail x) | [] => [] end
  else [10] ++ flat_map (fun x => around NO (struct_meta x) (lead x ++ core x ++ trail x) ++ [10]) l.
Definition btext (x : xbody) : str := match x with XBody m l one _ => around NO m (inner one l) end.
(** What is read is the same except for formatting, and so is its text. *)
Definition SQ (s x : xstruct) : Prop :=
  bare_struct (DS x) = bare_struct s /\ (settled_struct s -> core (DS x) = core s /\ lead (DS x) = [] /\ trail (DS x) = []).
Definition BQ (y x : xbody) : Prop := bare_body (DB x) = bare_body y /\ (settled_body y -> btext (DB x) = btext y).
Definition LQ (l x : xlabel) : Prop := bare_label (label_map D x) = bare_label l.
Lemma SQ_upd h s x : SQ s x -> SQ s (struct_upd h x).
Proof. now destruct x. Qed.
Lemma struct_meta_upd f x : struct_meta (struct_upd f x) = f (struct_meta x).
Proof. now destruct x. Qed.
Lemma DS_meta x : struct_meta (DS x) = meta_map D (struct_meta x).
Proof. now destruct x. Qed.
Lemma label_meta_upd f x : label_meta (label_upd f x) = f (label_meta x).
Proof. now destruct x as [[? ?]|]. Qed.
Lemma eat_raw_wear (p : parser unit) t (P : raw -> Prop) r : eat inp p t (fun _ => True) r -> (forall x, from t x -> P x) -> eat inp (raw_string p) t P r.
Proof. intros H HP. unfold raw_string. apply eat_pmap. apply (eat_span_from inp); auto. Qed.
Lemma LQ_upd h l x : LQ l x -> LQ l (label_upd h x).
Proof. destruct x as [[m x]|m s]; exact (fun H => H). Qed.

Lemma eat_look {A B} (p : parser A) (f : A -> parser B) t P (Q : B -> Prop) r : eat inp p [] P (t ++ r) -> (forall a, P a -> eat inp (f a) t Q r) -> eat inp (ParseBase.bind p f) t Q r.
Proof. intros H1 H2. now apply (eat_bind' _ _ t [] t P). Qed.

(** Identifiers. *)
Lemma id_quiet a r : is_id_start u a = true -> clear true (a :: r) /\ uncall (a :: r) = true /\ quiet2 (a :: r) = true.
Proof.
  intros H. assert (L : forall k, k < 128 -> is_ascii_letter k || (k =? 95) = false -> (a =? k) = false) by (intros k; now apply (id_start_not u HU)).
  split; [|split].
  - split.
    + cbn [ends]. unfold blank, is_multispace, is_space. rewrite !L by reflexivity. reflexivity.
    + unfold nocomment. change (lit "#") with [35]. change (lit "//") with [47; 47]. change (lit "/*") with [47; 42]. cbn [starts_with]. rewrite !(N.eqb_sym _ a), !L by reflexivity. reflexivity.
  - unfold uncall, call2. apply negb_true_iff. change (lit "::") with [58; 58]. rewrite l2_two. cbn [starts_with]. rewrite (N.eqb_sym 58 a), L by reflexivity. cbn [andb orb].
    apply l2_head. intros d r' [= <- _]. now rewrite N.eqb_sym, L by reflexivity.
  - unfold quiet2, untrav, unbin, uncond. rewrite !L by reflexivity. change (lit "!<>+-*%&|") with [33; 60; 62; 43; 45; 42; 37; 38; 124]. cbn [existsb]. rewrite !L by reflexivity. reflexivity.
Qed.
Lemma ident_split x : is_ident u x = true -> exists a t, x = a :: t /\ is_id_start u a = true.
Proof. destruct x as [|a x]; [discriminate|]. cbn [is_ident]. rewrite andb_true_iff. intros [H _]. eauto. Qed.

(** ** Labels *)
Lemma label_split l : label_ok u l -> exists a t, label_core l = a :: t /\ ((a =? 34) || is_id_start u a = true).
Proof.
  destruct l as [i|m s]; cbn [label_core]; intros [_ H].
  - destruct (ident_split _ H) as (a & t & E & Ha). exists a, t. now rewrite Ha, orb_true_r.
  - exists 34, (encode_escaped (escape_markers s) ++ [34]). split; reflexivity.
Qed.
Lemma label_char a r : (a =? 34) || is_id_start u a = true -> (a =? 61) = false /\ (a =? 123) = false /\ clear true (a :: r).
Proof.
  intros H. apply orb_true_iff in H. destruct H as [H|H]; [apply N.eqb_eq in H; subst a; repeat split; reflexivity|].
  rewrite !(id_start_not u HU a _ H) by (lia || reflexivity). repeat split; now apply id_quiet.
Qed.
Definition lgap (ls : list xlabel) : str := match ls with [] => [] | l :: _ => pre TRAILING (label_meta l) end.
(** The labels, each of them followed by a gap. *)
Fixpoint labels (ls : list xlabel) : str :=
  match ls with [] => [] | l :: r => (label_core l ++ suf TRAILING (label_meta l) ++ lgap r) ++ labels r end.
Lemma labels_text ls : flat_map label_text ls = lgap ls ++ labels ls.
Proof. induction ls as [|l ls IH]; [reflexivity|]. cbn [flat_map labels lgap]. unfold label_text at 1, around. rewrite IH, <- !app_assoc. reflexivity. Qed.
Lemma labels_clear ls r : lall (label_ok u) ls -> clear true (labels ls ++ 123 :: r).
Proof.
  destruct ls as [|l ls]; [split; reflexivity|]. intros [H _]. cbn [labels]. destruct (label_split l H) as (a & t & -> & Ha). cbn [app]. now apply label_char.
Qed.
Lemma lgap_gap ls : lall (label_ok u) ls -> Gap false (lgap ls).
Proof. destruct ls as [|l ls]; [constructor|]. intros [[[H _] _] _]. cbn [lgap]. apply pre_gap; [apply df_ok|exact H]. Qed.
Lemma spaced_idc g ls r : lall (label_ok u) ls -> Gap false g -> spaced g ls -> ends idc ((g ++ lgap ls) ++ labels ls ++ 123 :: r).
Proof.
  intros HL Hg HS. destruct ls as [|l ls]; cbn [lgap labels].
  - rewrite app_nil_r. cbn [app]. apply (@gap_idc inp u HU false); [exact Hg|]. left. now apply (not_cont u HU).
  - pose proof (lgap_gap _ HL) as HG. cbn [lgap] in HG. destruct HL as [[_ HL] _]. destruct HS as [HS _]. destruct l as [i|m s].
    + apply (@gap_idc inp u HU false); [now apply Gap_app|now right].
    + apply (@gap_idc inp u HU false); [now apply Gap_app|]. left. now apply (not_cont u HU).
Qed.
Lemma read_label l g r : label_ok u l -> Gap false g -> clear true r -> (forall i, l = XLId i -> ends idc (g ++ r)) ->
  eat inp (suffix_decorated label_upd (block_label u) sp) (label_core l ++ g) (fun x => LQ l x /\ wears None (Some g) (label_meta x)) r.
Proof.
  intros [_ HL] Hg Hr Hi. apply (worn_suffix label_upd label_meta false (block_label u) (label_core l) g (fun x => LQ l x /\ d_prefix (m_decor (label_meta x)) = None)); [apply label_meta_upd|exact Hg|now apply clear_down| |].
  - unfold block_label. destruct l as [i|m s]; cbn [label_core] in *.
    + apply eat_alt2.
      * apply miss_pmap. unfold pstring. apply miss_bind1, miss_char. destruct (ident_split _ HL) as (a & t & -> & Ha).
        cbn [app ends]. rewrite N.eqb_sym. now apply (id_start_not u HU).
      * apply eat_pmap. unfold ident. apply eat_pmap. apply eat_str_ident; [exact HL|now apply (Hi i)|]. split; reflexivity.
    + apply eat_alt1, eat_pmap. now apply eat_quoted.
  - intros f h x [Hx H0] HW. split; [now apply LQ_upd, LQ_upd|now apply HW].
Qed.
Lemma LQ_core l x : LQ l x -> label_core (label_map D x) = label_core l.
Proof. unfold LQ. destruct l as [[? ?]|? ?], x as [[? ?]|? ?]; cbn; intros E; try discriminate E; now injection E as ->. Qed.
Lemma LQ_text l x g : LQ l x -> wears None (Some g) (label_meta x) -> label_text (label_map D x) = label_core l ++ g.
Proof.
  intros H W. unfold label_text. rewrite (LQ_core l x H). replace (label_meta (label_map D x)) with (meta_map D (label_meta x)) by (now destruct x as [[? ?]|? ?]).
  rewrite (wears_around inp TRAILING _ _ _ _ W). reflexivity.
Qed.
Lemma read_labels ls g r : lall (label_ok u) ls -> spaced g ls -> eat inp (block_labels u) (labels ls) (fun xs => Forall2 LQ ls xs /\ flat_map label_text (map (label_map D) xs) = labels ls) (123 :: r).
Proof.
  intros HL HS. apply eat_many0. revert g HL HS.
  assert (G : forall ls g (Q : list xlabel -> Prop), lall (label_ok u) ls -> spaced g ls -> (forall xs, Forall2 LQ ls xs -> flat_map label_text (map (label_map D) xs) = labels ls -> Q xs) ->
    eat_loop inp (suffix_decorated label_upd (block_label u) sp) (labels ls) Q (123 :: r)).
  2: { intros g HL HS. apply (G _ g); auto. }
  clear ls. induction ls as [|l ls IH]; intros g Q HL HS HQ; cbn [labels].
  - apply eat_loop_nil; [|apply HQ; [constructor|reflexivity]]. unfold suffix_decorated. apply miss_bind1, EatName.miss_spanned. unfold block_label. apply miss_alt; apply miss_pmap.
    + unfold pstring. now apply miss_bind1, miss_char.
    + unfold ident. apply miss_pmap, EatName.miss_ident. cbn [ends]. apply not_true_iff_false. intros E. pose proof (id_start_not u HU 123 123 E). now discriminate H.
  - destruct HL as [H1 H2]. destruct HS as [_ HS]. assert (Hg : Gap false (suf TRAILING (label_meta l))) by (apply suf_gap; [apply df_ok|apply H1]).
    apply (eat_loop_cons _ (label_core l ++ suf TRAILING (label_meta l) ++ lgap ls) (labels ls) (fun x => LQ l x /\ wears None (Some (suf TRAILING (label_meta l) ++ lgap ls)) (label_meta x))).
    + destruct (label_split l H1) as (a & t & -> & _). discriminate.
    + apply read_label; [exact H1|apply Gap_app; [exact Hg|now apply lgap_gap]|now apply labels_clear|]. intros i _. now apply spaced_idc.
    + intros x [Hx HW]. apply (IH (suf TRAILING (label_meta l))); [exact H2|exact HS|]. intros xs Hxs HT. apply HQ; [now constructor|]. cbn [map flat_map]. now rewrite HT, (LQ_text l x _ Hx HW).
Qed.

(** ** Attributes *)
(** What follows a value on its line. *)
Definition after (rest : str) : Prop := forall w g, Gap false g -> ctx quiet2 w false (g ++ rest).
Definition val (v x : xexpr) : Prop := @BackProofs.Q inp sf v x /\ (lone v -> wears (Some (pre LEADING (x_meta v))) None (x_meta x)).
Lemma read_value n k v rest : is_ident u (i_name k) = true -> tidy false (x_meta v) -> sub (ok u b pf sf false) false v ->
  after rest -> (S (length (x_text sf false v)) < n)%nat ->
  eat inp (attribute_expr (Rn n)) ([61] ++ pre LEADING (x_meta v) ++ x_text sf false v) (val v) (suf LEADING (x_meta v) ++ rest).
Proof.
  intros Hk [T1 T2] HV HA Hn. unfold attribute_expr. apply (eat_bind _ _ [61] _ T); [now apply eat_cut, eat_char|]. intros _ _.
  destruct (@back_expr inp u b pf sf HU v false (suf LEADING (x_meta v) ++ rest) HV) as [HE HO]; [apply HA; apply suf_gap; [apply df_ok|exact T2]|].
  apply (worn_prefix x_upd x_meta false _ (pre LEADING (x_meta v)) _ (fun x => @BackProofs.Q inp sf v x /\ bald x)); [apply x_meta_upd|apply pre_gap; [apply df_ok|exact T1]|now apply (opens_clear u HU)| |].
  - apply EXPR_rec; [now apply EXPR_bald|lia].
  - intros f g x [Hx HB] HW. split; [now apply Q_stable, Q_stable|]. intros HL. apply HW. apply HB. exact (lone_read x v (proj1 Hx) HL).
Qed.
Lemma attr_SQ m k v m' km x : val v x -> wears None (Some (suf TRAILING (i_meta k))) km -> SQ (XAttr m k v) (XAttr m' (Did km (i_name k)) x).
Proof.
  intros [[HB HT] HW] WK. split; [cbn [struct_map bare_struct]; f_equal; exact HB|]. intros [HS HL]. specialize (HW HL). cbn [struct_map BackBody.core lead trail]. unfold value_text, did_map. cbn [i_meta i_name].
  rewrite (wears_suf inp TRAILING _ _ _ WK), (wears_pre inp TRAILING _ _ _ WK). rewrite DX_meta, (wears_pre inp LEADING _ _ _ HW), (wears_suf inp LEADING _ _ _ HW), (HT HS false). repeat split.
Qed.

Definition new_keys (s : xstruct) (keys : list str) : list str := match s with XAttr _ k _ => i_name k :: keys | XBlock _ _ _ _ => keys end.
Definition free (keys : list str) (l : list xstruct) : Prop := NoDup (attr_names l) /\ forall x, In x (attr_names l) -> existsb (seqb x) keys = false.
Definition STRUCT (s : xstruct) : Prop := struct_ok s -> forall keys j rest, free keys [s] -> (length (core s) <= j)%nat -> after rest ->
  eat inp (structure u (Rn j) keys) (core s) (fun p => SQ s (fst p) /\ snd p = new_keys s keys) (trail s ++ rest).
Lemma value_len k v j : is_ident u (i_name k) = true -> (length (value_text sf k v) <= j)%nat -> (S (length (x_text sf false v)) < j)%nat.
Proof.
  intros Hk Hj. destruct (ident_split _ Hk) as (a & t & E & _). unfold value_text in Hj. rewrite E in Hj. repeat rewrite app_length in Hj. cbn [length] in Hj. lia.
Qed.
Lemma STRUCT_attr m k v : STRUCT (XAttr m k v).
Proof.
  intros [_ (H1 & _ & H2 & H3 & H4)] keys j rest [_ HF] Hj Hr. unfold structure. cbn [BackBody.core trail] in *. pose proof (value_len k v j H1 Hj) as HL. unfold value_text in *.
  assert (Hg : Gap false (suf TRAILING (i_meta k))) by (apply suf_gap; [apply df_ok|exact H2]).
  apply (eat_look _ _ _ T); [now apply eat_pos|]. intros start _.
  intros o Ho. cbv beta.
  refine (EatName.eat_name u _ (i_name k) _ _ _ (suf LEADING (x_meta v) ++ rest) H1 _ _ o Ho).
  { rewrite <- app_assoc. apply (@gap_idc inp u HU false); [exact Hg|]. left. now apply (not_cont u HU). }
  intros sp'. cbv beta iota.
  apply (eat_bind _ _ (suf TRAILING (i_meta k)) _ (from (suf TRAILING (i_meta k)))); [apply eat_raw_wear; [apply (eat_gap false); [exact Hg|split; reflexivity]|auto]|]. intros w Hw.
  apply (eat_bind' _ _ _ [] ([61] ++ pre LEADING (x_meta v) ++ x_text sf false v) (eq 61)); [reflexivity| |intros a <-].
  - rewrite <- app_assoc. apply (eat_peek any [61]). now apply eat_any.
  - cbv beta zeta. cbn [N.eqb Pos.eqb]. rewrite (HF (i_name k)) by (left; reflexivity).
    apply (eat_bind' _ _ _ ([61] ++ pre LEADING (x_meta v) ++ x_text sf false v) [] (val v)); [now rewrite app_nil_r| |].
    + now apply (read_value j k).
    + intros x A. apply (eat_bind' _ _ _ [] [] T); [reflexivity|now apply eat_pos|]. intros z _. apply eat_ret. cbn [fst snd new_keys]. split; [|reflexivity].
      apply attr_SQ; [exact A|]. split; [exact I|exact Hw].
Qed.
(** An attribute on the line of its block. *)
Lemma read_oneline n m k v w w' rest : attr_ok u b pf sf false k v -> Gap false w -> Gap false w' -> after rest -> (length (value_text sf k v) <= n)%nat -> clear true rest ->
  eat inp (oneline_attr u (Rn n)) (w ++ value_text sf k v ++ suf LEADING (x_meta v) ++ w') (fun x => SQ (XAttr m k v) x /\ wears (Some w) (Some (suf LEADING (x_meta v) ++ w')) (struct_meta x)) rest.
Proof.
  intros (H1 & _ & H2 & H3 & H4) Hw Hw' HA HL Hr. unfold oneline_attr. destruct (ident_split _ H1) as (a & t & E & Ha).
  assert (Hg : Gap false (suf TRAILING (i_meta k))) by (apply suf_gap; [apply df_ok|exact H2]).
  assert (Hv : Gap false (suf LEADING (x_meta v))) by (apply suf_gap; [apply df_ok|apply H3]).
  apply (worn_decorated struct_upd struct_meta false false _ w (value_text sf k v) (suf LEADING (x_meta v) ++ w') (SQ (XAttr m k v)));
    [apply struct_meta_upd|exact Hw| |now apply Gap_app|now apply clear_down| |].
  - unfold value_text. rewrite E. cbn [app]. apply clear_down. now apply id_quiet.
  - unfold value_text. rewrite (app_assoc (i_name k)). apply (eat_bind _ _ (i_name k ++ suf TRAILING (i_meta k)) _ (fun i => i_name i = i_name k /\ wears None (Some (suf TRAILING (i_meta k))) (i_meta i))).
    + apply (worn_suffix did_upd i_meta false (ident u) (i_name k) (suf TRAILING (i_meta k)) (fun i => i_name i = i_name k /\ d_prefix (m_decor (i_meta i)) = None)); [reflexivity|exact Hg|split; reflexivity| |].
      * unfold ident. apply eat_pmap. apply eat_str_ident; [exact H1| |split; reflexivity]. rewrite <- app_assoc. apply (@gap_idc inp u HU false); [exact Hg|]. left. now apply (not_cont u HU).
      * intros f g [? ?] [Hx H0] HW. split; [exact Hx|now apply HW].
    + intros i [Hi HW]. apply (eat_bind' _ _ _ ([61] ++ pre LEADING (x_meta v) ++ x_text sf false v) [] (val v)); [now rewrite app_nil_r| |].
      * rewrite <- app_assoc. apply (read_value n k); auto; [|now apply (value_len k)]. intros w0 g0 Hg0. rewrite app_assoc. apply HA. now apply Gap_app.
      * intros x A. apply eat_ret. destruct i as [im ix]. cbn [i_name i_meta] in Hi, HW. subst ix. now apply attr_SQ.
  - intros f g x Hx HW. split; [now apply SQ_upd, SQ_upd|exact HW].
Qed.

(** ** The end of a line *)
Lemma read_line_end w z r : Gap false w -> Open z -> eol r -> eat inp sp_comment (w ++ z) T r.
Proof.
  intros Hw Hz Hr. unfold sp_comment. apply (eat_bind _ _ w z T).
  - apply (eat_gap false); [exact Hw|]. destruct Hz as [-> |(h & x & [-> | ->] & _ & ->)]; [|split; reflexivity|split; reflexivity].
    cbn [app]. destruct Hr as [-> |(e & r' & [-> | ->] & ->)]; split; reflexivity.
  - intros _ _. apply (eat_bind' _ _ z z [] T); [now rewrite app_nil_r| |intros; now apply eat_ret].
    destruct Hz as [-> |(h & x & Hh & Hx & ->)].
    + apply eat_opt_none; [|exact I]. unfold line_comment. cbn [app]. destruct Hr as [-> |(e & r' & He & ->)].
      * apply miss_bind1, miss_peek, miss_any.
      * destruct He as [-> | ->].
        -- apply (miss_bind2 (peek any) _ [] (eq 10)); [apply (eat_peek any [10]); now apply eat_any|]. intros y <-. cbn [N.eqb Pos.eqb]. apply miss_fail.
        -- apply (miss_bind2 (peek any) _ [] (eq 13)); [apply (eat_peek any [13]); now apply eat_any|]. intros y <-. cbn [N.eqb Pos.eqb]. apply miss_fail.
    + apply eat_opt. cbn [app]. eapply eat_imp; [apply (proj1 (eat_line h x (fun _ => True) r Hh Hx Hr I))|intros; exact I].
Qed.
(** What follows a line: a gap, and then a name, a closing brace or nothing. *)
Definition next (rest : str) : Prop := exists v z r, rest = v ++ z ++ r /\ Gap true v /\ (z = [] /\ clear true r \/ r = [] /\ Open z) /\ uncall r = true /\ quiet2 r = true.
Lemma after_line z rest : Open z -> next rest -> after (z ++ [10] ++ rest).
Proof.
  intros Hz (v & z' & r & -> & Hv & HR & H1 & H2) w g Hg.
  destruct HR as [[-> Hc]|[-> Hz']].
  - cbn [app]. change (z ++ 10 :: v ++ r) with (z ++ [10] ++ v ++ r). rewrite (app_assoc z). apply (ctx_line u HU); auto.
  - rewrite app_nil_r. 
    assert (HB : brk (z ++ [10] ++ v ++ z')).
    { destruct Hz as [-> |(h & x & [-> | ->] & _ & ->)]; cbn [app]; eexists _, _; (split; [reflexivity|]); eauto 8. }
    pose proof (brk_quiet _ HB) as [B1 B2].
    split; [|split].
    + apply (@gap_idc inp u HU false); [exact Hg|]. left. destruct Hz as [-> |(h & x & [-> | ->] & _ & ->)]; now apply (not_cont u HU).
    + apply (gap_nofrac false); [exact Hg|]. left. destruct Hz as [-> |(h & x & [-> | ->] & _ & ->)]; exact I.
    + intros m _ HM. destruct m.
      * exists []. split; [|reflexivity]. replace (g ++ z ++ [10] ++ v ++ z') with ((g ++ z ++ [10] ++ v) ++ z') by (now rewrite <- !app_assoc). apply rests_end; [|exact Hz']. now apply Gap_line_end; auto.
      * exists (z ++ [10] ++ v ++ z'). split; [|now rewrite B1, B2]. apply rests_gap; [exact Hg|now apply brk_clear].
Qed.
Lemma after_end z : Open z -> after z.
Proof.
  intros Hz w g Hg. destruct Hz as [-> |(h & x & Hh & Hx & ->)].
  - rewrite app_nil_r. split; [|split].
    + rewrite <- (app_nil_r g). apply (@gap_idc inp u HU false); [exact Hg|now left].
    + rewrite <- (app_nil_r g). apply (gap_nofrac false); [exact Hg|now left].
    + intros m _ _. rewrite <- (app_nil_r g). exists []. split; [|reflexivity]. apply rests_gap; [destruct m; [now apply Gap_up|exact Hg]|split; [exact I|now destruct m]].
  - assert (HB : brk (h ++ x)) by (destruct Hh as [-> | ->]; cbn [app]; eexists _, _; (split; [reflexivity|]); eauto 8).
    pose proof (brk_quiet _ HB) as [B1 B2]. split; [|split].
    + apply (@gap_idc inp u HU false); [exact Hg|]. left. destruct Hh as [-> | ->]; now apply (not_cont u HU).
    + apply (gap_nofrac false); [exact Hg|]. left. destruct Hh as [-> | ->]; exact I.
    + intros m _ _. destruct m.
      * exists []. split; [|reflexivity]. apply rests_end; [now apply Gap_up|]. right. eauto.
      * exists (h ++ x). split; [|now rewrite B1, B2]. apply rests_gap; [exact Hg|now apply brk_clear].
Qed.
Lemma after_close r : after (125 :: r).
Proof. intros w g Hg. apply (@ctx_close inp u HU w false false); [exact Hg|]. cbn [In]. auto. Qed.

(** ** Lines *)
Notation line := (line sf). Notation lines := (lines sf).
Lemma core_split s : struct_ok s -> exists a t, core s = a :: t /\ is_id_start u a = true.
Proof.
  destruct s as [m k v|m i ls x]; cbn [BackBodySpec.struct_ok BackBody.core]; [intros [_ [H _]]|intros (_ & H & _)]; destruct (ident_split _ H) as (a & t & E & Ha);
    [unfold value_text|]; rewrite E; eexists _, _; (split; [reflexivity|exact Ha]).
Qed.
Lemma struct_gaps s : struct_ok s -> Gap true (pre NO (struct_meta s) ++ lead s) /\ Gap false (trail s) /\ exists w z, suf NO (struct_meta s) = w ++ z /\ Gap false w /\ Open z.
Proof.
  destruct s as [m k v|m i ls x]; cbn [BackBodySpec.struct_ok struct_meta lead trail].
  - intros [[H1 H2] (_ & H3 & _ & [_ H4] & _)]. split; [|split].
    + apply Gap_app; apply pre_gap; auto; apply df_ok.
    + apply suf_gap; auto; apply df_ok.
    + now apply last_gap_spec.
  - intros [[H1 H2] (_ & H3 & _)]. split; [|split].
    + apply Gap_app; apply pre_gap; auto; apply df_ok.
    + constructor.
    + now apply last_gap_spec.
Qed.
Definition line_break (last : bool) : str := if last then [] else [10].
(** A line whose gap includes [g] before it. *)
Definition LNQ (g : str) (s x : xstruct) : Prop := SQ s x /\ (settled_struct s -> line (DS x) = g ++ line s).
Lemma LNQ_worn g s x : SQ s x -> wears (Some (g ++ pre NO (struct_meta s) ++ lead s)) (Some (trail s ++ suf NO (struct_meta s))) (struct_meta x) -> LNQ g s x.
Proof.
  intros H W. split; [exact H|]. intros HS. destruct H as [_ H]. destruct (H HS) as (E1 & E2 & E3). unfold BackBody.line. rewrite DS_meta, (wears_around inp NO _ _ _ _ W), E1, E2, E3.
  unfold around. cbn [worn app]. rewrite app_nil_r, <- !app_assoc. reflexivity.
Qed.
Lemma read_item s keys j g (last : bool) rest : STRUCT s -> struct_ok s -> Gap true g -> free keys [s] -> (length (core s) <= j)%nat -> (if last then rest = [] else next rest) ->
  eat inp (body_item u (Rn j) keys) (g ++ line s ++ line_break last) (fun p => LNQ g s (fst (fst p)) /\ snd (fst p) = new_keys s keys /\ snd p = last) rest.
Proof.
  intros HS HR Hg HF Hj Hr. destruct (struct_gaps s HR) as (G1 & G2 & w & z & EZ & Hw & Hz). destruct (core_split s HR) as (a & t & E & Ha).
  assert (EL : eol (line_break last ++ rest)) by (destruct last; [subst rest; now left|right; exists [10], rest; auto]).
  unfold body_item, BackBody.line, around. rewrite EZ.
  replace (g ++ (pre NO (struct_meta s) ++ (lead s ++ core s ++ trail s) ++ w ++ z) ++ line_break last)
    with ((g ++ pre NO (struct_meta s) ++ lead s) ++ core s ++ ((trail s ++ w) ++ z) ++ line_break last) by (rewrite <- !app_assoc; reflexivity).
  apply (eat_bind _ _ (g ++ pre NO (struct_meta s) ++ lead s) _ (fun sp => from (g ++ pre NO (struct_meta s) ++ lead s) (raw_of_span sp))).
  - apply (eat_span_from inp); [|auto]. apply (eat_gap true); [now apply Gap_app|]. rewrite E. cbn [app]. now apply id_quiet.
  - intros sp1 W1. apply (eat_bind _ _ (core s) _ (fun p => SQ s (fst p) /\ snd p = new_keys s keys)).
    + replace ((((trail s ++ w) ++ z) ++ line_break last) ++ rest) with (trail s ++ w ++ z ++ line_break last ++ rest) by (rewrite <- !app_assoc; reflexivity).
      apply HS; auto. intros w0 g0 Hg0. rewrite app_assoc. destruct last.
      * subst rest. cbn [line_break app]. rewrite app_nil_r. apply after_end; [exact Hz|now apply Gap_app].
      * apply (after_line z rest Hz Hr). now apply Gap_app.
    + intros [x ks] [H1 H2]. cbn [fst snd] in H1, H2. apply (eat_bind _ _ ((trail s ++ w) ++ z) _ (fun sp => from (trail s ++ suf NO (struct_meta s)) (raw_of_span sp))).
      * apply (eat_span_from inp); [|rewrite EZ, <- app_assoc; auto]. apply read_line_end; auto. now apply Gap_app.
      * intros sp2 W2. apply (eat_bind' _ _ _ (line_break last) [] (eq last)); [now rewrite app_nil_r| |].
        -- apply eat_cut. destruct last; cbn [line_break].
           ++ subst rest. apply eat_alt2; [apply miss_bind1; unfold line_ending; apply miss_taken, miss_alt; apply miss_tag; reflexivity|].
              apply (eat_bind' _ _ [] [] [] T); [reflexivity|now apply eat_eof|intros; now apply eat_ret].
           ++ apply eat_alt1. apply (eat_bind' _ _ [10] [10] [] T); [reflexivity| |intros; now apply eat_ret].
              unfold line_ending. apply eat_taken; [|exact I]. apply eat_alt1. now apply eat_tag.
        -- intros z' <-. apply eat_ret. cbn [fst snd]. split; [|auto]. apply LNQ_worn; [now apply SQ_upd|]. rewrite struct_meta_upd. split; [exact W1|exact W2].
Qed.

(** Where a body ends. *)
Definition closing (r : str) : Prop := r = [] \/ exists r', r = 125 :: r'.
Definition finish (v z r : str) : Prop := Gap true v /\ closing r /\ (z = [] \/ r = [] /\ Open z).
Lemma closing_quiet r : closing r -> clear true r /\ uncall r = true /\ quiet2 r = true.
Proof. intros [-> |(r' & ->)]; repeat split. unfold uncall, call2. apply negb_true_iff. change (lit "::") with [58; 58]. rewrite l2_two. cbn [starts_with N.eqb Pos.eqb andb orb]. apply l2_head. now intros d q [= <- _]. Qed.
Lemma finish_gap v z r : finish v z r -> eat inp ws (v ++ z) T r.
Proof. intros (H1 & H2 & H3). apply (eat_gap_end true); [exact H1|]. destruct H3 as [-> |[-> H3]]; [left; split; [reflexivity|now apply closing_quiet]|auto]. Qed.
Lemma finish_next v z r : finish v z r -> next (v ++ z ++ r).
Proof.
  intros (H1 & H2 & H3). destruct (closing_quiet r H2) as (C1 & C2 & C3). exists v, z, r. split; [reflexivity|]. split; [exact H1|]. split; [|auto].
  destruct H3 as [-> |[-> H3]]; auto.
Qed.
Lemma miss_end keys j v z r : finish v z r -> miss inp (body_item u (Rn j) keys) (v ++ z ++ r).
Proof.
  intros HF. unfold body_item. rewrite app_assoc. apply (miss_bind2 _ _ (v ++ z) T r).
  - apply eat_pspan; [|intros; exact I]. apply (eat_imp _ _ T); [|auto]. now apply finish_gap.
  - intros sp1 _. destruct HF as (_ & Hr & _). apply miss_bind1. unfold structure. apply (miss_bind2 pos _ [] T r); [now apply eat_pos|]. intros start _. intros o Ho. cbv beta.
    enough (M : miss inp (peek (one_of (is_id_start u))) r) by (destruct (M o Ho) as (s' & E); unfold ParseBase.bind at 1; rewrite E; eauto).
    apply miss_peek, miss_one_of. destruct Hr as [-> |(r' & ->)]; [exact I|now apply (EatName.not_start u)].
Qed.
Lemma lines_next omit l v z r : finish v z r -> lall struct_ok l -> next (lines omit l ++ v ++ z ++ r).
Proof.
  intros HF HL. destruct l as [|s l]; [exact (finish_next v z r HF)|]. destruct HL as [HL _]. rewrite lines_cons. destruct (struct_gaps s HL) as (G1 & _). destruct (core_split s HL) as (a & t & E & Ha).
  unfold BackBody.line, around. rewrite E. repeat rewrite <- app_assoc. rewrite (app_assoc (pre _ _)). cbn [app].
  eexists _, [], (a :: _). split; [cbn [app]; reflexivity|]. split; [exact G1|]. split; [left; split; [reflexivity|now apply id_quiet]|]. split; now apply id_quiet.
Qed.
Definition some {A} (l : list A) : bool := match l with [] => false | _ => true end.
Lemma read_lines j omit v z r (HF : finish v z r) (HO : omit = true -> v ++ z ++ r = []) : forall l, Forall STRUCT l -> lall struct_ok l -> forall keys g om n o, free keys l ->
  Gap true g -> (l = [] -> g = []) ->
  tail_at inp o ((g ++ lines omit l) ++ v ++ z ++ r) -> (length (g ++ lines omit l) < n)%nat -> (length (g ++ lines omit l) <= j)%nat ->
  exists xs, body_loop u (Rn j) n keys om (mk o ((g ++ lines omit l) ++ v ++ z ++ r)) = POk (xs, om || (omit && some l)) (mk (o + blen (g ++ lines omit l)) (v ++ z ++ r)) /\ Forall2 SQ l xs /\
    (lall settled_struct l -> lines omit (map DS xs) = g ++ lines omit l).
Proof.
  induction 1 as [|s l HS HL IH]; intros HR keys g om n o HK Hg Hg0 Ho Hn Hj; (destruct n as [|n]; [lia|]).
  - rewrite Hg0 in * by reflexivity. exists []. split; [|split; [constructor|reflexivity]]. cbn [body_loop app BackBody.lines some]. destruct (miss_end keys j v z r HF o Ho) as (s' & ->).
    cbn [app] in *. unfold blen. cbn [map fold_right]. rewrite N.add_0_r, andb_false_r, orb_false_r. reflexivity.
  - destruct HR as [HR1 HR2]. rewrite lines_cons in *.
    set (last := omit && match l with [] => true | _ => false end) in *. change (if last then [] else [10]) with (line_break last) in *. set (t2 := lines omit l) in *.
    assert (ET : g ++ line s ++ line_break last ++ t2 = (g ++ line s ++ line_break last) ++ t2) by now rewrite <- !app_assoc.
    rewrite ET in *. rewrite <- (app_assoc _ t2) in *. destruct HK as [HK1 HK2].
    assert (HKs : free keys [s]). { split; [destruct s; cbn; repeat constructor; intros []|]. intros x Hx. apply HK2. unfold attr_names in *. cbn [flat_map] in *. rewrite app_nil_r in Hx. apply in_or_app. now left. }
    assert (Hc : (1 <= length (core s))%nat) by (destruct (core_split s HR1) as (a & t & -> & _); cbn [length]; lia).
    assert (Hlen : (length (core s) <= length (g ++ line s ++ line_break last))%nat). { unfold BackBody.line, around. repeat rewrite app_length. lia. }
    assert (Hnext : if last then t2 ++ v ++ z ++ r = [] else next (t2 ++ v ++ z ++ r)).
    { unfold last, t2. destruct omit; cbn [andb]; [destruct l as [|s2 l2]|]; [now apply HO| |]; now apply lines_next. }
    destruct (read_item s keys j g last (t2 ++ v ++ z ++ r) HS HR1 Hg HKs ltac:(rewrite app_length in Hj; lia) Hnext o Ho) as ([[x ks] e] & E & H1 & H2 & H3).
    cbn [fst snd] in H1, H2, H3. subst ks e. cbn [body_loop]. rewrite E. cbn [snd].
    destruct (Nat.eqb_spec (length (t2 ++ v ++ z ++ r)) (length ((g ++ line s ++ line_break last) ++ t2 ++ v ++ z ++ r))) as [F|_].
    { rewrite (app_length (g ++ line s ++ line_break last)) in F. lia. }
    assert (HK' : free (new_keys s keys) l).
    { split; [unfold attr_names in *; cbn [flat_map] in HK1; destruct s; cbn [app] in HK1; [now inversion HK1|exact HK1]|]. intros y Hy. destruct s as [m k e|m i ls l']; cbn [new_keys existsb].
      - apply orb_false_iff. split; [|apply HK2; unfold attr_names; cbn [flat_map app]; now right]. unfold attr_names in HK1. cbn [flat_map app] in HK1. inversion HK1 as [|? ? Hnin _]; subst.
        destruct (seqb y (i_name k)) eqn:Ey; [|reflexivity]. apply seqb_eq in Ey. subst y. contradiction.
      - apply HK2. exact Hy. }
    rewrite (app_length (g ++ line s ++ line_break last)) in Hn, Hj.
    destruct (IH HR2 (new_keys s keys) [] (om || last) n (o + blen (g ++ line s ++ line_break last)) HK') as (xs & E' & Hxs & HT).
    + constructor.
    + reflexivity.
    + cbn [app]. now apply tail_app.
    + cbn [app]. fold t2. lia.
    + cbn [app]. fold t2. lia.
    + cbn [app] in E'. fold t2 in E'. rewrite E'. exists (x :: xs). split; [|split; [now constructor; [apply H1|]|]].
      * f_equal; [|f_equal; rewrite (blen_app _ t2); lia]. f_equal. unfold last. destruct om, omit, l; reflexivity.
      * intros [S1 S2]. cbn [map]. rewrite lines_cons, (proj2 H1 S1), (HT S2). cbn [app]. fold t2. replace (match map DS xs with [] => true | _ => false end) with (match l with [] => true | _ => false end) by (clear - Hxs; now destruct Hxs).
        fold last. change (if last then [] else [10]) with (line_break last). now rewrite <- !app_assoc.
Qed.
(** What is read for a body. *)
Definition reads (g : str) (l : list xstruct) (w : str) (omit : bool) (x : xbody) : Prop :=
  exists m xs, x = XBody m xs false omit /\ wears None (Some w) m /\ Forall2 SQ l xs /\ (lall settled_struct l -> lines omit (map DS xs) = g ++ lines omit l).
Lemma SQ_all l xs : Forall2 SQ l xs -> map bare_struct (map DS xs) = map bare_struct l.
Proof. induction 1 as [|s x l xs A _ IH]; [reflexivity|]. cbn [map]. now rewrite IH, (proj1 A). Qed.
Lemma read_body j omit g l v z r : Forall STRUCT l -> lall struct_ok l -> NoDup (attr_names l) -> finish v z r -> (omit = true -> l <> [] /\ v ++ z ++ r = []) ->
  Gap true g -> (l = [] -> g = []) -> (length (g ++ lines omit l) <= j)%nat ->
  eat inp (pbody u (Rn j)) ((g ++ lines omit l) ++ v ++ z) (reads g l (v ++ z) omit) r.
Proof.
  intros HS HR HN HF HO Hg Hg0 Hj. unfold pbody. apply (eat_bind _ _ (g ++ lines omit l) (v ++ z) (fun p => snd (fst p) = omit /\ Forall2 SQ l (fst (fst p)) /\ (lall settled_struct l -> lines omit (map DS (fst (fst p))) = g ++ lines omit l))).
  - apply eat_with_span. intros o Ho. cbv beta. cbn [snd]. rewrite <- (app_assoc v z r) in *.
    destruct (read_lines j omit v z r HF (fun e => proj2 (HO e)) l HS HR [] g false (S (length ((g ++ lines omit l) ++ v ++ z ++ r))) o) as (xs & E & Hxs & HT); auto.
    + split; [exact HN|auto].
    + rewrite (app_length (g ++ lines omit l)). lia.
    + eexists. split; [exact E|]. intros sp'. cbn [fst snd orb]. split; [|split; [exact Hxs|exact HT]]. destruct omit; [|reflexivity]. destruct HO as [HO _]; [reflexivity|]. now destruct l.
  - intros [[xs om] sp'] (H1 & H2 & H3). cbn [fst snd] in *. subst om. apply (eat_bind' _ _ _ (v ++ z) [] (from (v ++ z))); [now rewrite app_nil_r| |].
    + apply eat_raw_wear; [|auto]. now apply finish_gap.
    + intros s' Hs. apply eat_ret. exists (set_suffix s' (set_span sp' no_meta)), xs. split; [reflexivity|]. split; [|auto]. split; [exact I|exact Hs].
Qed.

(** ** Blocks *)
Definition nested_ok (x : xbody) : Prop :=
  match x with
  | XBody bm l true omit =>
      omit = false /\ tidy false bm /\ match l with [] => True | [XAttr am k v] => tidy false am /\ attr_ok u b pf sf false k v | _ => False end
  | XBody bm l false omit =>
      omit = false /\ last_gap false (pre NO bm) = true /\ gap true (suf NO bm) = true /\ lall struct_ok l /\ NoDup (attr_names l)
  end.
Lemma inner_false l : inner false l = [10] ++ lines false l.
Proof. unfold inner. cbn [andb]. now rewrite lines_false. Qed.
Lemma miss_first j w c r : Gap false w -> clear true (c :: r) -> c <> 10 -> c <> 13 -> miss inp (prefix_decorated body_upd sp_comment (line_ending ;; r_body (Rn j))) (w ++ c :: r).
Proof.
  intros Hw Hr N1 N2. unfold prefix_decorated. apply (miss_bind2 _ _ w T (c :: r)).
  - apply eat_pspan; [|intros; exact I]. apply (eat_imp _ _ T); [|auto]. unfold sp_comment. apply (eat_bind' _ _ w w [] T); [now rewrite app_nil_r|apply (eat_gap false); [exact Hw|now apply clear_down]|].
    intros _ _. apply (eat_bind' _ _ [] [] [] T); [reflexivity| |intros; now apply eat_ret]. apply eat_opt_none; [|exact I]. destruct Hr as [_ Hr].
    unfold nocomment in Hr. rewrite negb_true_iff, !orb_false_iff in Hr. destruct Hr as [[R1 R2] _].
    unfold line_comment. apply (miss_bind2 (peek any) _ [] (eq c)); [apply (eat_peek any [c]); now apply eat_any|]. intros y <-.
    rewrite (N.eqb_sym c 35). cbn [starts_with] in R1. rewrite andb_true_r in R1. rewrite R1. destruct (c =? 47); [|apply miss_fail].
    unfold double_slash_line_comment. now apply miss_bind1, miss_tag.
  - intros sp1 _. apply miss_bind1, EatName.miss_spanned, miss_bind1. unfold line_ending. apply miss_taken, miss_alt; apply miss_tag.
    + cbn [starts_with]. destruct (N.eqb_spec 10 c); [congruence|reflexivity].
    + cbn [starts_with]. destruct (N.eqb_spec 13 c); [congruence|reflexivity].
Qed.
Lemma read_block_body j x rest : nested_ok x -> match x with XBody bm l one _ => Forall STRUCT l /\ (length (btext x) < j)%nat end ->
  eat inp (block_body u (Rn j)) ([123] ++ btext x ++ [125]) (BQ x) rest.
Proof.
  destruct x as [bm l one om]. intros HN [HS Hj]. cbn [btext] in *. unfold block_body. apply (eat_bind _ _ [123] _ T); [now apply eat_cut, eat_char|]. intros _ _.
  apply (eat_bind _ _ (around NO bm (inner one l)) [125] (BQ (XBody bm l one om))).
  2: { intros x Hx. apply (eat_bind' _ _ _ [125] [] T); [reflexivity|apply eat_cut; now apply eat_char|]. intros _ _. now apply eat_ret. }
  destruct one; cbn [nested_ok] in HN.
  - destruct HN as (-> & [T1 T2] & HL). apply (pre_gap NO false bm (proj1 df_ok)) in T1. apply (suf_gap NO false bm (proj1 df_ok)) in T2.
    destruct l as [|[am k v|? ? ? ?] [|? ?]]; try contradiction.
    + unfold inner, around. cbn [andb oneline_ok app]. apply eat_alt2.
      * cbn [app]. rewrite <- (app_assoc (pre NO bm)). rewrite app_assoc. apply miss_first; [now apply Gap_app|split; reflexivity|discriminate|discriminate].
      * apply (eat_look _ _ _ (eq None)).
        -- apply eat_opt_none; [|reflexivity]. unfold oneline_attr, decorated. rewrite <- (app_assoc (pre NO bm)). rewrite app_assoc. apply (miss_bind2 _ _ (pre NO bm ++ suf NO bm) T ([125] ++ rest)).
           ++ apply eat_pspan; [|intros; exact I]. apply (eat_imp _ _ T); [|auto]. apply (eat_gap false); [now apply Gap_app|split; reflexivity].
           ++ intros sp1 _. apply miss_bind1, EatName.miss_spanned, miss_bind1. unfold suffix_decorated. apply miss_bind1, EatName.miss_spanned. unfold ident. apply miss_pmap, EatName.miss_ident. now apply (EatName.not_start u).
        -- intros a <-. apply (eat_bind' _ _ _ (pre NO bm ++ suf NO bm) [] (from (pre NO bm ++ suf NO bm))); [now rewrite app_nil_r| |].
           ++ apply eat_raw_wear; [|auto]. apply (eat_gap false); [now apply Gap_app|split; reflexivity].
           ++ intros z Hz. apply eat_ret. split; [reflexivity|]. intros _. cbn [body_map map btext]. unfold inner. cbn [andb oneline_ok].
              assert (W : wears None (Some (pre NO bm ++ suf NO bm)) (set_suffix z no_meta)) by (split; [exact I|exact Hz]). rewrite (wears_around inp NO _ _ _ _ W). unfold around. cbn [worn app fst NO]. reflexivity.
    + destruct HL as [[A1 A2] HA]. apply (pre_gap BOTH false am ltac:(apply df_ok)) in A1. apply (suf_gap BOTH false am ltac:(apply df_ok)) in A2.
      assert (HA' := HA). destruct HA as (H1 & H2 & H3 & [H4 H4'] & H5). apply (pre_gap TRAILING false _ ltac:(apply df_ok)) in H2. apply (suf_gap LEADING false _ ltac:(apply df_ok)) in H4'.
      unfold inner in *. cbn [andb oneline_ok struct_meta lead trail BackBody.core] in *.
      assert (ET : around NO bm (around BOTH am (pre TRAILING (i_meta k) ++ value_text sf k v ++ suf LEADING (x_meta v))) =
        (((pre NO bm ++ pre BOTH am) ++ pre TRAILING (i_meta k)) ++ value_text sf k v ++ suf LEADING (x_meta v) ++ suf BOTH am ++ suf NO bm)).
      { unfold around. rewrite <- !app_assoc. reflexivity. }
      rewrite ET in *. set (g := (pre NO bm ++ pre BOTH am) ++ pre TRAILING (i_meta k)) in *.
      assert (Hg : Gap false g) by (unfold g; repeat apply Gap_app; auto). destruct (ident_split _ H1) as (a & t & E & Ha).
      apply eat_alt2.
      * unfold value_text. rewrite E. rewrite <- app_assoc. cbn [app]. apply miss_first; [exact Hg|now apply id_quiet| |].
        -- intros ->. pose proof (id_start_not u HU 10 10 Ha ltac:(lia) eq_refl). discriminate.
        -- intros ->. pose proof (id_start_not u HU 13 13 Ha ltac:(lia) eq_refl). discriminate.
      * (* the attribute takes all that follows it *)
        apply (eat_bind' _ _ _ (g ++ value_text sf k v ++ suf LEADING (x_meta v) ++ suf BOTH am ++ suf NO bm) [] (fun o => exists s, o = Some s /\ SQ (XAttr am k v) s /\ wears (Some g) (Some (suf LEADING (x_meta v) ++ suf BOTH am ++ suf NO bm)) (struct_meta s))); [now rewrite app_nil_r| |].
        -- apply eat_opt. eapply eat_imp; [apply (read_oneline j am k v g (suf BOTH am ++ suf NO bm) ([125] ++ rest)); auto|].
           ++ now apply Gap_app.
           ++ apply after_close.
           ++ repeat rewrite app_length in Hj. lia.
           ++ split; reflexivity.
           ++ intros s [Hs HW]. eauto.
        -- intros o (s & -> & [Hs HT] & HW). apply (eat_bind' _ _ [] [] [] (from [])); [reflexivity| |].
           ++ apply eat_raw_wear; [|auto]. apply (eat_gap false); [constructor|split; reflexivity].
           ++ intros z Hz. apply eat_ret. split.
              ** change (XBody no_meta [bare_struct (DS s)] true false = XBody no_meta [bare_struct (XAttr am k v)] true false). now rewrite Hs.
              ** intros [HS' _]. destruct (HT HS') as (E1 & E2 & E3). assert (EO : oneline_ok [DS s] = true) by (destruct s; [reflexivity|discriminate Hs]).
                 change (around NO (meta_map D (set_suffix z no_meta)) (inner true [DS s]) = btext (XBody bm [XAttr am k v] true false)). unfold inner at 1. rewrite EO. cbn [andb].
                 assert (W : wears None (Some []) (set_suffix z no_meta)) by (split; [exact I|exact Hz]). rewrite (wears_around inp NO _ _ _ _ W), DS_meta, (wears_around inp BOTH _ _ _ _ HW), E1, E2, E3.
                 cbn [btext]. unfold inner. cbn [andb oneline_ok struct_meta lead trail BackBody.core worn app]. rewrite ET. now rewrite !app_nil_r.
  - destruct HN as (-> & P1 & P2 & HL & HD). destruct (last_gap_spec _ _ P1) as (w & z & EP & Hw & Hz). apply (suf_gap NO true bm (proj1 df_ok)) in P2.
    apply eat_alt1. rewrite inner_false in *. unfold around in *. rewrite EP in *.
    unfold prefix_decorated. apply (eat_bind' _ _ _ (w ++ z) ([10] ++ lines false l ++ suf NO bm) (fun sp => from (w ++ z) (raw_of_span sp))); [now rewrite <- !app_assoc| |].
    { apply (eat_span_from inp); [|auto]. apply read_line_end; auto. right. exists [10]. eexists. split; [now left|]. cbn [app]. reflexivity. }
    intros sp1 W1. unfold spanned. apply (eat_bind' _ _ _ ([10] ++ lines false l ++ suf NO bm) [] (reads [] l (suf NO bm) false)); [now rewrite app_nil_r| |].
    + apply (eat_bind' _ _ _ ([10] ++ lines false l ++ suf NO bm) [] (fun p => reads [] l (suf NO bm) false (fst p))); [now rewrite app_nil_r| |].
      * apply eat_with_span. apply (eat_bind _ _ [10] _ T).
        -- unfold line_ending. apply eat_taken; [|exact I]. apply eat_alt1. now apply eat_tag.
        -- intros _ _. cbn [fst]. destruct j as [|j]; [lia|]. cbn [recs_at unroll r_body]. apply (eat_imp _ _ (reads [] l (suf NO bm) false)); [|auto].
           pose proof (read_body j false [] l (suf NO bm) [] ([125] ++ rest) HS HL HD) as HB. cbn [app] in HB. rewrite app_nil_r in HB. apply HB; auto.
           ++ split; [exact P2|]. split; [right; eexists; reflexivity|now left].
           ++ discriminate.
           ++ constructor.
           ++ repeat rewrite app_length in Hj. cbn [length] in Hj. lia.
      * intros [x sp2] (m0 & xs & E & W & H1 & H2). cbn [fst] in E. subst x. apply eat_ret. exists (set_span sp2 m0), xs. split; [reflexivity|]. split; [exact W|auto].
    + intros x (m0 & xs & -> & [_ W2] & H1 & H2). apply eat_ret. split.
      * cbn [body_upd body_map bare_body]. f_equal. change (map bare_struct (map DS xs) = map bare_struct l). now apply SQ_all.
      * intros HS'. cbn [body_upd body_map btext]. fold DS. rewrite !inner_false, (H2 HS'). cbn [app].
        assert (W : wears (Some (w ++ z)) (Some (suf NO bm)) (set_prefix (raw_of_span sp1) m0)) by (split; [exact W1|exact W2]).
        rewrite (wears_around inp NO _ _ _ _ W). unfold around. now rewrite EP.
Qed.
Lemma labels_Q ls xs : Forall2 LQ ls xs -> map bare_label (map (label_map D) xs) = map bare_label ls.
Proof. induction 1 as [|l x ls xs A _ IH]; [reflexivity|]. cbn [map]. now rewrite IH, A. Qed.
Lemma core_block m i ls x : core (XBlock m i ls x) = i_name i ++ suf TRAILING (i_meta i) ++ flat_map label_text ls ++ [123] ++ btext x ++ [125].
Proof. now destruct x. Qed.
Lemma block_Q m i ls y m' im xs x : Forall2 LQ ls xs -> flat_map label_text (map (label_map D) xs) = labels ls -> wears None (Some (suf TRAILING (i_meta i) ++ lgap ls)) im -> BQ y x ->
  SQ (XBlock m i ls y) (XBlock m' (Did im (i_name i)) xs x).
Proof.
  intros HL HT W [HB HS]. split.
  2: { intros H. cbn [struct_map]. fold DB. split; [|split; [|reflexivity]].
    - rewrite !core_block, HT, (HS H). unfold did_map. cbn [i_name i_meta]. rewrite (wears_suf inp TRAILING _ _ _ W), labels_text. cbn [worn]. now rewrite <- !app_assoc.
    - cbn [lead]. unfold did_map. cbn [i_meta]. now rewrite (wears_pre inp TRAILING _ _ _ W). }
  change (XBlock no_meta (bare_did i) (map bare_label (map (label_map D) xs)) (bare_body (body_map D leave x)) = XBlock no_meta (bare_did i) (map bare_label ls) (bare_body y)).
  now rewrite (labels_Q ls xs HL), HB.
Qed.
Lemma STRUCT_block m i ls x : match x with XBody _ l _ _ => Forall STRUCT l end -> STRUCT (XBlock m i ls x).
Proof.
  intros HS HK keys j rest _ Hj Hr.
  assert (HN : nested_ok x) by (destruct x; apply HK). assert (H : is_ident u (i_name i) = true /\ gap false (suf NO (i_meta i)) = true /\ lall (label_ok u) ls /\ spaced (suf TRAILING (i_meta i)) ls) by (destruct x; split; [apply HK|split; [apply HK|split; apply HK]]).
  clear HK. destruct H as (H1 & H2 & H3 & H4). unfold structure. cbn [trail app].
  set (B := [123] ++ btext x ++ [125]).
  assert (EC : core (XBlock m i ls x) = i_name i ++ (suf TRAILING (i_meta i) ++ lgap ls) ++ labels ls ++ B).
  { rewrite core_block, labels_text. fold B. now rewrite <- !app_assoc. }
  rewrite EC in *. clear EC.
  assert (HB : forall r, eat inp (block_body u (Rn j)) B (BQ x) r).
  { intros r. apply read_block_body; [exact HN|]. destruct x as [bm l one om]. split; [exact HS|]. unfold B in Hj. clear - Hj. repeat rewrite app_length in Hj. cbn [length] in Hj. lia. }
  assert (EB : exists r', B = 123 :: r') by (eexists; reflexivity). destruct EB as (B' & EB).
  assert (Hg0 : Gap false (suf TRAILING (i_meta i))) by (apply suf_gap; [apply df_ok|exact H2]).
  assert (Hg : Gap false (suf TRAILING (i_meta i) ++ lgap ls)) by (apply Gap_app; [exact Hg0|now apply lgap_gap]).
  pose proof (spaced_idc (suf TRAILING (i_meta i)) ls (B' ++ rest) H3 Hg0 H4) as HI.
  assert (HCL : clear true (labels ls ++ B ++ rest)) by (rewrite EB; cbn [app]; now apply labels_clear).
  pose proof (fun xs y m' im => block_Q m i ls x m' im xs y) as HBQ.
  set (g := suf TRAILING (i_meta i) ++ lgap ls) in *. clearbody B g. clear Hj Hg0 HN HS Hr H2.
  apply (eat_look _ _ _ T); [now apply eat_pos|]. intros start _. intros o Ho. cbv beta.
  refine (EatName.eat_name u _ (i_name i) (g ++ labels ls ++ B) _ _ rest H1 _ _ o Ho); [rewrite EB; repeat rewrite <- app_assoc; cbn [app]; exact HI|]. intros sp'. cbv beta iota.
  apply (eat_bind _ _ g (labels ls ++ B) (from g)).
  { apply eat_raw_wear; [|auto]. apply (eat_gap false); [exact Hg|apply clear_down; rewrite <- app_assoc; exact HCL]. }
  intros w Hw. assert (W : wears None (Some g) (set_span sp' (set_suffix w no_meta))) by (split; [exact I|exact Hw]). destruct ls as [|lb ls].
  - cbn [labels app]. apply (eat_look _ _ _ (eq 123)); [rewrite EB; apply (eat_peek any [123] (eq 123) (B' ++ rest)); now apply eat_any|intros a <-]. cbv beta zeta. cbn [N.eqb Pos.eqb].
    apply (eat_bind' _ _ _ B [] (BQ x)); [now rewrite app_nil_r|apply HB|]. intros y Hy.
    apply (eat_bind' _ _ _ [] [] T); [reflexivity|now apply eat_pos|]. intros z _. apply eat_ret. cbn [fst snd new_keys]. split; [|reflexivity]. now apply HBQ.
  - assert (HL : label_ok u lb) by apply H3.
    destruct (label_split lb HL) as (a & t & Ea & Ha). destruct (label_char a [] Ha) as (C1 & C2 & _).
    apply (eat_look _ _ _ (eq a)); [|intros a' <-].
    { cbn [labels]. rewrite Ea. cbn [app]. apply (eat_peek any [a]). now apply eat_any. }
    cbv beta zeta. rewrite C1, C2, Ha.
    apply (eat_bind _ _ (labels (lb :: ls)) B (fun xs => Forall2 LQ (lb :: ls) xs /\ flat_map label_text (map (label_map D) xs) = labels (lb :: ls))); [rewrite EB; cbn [app]; apply (read_labels _ (suf TRAILING (i_meta i))); auto|]. intros xs [Hxs HXT].
    apply (eat_bind' _ _ _ B [] (BQ x)); [now rewrite app_nil_r|apply HB|]. intros y Hy.
    apply (eat_bind' _ _ _ [] [] T); [reflexivity|now apply eat_pos|]. intros z _. apply eat_ret. cbn [fst snd new_keys]. split; [|reflexivity]. now apply HBQ.
Qed.
Lemma all_STRUCT s : STRUCT s.
Proof. exact (proj1 (xbody_all STRUCT (fun x => match x with XBody _ l _ _ => Forall STRUCT l end) STRUCT_attr STRUCT_block (fun m l o n (H : Forall STRUCT l) => H)) s). Qed.
End Read.

(** ** Whole texts *)
Section Top.
Context (u : unicode) (b : build) (pf : str -> f64) (sf : f64 -> str) (HU : ascii_exact u).
Lemma same_body x : body_ok u b pf sf x ->
  exists x', parse_body u b pf (show_body sf x) = Parsed x' /\ bare_body x' = bare_body x /\ (settled_body x -> show_body sf x' = show_body sf x).
Proof.
  destruct x as [m l one omit]. intros (-> & P1 & P2 & HL & HD & HO). pose proof (print_body u b pf sf m l false omit HL) as EP. rewrite EP. set (t := pre NO m ++ lines sf omit l ++ suf NO m).
  apply (pre_gap NO true m (proj1 df_ok)) in P1. destruct (last_gap_spec _ _ P2) as (v & z & ES & Hv & Hz).
  assert (ET : t = pre NO m ++ lines sf omit l ++ v ++ z) by (unfold t; now rewrite ES).
  assert (HS : Forall (@STRUCT t u b pf sf) l) by (apply Forall_forall; intros s _; now apply all_STRUCT).
  destruct (EatName.eat_parse_body u b pf t (fun x => exists g w, t = (g ++ lines sf omit l) ++ w /\ @reads t sf g l w omit x)) as (x & E & g & w & EG & m0 & xs & -> & W & HX & HT).
  - intros n Hn. rewrite ET in Hn. destruct l as [|s l].
    + assert (EW : t = (pre NO m ++ v) ++ z) by (rewrite ET; cbn [lines app]; now rewrite app_assoc). apply (eat_imp _ _ (@reads t sf [] [] ((pre NO m ++ v) ++ z) omit)); [|intros x Hx; eexists [], _; split; [exact EW|exact Hx]]. rewrite EW at 2. clearbody t.
      apply (@read_body t u b pf sf HU n omit [] [] (pre NO m ++ v) z []); auto.
      * split; [now apply Gap_app|]. split; [now left|auto].
      * intros E. destruct (HO E) as [F _]. now elim F.
      * constructor.
      * cbn [lines app length]. lia.
    + assert (EW : t = (pre NO m ++ lines sf omit (s :: l)) ++ v ++ z) by (rewrite ET; now rewrite <- app_assoc). apply (eat_imp _ _ (@reads t sf (pre NO m) (s :: l) (v ++ z) omit)); [|intros x Hx; eexists _, _; split; [exact EW|exact Hx]]. rewrite EW at 2. clearbody t.
      apply (@read_body t u b pf sf HU n omit (pre NO m) (s :: l) v z []); auto.
      * split; [exact Hv|]. split; [now left|auto].
      * intros E. destruct (HO E) as [F1 F2]. split; [exact F1|]. rewrite F2 in ES. symmetry in ES. apply app_eq_nil in ES. destruct ES as [-> ->]. reflexivity.
      * discriminate.
      * rewrite app_length in *. rewrite app_length in Hn. lia.
  - exists (body_map (raw_despan t) leave (XBody m0 xs false omit)). split; [exact E|]. pose proof (@SQ_all t sf l xs HX) as HB. split.
    + cbn [body_map bare_body]. f_equal. exact HB.
    + intros HL'. cbn [body_map]. rewrite (print_even sf _ _ _ _ (structs_same l _ HB (structs_even u b pf sf l HL))).
      rewrite (wears_around t NO _ _ _ _ W). rewrite (HT HL'). cbn [worn app fst NO]. rewrite <- EG. reflexivity.
Qed.
Lemma back_body x : body_ok u b pf sf x -> exists x', parse_body u b pf (show_body sf x) = Parsed x' /\ bare_body x' = bare_body x.
Proof. intros H. destruct (same_body x H) as (x' & E & HB & _). eauto. Qed.
Lemma back_expression e : sub (ok u b pf sf false) false e -> snug (x_meta e) -> exists e', parse_expr u b pf (show_expr sf e) = Parsed e' /\ bare e' = bare e.
Proof.
  intros H [S1 S2]. assert (EP : show_expr sf e = x_text sf false e).
  { unfold show_expr. rewrite (w_expr u b pf sf NO e false H). cbn [fst]. rewrite S1, S2. cbn [app]. apply app_nil_r. }
  rewrite EP. set (t := x_text sf false e). destruct (eat_parse u b pf t (@BackProofs.Q t sf e)) as (x & E & [HQ _]); [|eauto].
  apply (@back_expr t u b pf sf HU e false []); [exact H|now apply ctx_end].
Qed.
Lemma back_template es sp : lall (elem_ok u b pf sf false) es -> apart es = true -> lits (fun _ _ => True) 0 es ->
  exists t', parse_template u b pf (show_tpl sf (XTempl es sp)) = Parsed t' /\ bare_tpl t' = bare_tpl (XTempl es sp).
Proof.
  intros H1 H2 H3. assert (EP : show_tpl sf (XTempl es sp) = flat_map (elem_text sf false) es) by (unfold show_tpl; now rewrite (print_tpl u b pf sf es sp H1)).
  rewrite EP. set (t := flat_map (elem_text sf false) es).
  destruct (@back_tpl t u b pf sf HU es H1 H2 H3 (length t) ltac:(apply le_n) 0) as (x & E & HQ); [rewrite app_nil_r; apply tail_0|]. rewrite app_nil_r in E. fold t in E.
  exists (tpl_map (raw_despan t) leave (XTempl x None)). split.
  - apply (tpl_despan_ok u b pf t (XTempl x None)). unfold raw_tpl, parse_tpl_raw, parse, top. cbn [recs_at unroll r_tpl]. change (mk 0 t) with (@pair N str 0 t) in E. unfold pmap, ParseBase.bind. rewrite E. reflexivity.
  - cbn [tpl_map bare_tpl]. f_equal. exact (proj1 HQ).
Qed.

(** What is read is printed as the same text. *)
Lemma same_expression e : sub (ok u b pf sf false) false e -> snug (x_meta e) -> settled e -> lone e ->
  exists e', parse_expr u b pf (show_expr sf e) = Parsed e' /\ bare e' = bare e /\ show_expr sf e' = show_expr sf e.
Proof.
  intros H [S1 S2] HS HL. assert (EP : show_expr sf e = x_text sf false e).
  { unfold show_expr. rewrite (w_expr u b pf sf NO e false H). cbn [fst]. rewrite S1, S2. cbn [app]. apply app_nil_r. }
  rewrite EP. set (t := x_text sf false e). destruct (eat_parse u b pf t (fun x => @BackProofs.Q t sf e x /\ bald x)) as (x & E & [HQ HT] & HB).
  { apply (@EXPR_bald t), (@back_expr t u b pf sf HU e false []); [exact H|now apply ctx_end]. }
  exists (x_map (raw_despan t) leave x). split; [exact E|]. split; [exact HQ|].
  unfold show_expr, x_enc, xdec. rewrite (w_deco _ NO _ _ (even_expr sf _ (even_same _ _ HQ (proj1 (ok_even u b pf sf) e _ _ _ H)))). cbn [fst].
  change (text_in (x_text sf false) NO (x_map (raw_despan t) leave x) = t). rewrite (@bald_in t sf false x HB (lone_read x e HQ HL)). exact (HT HS false).
Qed.
Lemma same_template es sp : lall (elem_ok u b pf sf false) es -> apart es = true -> lits (fun _ _ => True) 0 es -> lall settled_elem es ->
  exists t', parse_template u b pf (show_tpl sf (XTempl es sp)) = Parsed t' /\ bare_tpl t' = bare_tpl (XTempl es sp) /\ show_tpl sf t' = show_tpl sf (XTempl es sp).
Proof.
  intros H1 H2 H3 HS. assert (EP : show_tpl sf (XTempl es sp) = flat_map (elem_text sf false) es) by (unfold show_tpl; now rewrite (print_tpl u b pf sf es sp H1)).
  rewrite EP. set (t := flat_map (elem_text sf false) es).
  destruct (@back_tpl t u b pf sf HU es H1 H2 H3 (length t) ltac:(apply le_n) 0) as (x & E & HQ); [rewrite app_nil_r; apply tail_0|]. rewrite app_nil_r in E. fold t in E.
  exists (tpl_map (raw_despan t) leave (XTempl x None)). split; [|split].
  - apply (tpl_despan_ok u b pf t (XTempl x None)). unfold raw_tpl, parse_tpl_raw, parse, top. cbn [recs_at unroll r_tpl]. change (mk 0 t) with (@pair N str 0 t) in E. unfold pmap, ParseBase.bind. rewrite E. reflexivity.
  - cbn [tpl_map bare_tpl]. f_equal. exact (proj1 HQ).
  - destruct HQ as [HQ HT]. cbn [tpl_map]. unfold show_tpl. rewrite (even_template sf _ _ (elems_same es _ HQ (elems_even u b pf sf es false H1))). cbn [fst]. exact (HT HS false).
Qed.
End Top.

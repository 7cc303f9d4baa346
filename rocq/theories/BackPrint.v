(** * The text which is printed is the text of the tree: proofs *)
From Coq Require Import NArith ZArith Arith Bool String List Lia.
From Verif Require Import Res Str Dec NumberModel PrimModel PrimProofs EAst EAstInd EncModel EqSpec EqProofs PrattSpec.
From Verif Require Import BackSpec.
Import ListNotations.
Open Scope N_scope.

(** The encoder [o] writes the text [f]: if the flag is clear; if it is set and no quoted template
    clears it; and if no literal is changed by escaping. *)
Definition prints (o : out) (f : bool -> str) (ps : list part) : Prop :=
  o false = (f false, false) /\ (quoteless ps -> o true = (f true, true)) /\ (literals_plain ps -> forall c q, exists c', o c = (f q, c')).
Lemma prints_eq o f g ps ps' : prints o f ps -> (forall q, f q = g q) -> ps = ps' -> prints o g ps'.
Proof. intros (H1 & H2 & H3) E <-. split; [now rewrite <- E|]. split; [now rewrite <- E|]. intros HL c q. rewrite <- E. now apply H3. Qed.
Lemma prints_wr s : prints (wr s) (fun _ => s) [].
Proof. repeat split. intros _ c q. now exists c. Qed.
Lemma prints_cat o o' f f' ps ps' : prints o f ps -> prints o' f' ps' -> prints (o >>> o') (fun q => f q ++ f' q) (ps ++ ps').
Proof.
  intros (H1 & H2 & H3) (K1 & K2 & K3). unfold cat. split; [now rewrite H1, K1|]. split.
  - intros HF. apply Forall_app in HF. destruct HF as [F1 F2]. now rewrite (H2 F1), (K2 F2).
  - intros HF c q. apply Forall_app in HF. destruct HF as [F1 F2]. destruct (H3 F1 c q) as (c1 & ->). destruct (K3 F2 c1 q) as (c2 & ->). now exists c2.
Qed.
Lemma prints_cats {A} (o : A -> out) (f : bool -> A -> str) (p : A -> list part) l : Forall (fun x => prints (o x) (fun q => f q x) (p x)) l ->
  prints (cats (map o l)) (fun q => flat_map (f q) l) (flat_map p l).
Proof.
  induction 1 as [|x l H _ IH]; [apply prints_wr|]. cbn [map cats flat_map]. exact (prints_cat _ _ _ _ _ _ H IH).
Qed.
Lemma prints_deco m df o f ps : prints o f ps -> prints (deco (m_decor m) df o) (fun q => around df m (f q)) ps.
Proof.
  intros H. eapply prints_eq; [exact (prints_cat _ _ _ _ _ _ (prints_wr _) (prints_cat _ _ _ _ _ _ H (prints_wr _)))|reflexivity|]. cbn [app]. apply app_nil_r.
Qed.
Lemma prints_did df i : prints (enc_did df i) (fun _ => did_text df i) [].
Proof. exact (prints_deco _ _ _ _ _ (prints_wr (i_name i))). Qed.
Lemma prints_strip k s o f ps : prints o f ps -> prints (enc_strip k s o) (fun q => strip_text k s (f q)) ps.
Proof.
  intros H. eapply prints_eq; [exact (prints_cat _ _ _ _ _ _ (prints_wr _) (prints_cat _ _ _ _ _ _ (prints_wr _) (prints_cat _ _ _ _ _ _ H (prints_cat _ _ _ _ _ _ (prints_wr _) (prints_wr _)))))|reflexivity|].
  cbn [app]. now rewrite !app_nil_r.
Qed.
Lemma prints_opt {A} (o : A -> out) (f : bool -> A -> str) (p : A -> list part) (x : option A) : oall (fun x => prints (o x) (fun q => f q x) (p x)) x ->
  prints (match x with Some x => o x | None => wr [] end) (fun q => match x with Some x => f q x | None => [] end) (opt_parts p x).
Proof. destruct x; [auto|intros _; apply prints_wr]. Qed.

(** Trees for which the flag does not matter: the conditions on quoted templates and heredocs of [ok]. *)
Fixpoint even (e : xexpr) : Prop :=
  match e with
  | XNull _ | XBool _ _ | XNum _ _ _ | XStr _ _ | XVar _ _ => True
  | XArr _ l _ _ => lall even l
  | XObj _ l _ => lall even_item l
  | XTpl _ es => lall even_elem es /\ (quoteless (flat_map elem_parts es) \/ literals_plain (flat_map elem_parts es))
  | XHeredoc _ _ t i _ => even_tpl t /\ i = None
  | XParen _ e => even e
  | XCond _ c t f => even c /\ even t /\ even f
  | XCall _ _ _ _ args _ _ _ => lall even args
  | XTrav _ e ops => even e /\ lall even_trop ops
  | XUnary _ _ _ e => even e
  | XBinary _ l _ _ r => even l /\ even r
  | XFor _ _ _ _ coll key val _ cond => even coll /\ oallp even key /\ even val /\ oallp even_cond cond
  end
with even_cond (c : xcond) : Prop := match c with XForCond _ e => even e end
with even_item (i : xitem) : Prop := match i with XItem k _ v _ => even_key k /\ even v end
with even_key (k : xkey) : Prop := match k with XKId _ => True | XKExpr e => even e end
with even_trop (o : xtrop) : Prop := match o with XTrop _ o => even_op o end
with even_op (o : xop) : Prop := match o with XIndex e => even e | _ => True end
with even_tpl (t : xtpl) : Prop := match t with XTempl es _ => lall even_elem es end
with even_elem (e : xelem) : Prop :=
  match e with
  | XLit _ _ => True
  | XInterp _ e _ => even e
  | XIfD _ _ c t _ el _ _ _ => even c /\ even_tpl t /\ oallp even_else el
  | XForD _ _ _ _ coll t _ _ _ _ => even coll /\ even_tpl t
  end
with even_else (e : xelse) : Prop := match e with XElse _ _ t _ => even_tpl t end.

Section Print.
Context (u : unicode) (b : build) (pf : str -> f64) (sf : f64 -> str).
Notation text := (x_text sf).
Notation ok := (ok u b pf sf).
Definition Pe (e : xexpr) : Prop := even e -> prints (x_core sf e) (fun q => text q e) (parts e).
Definition Pc (c : xcond) : Prop := even_cond c -> prints (cond_enc sf c) (fun q => cond_text sf q c) (cond_parts c).
Definition Pi (i : xitem) : Prop := even_item i -> prints (item_enc sf i) (fun q => item_text sf q i) (item_parts i).
Definition Pk (k : xkey) : Prop := even_key k -> prints (key_enc sf k) (fun q => key_text sf q k) (key_parts k).
Definition Pt (o : xtrop) : Prop := even_trop o -> prints (trop_enc sf o) (fun q => trop_text sf q o) (trop_parts o).
Definition Po (o : xop) : Prop := even_op o -> prints (op_enc sf o) (fun q => op_text sf q o) (op_parts o).
Definition Pel (e : xelem) : Prop := even_elem e -> prints (elem_enc sf e) (fun q => elem_text sf q e) (elem_parts e).
Definition Ptp (t : xtpl) : Prop := even_tpl t -> prints (tpl_enc sf t) (fun q => tpl_text sf q t) (tpl_parts t).
Definition Pls (e : xelse) : Prop := even_else e -> prints (else_enc sf e) (fun q => else_text sf q e) (else_parts e).
Lemma Pe_in df e : Pe e -> even e -> prints (xdec (x_core sf) df e) (fun q => text_in (text q) df e) (parts e).
Proof. intros H HO. apply prints_deco. exact (H HO). Qed.
Lemma Pe_comma l : Forall Pe l -> lall even l -> prints (comma_sep (xdec (x_core sf)) l) (fun q => commas (text_in (text q)) l) (flat_map parts l).
Proof.
  intros H HO. destruct l as [|x l]; [apply prints_wr|]. destruct HO as [H1 H2]. inversion H as [|? ? P1 P2]; subst. cbn [comma_sep commas flat_map]. apply prints_cat; [exact (Pe_in NO x P1 H1)|].
  apply (prints_cats (fun y => wr [44] >>> xdec (x_core sf) LEADING y) (fun q y => [44] ++ text_in (text q) LEADING y)). apply lall_Forall in H2. clear -P2 H2.
  induction l as [|y l IH]; constructor.
  - apply Forall_inv in H2. exact (prints_cat _ _ _ _ _ _ (prints_wr _) (Pe_in LEADING y (Forall_inv P2) H2)).
  - apply IH; (exact (Forall_inv_tail P2) || exact (Forall_inv_tail H2)).
Qed.
Lemma Forall_ok {A} (Pr : A -> Prop) (R S : A -> Prop) l : (forall x, Pr x -> R x -> S x) -> Forall Pr l -> lall R l -> Forall S l.
Proof. intros H HP HR. apply lall_Forall in HR. rewrite Forall_forall in *. auto. Qed.
Ltac pr := repeat first [eassumption | apply prints_wr | apply prints_did | eapply prints_strip | eapply prints_deco | eapply prints_cat].
Ltac ptext := intros ?; first [reflexivity | cbn beta; repeat rewrite <- app_assoc; reflexivity].
Ltac pparts := cbn [app]; rewrite ?app_nil_r; reflexivity.
Lemma prints_all : (forall e, Pe e) /\ (forall c, Pc c) /\ (forall i, Pi i) /\ (forall k, Pk k) /\ (forall o, Pt o) /\ (forall o, Po o) /\ (forall t, Ptp t) /\ (forall e, Pel e) /\ (forall e, Pls e).
Proof.
  apply xexpr_all.
  - intros m _. apply prints_wr.
  - intros m x _. apply prints_wr.
  - intros m n r _. apply prints_wr.
  - intros m s _. apply prints_wr.
  - intros m l c t H H1. pose proof (Pe_comma l H H1) as HC. eapply prints_eq; [cbn [x_core]; pr|ptext|pparts].
  - intros m l t H H1.
    pose proof (prints_cats (item_enc sf) (item_text sf) item_parts l (Forall_ok Pi _ _ l (fun x A B => A B) H H1)) as HC. eapply prints_eq; [cbn [x_core]; pr|ptext|pparts].
  - intros m l H (H1 & HD).
    pose proof (prints_cats (elem_enc sf) (elem_text sf) elem_parts l (Forall_ok Pel _ _ l (fun x A B => A B) H H1)) as (_ & C2 & C3).
    assert (E : fst (cats (map (elem_enc sf) l) true) = flat_map (elem_text sf true) l) by (destruct HD as [HD|HD]; [now rewrite (C2 HD)|destruct (C3 HD true true) as (c & ->); reflexivity]).
    assert (X : forall c, x_core sf (XTpl m l) c = ([34] ++ flat_map (elem_text sf true) l ++ [34], false)) by (intros c; rewrite <- E; reflexivity).
    split; [apply X|]. split; [intros HF; inversion HF; contradiction|]. intros _ c q'. exists false. apply X.
  - intros m d t i r H [HT ->]. pose proof (H HT) as E. eapply prints_eq; [cbn [x_core]; pr|ptext|pparts].
  - intros m e H HO. pose proof (Pe_in NO e H HO) as HE. eapply prints_eq; [cbn [x_core]; pr|ptext|pparts].
  - intros m x _. apply prints_wr.
  - intros m c t f H1 H2 H3 (O1 & O2 & O3). pose proof (Pe_in TRAILING c H1 O1) as E1. pose proof (Pe_in BOTH t H2 O2) as E2. pose proof (Pe_in LEADING f H3 O3) as E3.
    eapply prints_eq; [cbn [x_core]; pr|ptext|pparts].
  - intros m ns n am l ex co t H H1. pose proof (Pe_comma l H H1) as HC.
    assert (HN : prints (cats (map (fun i => enc_did NO i >>> wr (lit "::")) ns)) (fun _ => flat_map (fun i => did_text NO i ++ lit "::") ns) []).
    { eapply prints_eq; [apply (prints_cats _ (fun _ i => did_text NO i ++ lit "::") (fun _ => []))|reflexivity|].
      - apply Forall_forall. intros i _. exact (prints_cat _ _ _ _ _ _ (prints_did NO i) (prints_wr _)).
      - clear. induction ns; auto. }
    eapply prints_eq; [cbn [x_core]; pr|ptext|pparts].
  - intros m e o H1 H2 (O1 & O2). pose proof (Pe_in NO e H1 O1) as E1.
    pose proof (prints_cats (trop_enc sf) (trop_text sf) trop_parts o (Forall_ok Pt _ _ o (fun x A B => A B) H2 O2)) as HC. eapply prints_eq; [cbn [x_core]; pr|ptext|pparts].
  - intros m s o e H HO. pose proof (Pe_in NO e H HO) as HE. eapply prints_eq; [cbn [x_core]; pr|ptext|pparts].
  - intros m l om o r H1 H2 (O1 & O2). pose proof (Pe_in NO l H1 O1) as E1. pose proof (Pe_in NO r H2 O2) as E2. eapply prints_eq; [cbn [x_core]; pr|ptext|pparts].
  - intros m im k v c key val g cond H1 H2 H3 H4 (O1 & O2 & O3 & O4). pose proof (Pe_in BOTH c H1 O1) as E1.
    assert (EK : prints (match k with Some k => enc_did LEADING k >>> wr (lit ",") | None => wr [] end) (fun _ => match k with Some k => did_text LEADING k ++ [44] | None => [] end) []).
    { destruct k; [exact (prints_cat _ _ _ _ _ _ (prints_did _ _) (prints_wr _))|apply prints_wr]. }
    assert (EC : prints (match cond with Some c => cond_enc sf c | None => wr [] end) (fun q => match cond with Some c => cond_text sf q c | None => [] end) (opt_parts cond_parts cond)).
    { apply (prints_opt (cond_enc sf) (cond_text sf) cond_parts). destruct cond; [|exact I]. exact (H4 O4). }
    pose proof (Pe_in LEADING val H3 O3) as E3. destruct key as [ky|].
    + pose proof (Pe_in BOTH ky H2 O2) as E2. eapply prints_eq; [cbn [x_core]; pr|ptext|pparts].
    + eapply prints_eq; [cbn [x_core]; pr|ptext|pparts].
  - intros m e H HO. pose proof (Pe_in LEADING e H HO) as HE. eapply prints_eq; [cbn [cond_enc]; pr|ptext|pparts].
  - intros k a v t H1 H2 (O1 & O2). pose proof (H1 O1) as E1. pose proof (Pe_in LEADING v H2 O2) as E2. destruct a, t; (eapply prints_eq; [cbn [item_enc]; pr|ptext|pparts]).
  - intros i _. apply prints_did.
  - intros e H HO. exact (Pe_in TRAILING e H HO).
  - intros m o H HO. apply prints_deco. exact (H HO).
  - intros m _. eapply prints_eq; [cbn [op_enc]; pr|ptext|pparts].
  - intros m _. eapply prints_eq; [cbn [op_enc]; pr|ptext|pparts].
  - intros i _. eapply prints_eq; [cbn [op_enc]; pr|ptext|pparts].
  - intros e H HO. pose proof (Pe_in NO e H HO) as HE. eapply prints_eq; [cbn [op_enc]; pr|ptext|pparts].
  - intros m n _. eapply prints_eq; [cbn [op_enc]; pr|ptext|pparts].
  - intros es sp H HO. exact (prints_cats (elem_enc sf) (elem_text sf) elem_parts es (Forall_ok Pel _ _ es (fun x A B => A B) H HO)).
  - intros sp s _. split; [reflexivity|]. split; [reflexivity|]. intros HL c q'. exists c. apply Forall_inv in HL. unfold unescaped in HL. cbn [elem_enc]. unfold elem_text, literal_text. destruct c, q'; congruence.
  - intros sp e s H HO. pose proof (Pe_in BOTH e H HO) as HE. eapply prints_eq; [cbn [elem_enc]; pr|ptext|pparts].
  - intros sp p c t s el ep et es H1 H2 H3 (O1 & O2 & O3). pose proof (Pe_in TRAILING c H1 O1) as E1. pose proof (H2 O2) as E2.
    assert (E3 : prints (match el with Some e => else_enc sf e | None => wr [] end) (fun q => match el with Some e => else_text sf q e | None => [] end) (opt_parts else_parts el)).
    { apply (prints_opt (else_enc sf) (else_text sf) else_parts). destruct el; [|exact I]. exact (H3 O3). }
    eapply prints_eq; [cbn [elem_enc]; pr|ptext|pparts].
  - intros sp p k v c t s ep et es H1 H2 (O1 & O2). pose proof (Pe_in BOTH c H1 O1) as E1. pose proof (H2 O2) as E2.
    assert (EK : prints (match k with Some k => enc_did LEADING k >>> wr (lit ",") | None => wr [] end) (fun _ => match k with Some k => did_text LEADING k ++ [44] | None => [] end) []).
    { destruct k; [exact (prints_cat _ _ _ _ _ _ (prints_did _ _) (prints_wr _))|apply prints_wr]. }
    eapply prints_eq; [cbn [elem_enc]; pr|ptext|pparts].
  - intros p tr t s H O2. pose proof (H O2) as E2. eapply prints_eq; [cbn [else_enc]; pr|ptext|pparts].
Qed.
Lemma even_expr e : even e -> x_core sf e false = (text false e, false).
Proof. intros H. destruct prints_all as (HP & _). apply (HP e H). Qed.
Lemma even_template es sp : lall even_elem es -> tpl_enc sf (XTempl es sp) false = (flat_map (elem_text sf false) es, false).
Proof. intros H. destruct prints_all as (_ & _ & _ & _ & _ & _ & HP & _). apply (HP (XTempl es sp) H). Qed.

(** The trees which are read back are such trees. *)
Lemma lall_imp {A} (P Q : A -> Prop) (l : list A) : Forall (fun x => P x -> Q x) l -> lall P l -> lall Q l.
Proof. induction 1 as [|x l H _ IH]; [auto|]. intros [H1 H2]. split; auto. Qed.
Lemma ok_even : (forall e q h fl, ok q h fl e -> even e) /\ (forall c q, cond_ok u b pf sf q c -> even_cond c) /\ (forall i q, item_ok u b pf sf q i -> even_item i) /\
  (forall k q, key_ok u b pf sf q k -> even_key k) /\ (forall o q m, trop_ok u b pf sf q m o -> even_trop o) /\ (forall o q, op_ok u b pf sf q o -> even_op o) /\
  (forall t q, lall (elem_ok u b pf sf q) (match t with XTempl es _ => es end) -> even_tpl t) /\ (forall e q, elem_ok u b pf sf q e -> even_elem e) /\ (forall e q, else_ok u b pf sf q e -> even_else e).
Proof.
  assert (HL : forall (A : Type) (P Q R : A -> Prop) l, Forall R l -> (forall x, R x -> P x -> Q x) -> lall P l -> lall Q l).
  { intros A P Q R l HR HI. apply lall_imp. revert HR. apply Forall_impl. auto. }
  assert (HT : forall t q, tpl_ok u b pf sf q t -> lall (elem_ok u b pf sf q) (match t with XTempl es _ => es end)) by (intros [es sp] q H; apply H).
  apply xexpr_all; try (intros; exact I).
  - intros m l c t H q h fl (H1 & _). refine (HL _ _ _ _ l H _ H1). intros x Hx [_ Ho]. exact (Hx _ _ _ Ho).
  - intros m l t H q h fl (H1 & _). refine (HL _ _ _ _ l H _ H1). intros x Hx Ho. exact (Hx _ Ho).
  - intros m l H q h fl (H1 & _ & _ & _ & HD). split; [|exact HD]. refine (HL _ _ _ _ l H _ H1). intros x Hx Ho. exact (Hx _ Ho).
  - intros m d [es sp] i r H q h fl (_ & -> & _ & _ & _ & HO & _). split; [exact (H q HO)|reflexivity].
  - intros m e H q h fl (_ & HO). exact (H _ _ _ HO).
  - intros m c t f H1 H2 H3 q h fl (_ & O1 & O2 & O3 & _). split; [exact (H1 _ _ _ O1)|]. split; [exact (H2 _ _ _ O2)|exact (H3 _ _ _ O3)].
  - intros m ns n am l ex co t H q h fl (_ & _ & _ & H1 & _). refine (HL _ _ _ _ l H _ H1). intros x Hx [_ Ho]. exact (Hx _ _ _ Ho).
  - intros m e o H1 H2 q h fl (_ & _ & O1 & _ & _ & _ & O2). split; [exact (H1 _ _ _ O1)|]. refine (HL _ _ _ _ o H2 _ O2). intros x Hx Ho. exact (Hx _ _ Ho).
  - intros m s o e H q h fl (_ & HO & _). exact (H _ _ _ HO).
  - intros m l om o r H1 H2 q h fl (_ & _ & O1 & O2 & _). split; [exact (H1 _ _ _ O1)|exact (H2 _ _ _ O2)].
  - intros m im k v c key val g cond H1 H2 H3 H4 q h fl (_ & _ & _ & _ & (_ & O1) & O2 & O3). split; [exact (H1 _ _ _ O1)|].
    assert (O4 : oallp even_cond cond) by (destruct cond; [exact (H4 q (proj1 O3))|exact I]).
    destruct key as [ky|]; [destruct O2 as ((_ & O5) & (_ & O6)); split; [exact (H2 _ _ _ O5)|]|destruct O2 as (_ & (_ & O6)); split; [exact I|]]; (split; [exact (H3 _ _ _ O6)|exact O4]).
  - intros m e H q (_ & _ & (_ & HO)). exact (H _ _ _ HO).
  - intros k a v t H1 H2 q (O1 & O2 & _). split; [exact (H1 q O1)|exact (H2 _ _ _ O2)].
  - intros e H q (_ & _ & HO & _). exact (H _ _ _ HO).
  - intros m o H q h (_ & _ & HO). exact (H q HO).
  - intros e H q (_ & HO). exact (H _ _ _ HO).
  - intros es sp H q HO. refine (HL _ _ _ _ es H _ HO). intros x Hx Ho. exact (Hx _ Ho).
  - intros sp e s H q (_ & HO). exact (H _ _ _ HO).
  - intros sp p c t s el ep et es H1 H2 H3 q (_ & (_ & O1) & O2 & O3 & _). split; [exact (H1 _ _ _ O1)|]. split; [exact (H2 q (HT _ _ O2))|]. destruct el; [exact (H3 q O3)|exact I].
  - intros sp p k v c t s ep et es H1 H2 q (_ & _ & (_ & O1) & O2 & _). split; [exact (H1 _ _ _ O1)|exact (H2 q (HT _ _ O2))].
  - intros p tr t s H q (_ & _ & O2). exact (H q (HT _ _ O2)).
Qed.
Lemma print_expr e h fl c : ok false h fl e -> c = false -> x_core sf e c = (text false e, false).
Proof. intros H ->. apply even_expr. exact (proj1 ok_even e _ _ _ H). Qed.
Lemma elems_even es q : lall (elem_ok u b pf sf q) es -> lall even_elem es.
Proof. destruct ok_even as (_ & _ & _ & _ & _ & _ & HP & _). exact (HP (XTempl es None) q). Qed.
Lemma print_tpl es sp : lall (elem_ok u b pf sf false) es -> tpl_enc sf (XTempl es sp) false = (flat_map (elem_text sf false) es, false).
Proof. intros H. exact (even_template es sp (elems_even es false H)). Qed.
End Print.

(** The conditions do not depend on the formatting. *)
Definition bare_part (p : part) : part := match p with PLit s => PLit s | PQuoted es => PQuoted (map bare_elem es) end.
Definition PB {A} (f : A -> list part) (g : A -> A) (x : A) : Prop := f (g x) = map bare_part (f x).
Lemma PB_list {A} (f : A -> list part) g l : Forall (PB f g) l -> flat_map f (map g l) = map bare_part (flat_map f l).
Proof. induction 1 as [|x l H _ IH]; [reflexivity|]. cbn [map flat_map]. now rewrite H, IH, map_app. Qed.
Lemma PB_opt {A} (f : A -> list part) g o : oall (PB f g) o -> opt_parts f (option_map g o) = map bare_part (opt_parts f o).
Proof. destruct o; [auto|reflexivity]. Qed.
Ltac pb := intros; red; cbn [bare bare_cond bare_item bare_key bare_trop bare_op bare_tpl bare_elem bare_else parts cond_parts item_parts key_parts trop_parts op_parts tpl_parts elem_parts else_parts];
  fold bare bare_cond bare_item bare_key bare_trop bare_op bare_tpl bare_elem bare_else;
  repeat match goal with H : Forall _ _ |- _ => apply PB_list in H | H : oall _ _ |- _ => apply PB_opt in H | H : PB _ _ _ |- _ => red in H end;
  rewrite ?map_app; congruence.
Lemma parts_bare : (forall e, PB parts bare e) /\ (forall e, PB cond_parts bare_cond e) /\ (forall e, PB item_parts bare_item e) /\ (forall e, PB key_parts bare_key e) /\
  (forall e, PB trop_parts bare_trop e) /\ (forall e, PB op_parts bare_op e) /\ (forall e, PB tpl_parts bare_tpl e) /\ (forall e, PB elem_parts bare_elem e) /\ (forall e, PB else_parts bare_else e).
Proof. apply xexpr_all; try (intros; reflexivity); pb. Qed.
Lemma quoteless_bare l : quoteless (map bare_part l) <-> quoteless l.
Proof. unfold quoteless. rewrite Forall_map. split; apply Forall_impl; intros []; auto. Qed.
Lemma literals_plain_bare l : literals_plain (map bare_part l) <-> literals_plain l.
Proof. unfold literals_plain. rewrite Forall_map. split; apply Forall_impl; intros []; auto. Qed.
Definition EB {A} (f : A -> Prop) (g : A -> A) (x : A) : Prop := f (g x) <-> f x.
Lemma EB_list {A} (f : A -> Prop) g l : Forall (EB f g) l -> (lall f (map g l) <-> lall f l).
Proof. induction 1 as [|x l H _ IH]; [reflexivity|]. cbn [map lall]. red in H. tauto. Qed.
Lemma EB_opt {A} (f : A -> Prop) g o : oall (EB f g) o -> (oallp f (option_map g o) <-> oallp f o).
Proof. destruct o; [auto|reflexivity]. Qed.
Ltac eb := intros; red; cbn [bare bare_cond bare_item bare_key bare_trop bare_op bare_tpl bare_elem bare_else even even_cond even_item even_key even_trop even_op even_tpl even_elem even_else];
  fold bare bare_cond bare_item bare_key bare_trop bare_op bare_tpl bare_elem bare_else;
  repeat match goal with H : Forall _ _ |- _ => apply EB_list in H | H : oall _ _ |- _ => apply EB_opt in H | H : EB _ _ _ |- _ => red in H end;
  tauto.
Lemma even_bare : (forall e, EB even bare e) /\ (forall e, EB even_cond bare_cond e) /\ (forall e, EB even_item bare_item e) /\ (forall e, EB even_key bare_key e) /\
  (forall e, EB even_trop bare_trop e) /\ (forall e, EB even_op bare_op e) /\ (forall e, EB even_tpl bare_tpl e) /\ (forall e, EB even_elem bare_elem e) /\ (forall e, EB even_else bare_else e).
Proof.
  apply xexpr_all; try (intros; reflexivity); try eb.
  intros m l H. red. cbn [bare even]. fold bare_elem even_elem. rewrite (EB_list _ _ _ H).
  destruct parts_bare as (_ & _ & _ & _ & _ & _ & _ & HP & _). rewrite (PB_list elem_parts bare_elem l) by (apply Forall_forall; intros x _; apply HP).
  now rewrite quoteless_bare, literals_plain_bare.
Qed.
Lemma even_same e e' : bare e' = bare e -> even e -> even e'.
Proof. intros E H. apply (proj1 even_bare e'). rewrite E. now apply (proj1 even_bare e). Qed.
Lemma elems_same es es' : map bare_elem es' = map bare_elem es -> lall even_elem es -> lall even_elem es'.
Proof.
  intros E H. destruct even_bare as (_ & _ & _ & _ & _ & _ & HP & _). apply (HP (XTempl es' None)). cbn [bare_tpl]. fold bare_elem. rewrite E.
  now apply (HP (XTempl es None)).
Qed.

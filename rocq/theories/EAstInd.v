(** * Induction over the syntax tree of hcl-edit *)
From Coq Require Import NArith List.
From Verif Require Import Str NumberModel PrimModel EAst.
Import ListNotations.

Definition oall {A} (P : A -> Prop) (o : option A) : Prop := match o with Some x => P x | None => True end.

Section Ind.
  Context (Pe : xexpr -> Prop) (Pc : xcond -> Prop) (Pi : xitem -> Prop) (Pk : xkey -> Prop) (Pt : xtrop -> Prop)
    (Po : xop -> Prop) (Ptp : xtpl -> Prop) (Pel : xelem -> Prop) (Pls : xelse -> Prop).
  Context
    (HNull : forall m, Pe (XNull m)) (HBool : forall m b, Pe (XBool m b)) (HNum : forall m n r, Pe (XNum m n r))
    (HStr : forall m s, Pe (XStr m s)) (HArr : forall m l c t, Forall Pe l -> Pe (XArr m l c t))
    (HObj : forall m l t, Forall Pi l -> Pe (XObj m l t)) (HTpl : forall m l, Forall Pel l -> Pe (XTpl m l))
    (HHer : forall m d t i r, Ptp t -> Pe (XHeredoc m d t i r)) (HParen : forall m e, Pe e -> Pe (XParen m e))
    (HVar : forall m x, Pe (XVar m x)) (HCond : forall m a b c, Pe a -> Pe b -> Pe c -> Pe (XCond m a b c))
    (HCall : forall m ns n am l e c t, Forall Pe l -> Pe (XCall m ns n am l e c t))
    (HTrav : forall m e l, Pe e -> Forall Pt l -> Pe (XTrav m e l))
    (HUn : forall m s o e, Pe e -> Pe (XUnary m s o e))
    (HBin : forall m l om o r, Pe l -> Pe r -> Pe (XBinary m l om o r))
    (HFor : forall m im kv vv c k v g co, Pe c -> oall Pe k -> Pe v -> oall Pc co -> Pe (XFor m im kv vv c k v g co))
    (HForCond : forall m e, Pe e -> Pc (XForCond m e))
    (HItem : forall k a v t, Pk k -> Pe v -> Pi (XItem k a v t))
    (HKId : forall i, Pk (XKId i)) (HKExpr : forall e, Pe e -> Pk (XKExpr e))
    (HTrop : forall m o, Po o -> Pt (XTrop m o))
    (HAS : forall m, Po (XAttrSplat m)) (HFS : forall m, Po (XFullSplat m)) (HGA : forall i, Po (XGetAttr i))
    (HIdx : forall e, Pe e -> Po (XIndex e)) (HLeg : forall m n, Po (XLegacy m n))
    (HTempl : forall es sp, Forall Pel es -> Ptp (XTempl es sp))
    (HLit : forall sp s, Pel (XLit sp s)) (HInt : forall sp e s, Pe e -> Pel (XInterp sp e s))
    (HIf : forall sp p c t s el ep et es, Pe c -> Ptp t -> oall Pls el -> Pel (XIfD sp p c t s el ep et es))
    (HForD : forall sp p k v c t s ep et es, Pe c -> Ptp t -> Pel (XForD sp p k v c t s ep et es))
    (HElse : forall p tr t s, Ptp t -> Pls (XElse p tr t s)).

  Fixpoint xe_ind (e : xexpr) : Pe e :=
    match e with
    | XNull m => HNull m
    | XBool m b => HBool m b
    | XNum m n r => HNum m n r
    | XStr m s => HStr m s
    | XArr m l c t => HArr m l c t ((fix go l : Forall Pe l :=
        match l with [] => Forall_nil _ | x :: l => Forall_cons _ (xe_ind x) (go l) end) l)
    | XObj m l t => HObj m l t ((fix go l : Forall Pi l :=
        match l with [] => Forall_nil _ | x :: l => Forall_cons _ (xi_ind x) (go l) end) l)
    | XTpl m l => HTpl m l ((fix go l : Forall Pel l :=
        match l with [] => Forall_nil _ | x :: l => Forall_cons _ (xel_ind x) (go l) end) l)
    | XHeredoc m d t i r => HHer m d t i r (xtp_ind t)
    | XParen m e => HParen m e (xe_ind e)
    | XVar m x => HVar m x
    | XCond m a b c => HCond m a b c (xe_ind a) (xe_ind b) (xe_ind c)
    | XCall m ns n am l e c t => HCall m ns n am l e c t ((fix go l : Forall Pe l :=
        match l with [] => Forall_nil _ | x :: l => Forall_cons _ (xe_ind x) (go l) end) l)
    | XTrav m e l => HTrav m e l (xe_ind e) ((fix go l : Forall Pt l :=
        match l with [] => Forall_nil _ | x :: l => Forall_cons _ (xt_ind x) (go l) end) l)
    | XUnary m s o e => HUn m s o e (xe_ind e)
    | XBinary m l om o r => HBin m l om o r (xe_ind l) (xe_ind r)
    | XFor m im kv vv c k v g co => HFor m im kv vv c k v g co (xe_ind c)
        (match k return oall Pe k with Some x => xe_ind x | None => I end) (xe_ind v)
        (match co return oall Pc co with Some x => xc_ind x | None => I end)
    end
  with xc_ind (c : xcond) : Pc c := match c with XForCond m e => HForCond m e (xe_ind e) end
  with xi_ind (i : xitem) : Pi i := match i with XItem k a v t => HItem k a v t (xk_ind k) (xe_ind v) end
  with xk_ind (k : xkey) : Pk k := match k with XKId i => HKId i | XKExpr e => HKExpr e (xe_ind e) end
  with xt_ind (t : xtrop) : Pt t := match t with XTrop m o => HTrop m o (xo_ind o) end
  with xo_ind (o : xop) : Po o :=
    match o with
    | XAttrSplat m => HAS m | XFullSplat m => HFS m | XGetAttr i => HGA i | XIndex e => HIdx e (xe_ind e)
    | XLegacy m n => HLeg m n
    end
  with xtp_ind (t : xtpl) : Ptp t :=
    match t with
    | XTempl es sp => HTempl es sp ((fix go l : Forall Pel l :=
        match l with [] => Forall_nil _ | x :: l => Forall_cons _ (xel_ind x) (go l) end) es)
    end
  with xel_ind (e : xelem) : Pel e :=
    match e with
    | XLit sp s => HLit sp s
    | XInterp sp e s => HInt sp e s (xe_ind e)
    | XIfD sp p c t s el ep et es => HIf sp p c t s el ep et es (xe_ind c) (xtp_ind t)
        (match el return oall Pls el with Some x => xls_ind x | None => I end)
    | XForD sp p k v c t s ep et es => HForD sp p k v c t s ep et es (xe_ind c) (xtp_ind t)
    end
  with xls_ind (e : xelse) : Pls e := match e with XElse p tr t s => HElse p tr t s (xtp_ind t) end.

  Lemma xexpr_all : (forall e, Pe e) /\ (forall c, Pc c) /\ (forall i, Pi i) /\ (forall k, Pk k) /\ (forall t, Pt t) /\
    (forall o, Po o) /\ (forall t, Ptp t) /\ (forall e, Pel e) /\ (forall e, Pls e).
  Proof. repeat split; [apply xe_ind|apply xc_ind|apply xi_ind|apply xk_ind|apply xt_ind|apply xo_ind|apply xtp_ind|apply xel_ind|apply xls_ind]. Qed.
End Ind.

Section BInd.
  Context (Ps : xstruct -> Prop) (Pb : xbody -> Prop).
  Context (HAttr : forall m k v, Ps (XAttr m k v)) (HBlock : forall m i l b, Pb b -> Ps (XBlock m i l b))
    (HBody : forall m l o n, Forall Ps l -> Pb (XBody m l o n)).
  Fixpoint xs_ind (s : xstruct) : Ps s :=
    match s with XAttr m k v => HAttr m k v | XBlock m i l b => HBlock m i l b (xb_ind b) end
  with xb_ind (b : xbody) : Pb b :=
    match b with
    | XBody m l o n => HBody m l o n ((fix go l : Forall Ps l :=
        match l with [] => Forall_nil _ | x :: l => Forall_cons _ (xs_ind x) (go l) end) l)
    end.
  Lemma xbody_all : (forall s, Ps s) /\ (forall b, Pb b).
  Proof. split; [apply xs_ind|apply xb_ind]. Qed.
End BInd.

(** ** [x_map] and [x_raws] *)
Section MapRaws.
  Context (f g : raw -> raw) (ops : bool).
  Notation h := (if ops then g else f).
  Lemma meta_raws_map k m : meta_raws (meta_map k m) = map k (meta_raws m).
  Proof. destruct m as [[[p|] [s|]] sp]; reflexivity. Qed.
  Lemma did_raws_map k i : did_raws (did_map k i) = map k (did_raws i).
  Proof. apply meta_raws_map. Qed.
  Lemma opt_did_map k i : opt_raws did_raws (option_map (did_map k) i) = map k (opt_raws did_raws i).
  Proof. destruct i; [apply did_raws_map|reflexivity]. Qed.
  Lemma dids_map k l : flat_map did_raws (map (did_map k) l) = map k (flat_map did_raws l).
  Proof. induction l as [|i l IH]; [reflexivity|]. cbn [map flat_map]. now rewrite map_app, did_raws_map, IH. Qed.
  Lemma vis_map l : vis ops (map f l) = map h (vis ops l).
  Proof. unfold vis. now destruct ops. Qed.
  Lemma hid_map l : hid ops (map g l) = map h (hid ops l).
  Proof. unfold hid. now destruct ops. Qed.
  Lemma flat_raws_map {A} (r : A -> list raw) (mp : A -> A) l :
    Forall (fun x => r (mp x) = map h (r x)) l -> flat_map r (map mp l) = map h (flat_map r l).
  Proof. induction 1 as [|x l H _ IH]; [reflexivity|]. cbn [map flat_map]. now rewrite map_app, H, IH. Qed.
  Lemma opt_raws_map {A} (r : A -> list raw) (mp : A -> A) o :
    oall (fun x => r (mp x) = map h (r x)) o -> opt_raws r (option_map mp o) = map h (opt_raws r o).
  Proof. destruct o; cbn; auto. Qed.
  Ltac xf := fold (x_raws ops) (cond_raws ops) (item_raws ops) (key_raws ops) (trop_raws ops) (op_raws ops) (tpl_raws ops)
    (elem_raws ops) (else_raws ops); fold (x_map f g) (cond_map f g) (item_map f g) (key_map f g) (trop_map f g)
    (op_map f g) (tpl_map f g) (elem_map f g) (else_map f g).
  Ltac go := intros; cbn; xf; rewrite ?map_app, <- ?vis_map, <- ?hid_map; cbn [map]; rewrite ?map_app;
    repeat match goal with H : Forall _ _ |- _ => apply flat_raws_map in H; rewrite H; clear H
                       | H : oall _ _ |- _ => apply opt_raws_map in H; rewrite H; clear H end;
    rewrite ?meta_raws_map, ?did_raws_map, ?opt_did_map, ?dids_map; cbn [map]; congruence.
  Lemma raws_map :
    (forall e, x_raws ops (x_map f g e) = map h (x_raws ops e)) /\
    (forall e, cond_raws ops (cond_map f g e) = map h (cond_raws ops e)) /\
    (forall e, item_raws ops (item_map f g e) = map h (item_raws ops e)) /\
    (forall e, key_raws ops (key_map f g e) = map h (key_raws ops e)) /\
    (forall e, trop_raws ops (trop_map f g e) = map h (trop_raws ops e)) /\
    (forall e, op_raws ops (op_map f g e) = map h (op_raws ops e)) /\
    (forall e, tpl_raws ops (tpl_map f g e) = map h (tpl_raws ops e)) /\
    (forall e, elem_raws ops (elem_map f g e) = map h (elem_raws ops e)) /\
    (forall e, else_raws ops (else_map f g e) = map h (else_raws ops e)).
  Proof.
    apply xexpr_all; try solve [go].
  Qed.
  Lemma labels_map l : flat_map (label_raws ops) (map (label_map f) l) = map h (flat_map (label_raws ops) l).
  Proof.
    apply flat_raws_map. apply Forall_forall. intros x _. destruct x as [i|m s]; cbn [label_map label_raws];
    rewrite <- vis_map; f_equal; [apply did_raws_map|apply meta_raws_map].
  Qed.
  Lemma body_raws_map :
    (forall s, struct_raws ops (struct_map f g s) = map h (struct_raws ops s)) /\
    (forall b, body_raws ops (body_map f g b) = map h (body_raws ops b)).
  Proof.
    apply xbody_all.
    - intros m k v. cbn. rewrite map_app, <- vis_map, map_app, meta_raws_map, did_raws_map. f_equal. apply raws_map.
    - intros m i l b H. cbn. fold (body_raws ops) (body_map f g). rewrite !map_app, <- vis_map, map_app, meta_raws_map, did_raws_map.
      f_equal. f_equal; [apply labels_map|exact H].
    - intros m l o n H. cbn. fold (struct_raws ops) (struct_map f g). apply flat_raws_map in H. rewrite H, map_app, <- vis_map, meta_raws_map. reflexivity.
  Qed.
End MapRaws.

(** Mapping twice. *)
Section MapMap.
  Context (f g f' g' : raw -> raw).
  Notation ff := (fun r => f' (f r)).
  Notation gg := (fun r => g' (g r)).
  Lemma meta_map_map k k' m : meta_map k' (meta_map k m) = meta_map (fun r => k' (k r)) m.
  Proof. destruct m as [[[p|] [s|]] sp]; reflexivity. Qed.
  Lemma did_map_map k k' i : did_map k' (did_map k i) = did_map (fun r => k' (k r)) i.
  Proof. unfold did_map. cbn. now rewrite meta_map_map. Qed.
  Lemma odid_map_map k k' i : option_map (did_map k') (option_map (did_map k) i) = option_map (did_map (fun r => k' (k r))) i.
  Proof. destruct i; cbn; now rewrite ?did_map_map. Qed.
  Lemma dids_map_map k k' l : map (did_map k') (map (did_map k) l) = map (did_map (fun r => k' (k r))) l.
  Proof. rewrite map_map. apply map_ext. intros. apply did_map_map. Qed.
  Lemma list_map_map {A} (h1 h2 h3 : A -> A) l : Forall (fun x => h2 (h1 x) = h3 x) l -> map h2 (map h1 l) = map h3 l.
  Proof. induction 1 as [|x l H _ IH]; cbn; congruence. Qed.
  Lemma oall_map_map {A} (h1 h2 h3 : A -> A) o : oall (fun x => h2 (h1 x) = h3 x) o -> option_map h2 (option_map h1 o) = option_map h3 o.
  Proof. destruct o; cbn; congruence. Qed.
  Ltac xf := fold (x_map f g) (cond_map f g) (item_map f g) (key_map f g) (trop_map f g) (op_map f g) (tpl_map f g)
    (elem_map f g) (else_map f g);
    fold (x_map f' g') (cond_map f' g') (item_map f' g') (key_map f' g') (trop_map f' g') (op_map f' g') (tpl_map f' g')
    (elem_map f' g') (else_map f' g');
    fold (x_map ff gg) (cond_map ff gg) (item_map ff gg) (key_map ff gg) (trop_map ff gg) (op_map ff gg) (tpl_map ff gg)
    (elem_map ff gg) (else_map ff gg).
  Ltac go := intros; cbn -[meta_map did_map]; xf;
    repeat match goal with H : Forall _ _ |- _ => apply list_map_map in H; rewrite H; clear H
                       | H : oall _ _ |- _ => apply oall_map_map in H; rewrite H; clear H end;
    rewrite ?meta_map_map, ?did_map_map, ?odid_map_map, ?dids_map_map; congruence.
  Lemma x_map_map :
    (forall e, x_map f' g' (x_map f g e) = x_map ff gg e) /\
    (forall e, cond_map f' g' (cond_map f g e) = cond_map ff gg e) /\
    (forall e, item_map f' g' (item_map f g e) = item_map ff gg e) /\
    (forall e, key_map f' g' (key_map f g e) = key_map ff gg e) /\
    (forall e, trop_map f' g' (trop_map f g e) = trop_map ff gg e) /\
    (forall e, op_map f' g' (op_map f g e) = op_map ff gg e) /\
    (forall e, tpl_map f' g' (tpl_map f g e) = tpl_map ff gg e) /\
    (forall e, elem_map f' g' (elem_map f g e) = elem_map ff gg e) /\
    (forall e, else_map f' g' (else_map f g e) = else_map ff gg e).
  Proof. apply xexpr_all; go. Qed.
  Lemma label_map_map k k' l : label_map k' (label_map k l) = label_map (fun r => k' (k r)) l.
  Proof. destruct l; cbn -[meta_map did_map]; now rewrite ?did_map_map, ?meta_map_map. Qed.
  Lemma body_map_map :
    (forall s, struct_map f' g' (struct_map f g s) = struct_map ff gg s) /\
    (forall b, body_map f' g' (body_map f g b) = body_map ff gg b).
  Proof.
    destruct x_map_map as [Hx _]. apply xbody_all; intros; cbn -[meta_map did_map label_map x_map];
    fold (body_map f g) (body_map f' g') (body_map ff gg) (struct_map f g) (struct_map f' g') (struct_map ff gg).
    - now rewrite meta_map_map, did_map_map, Hx.
    - rewrite meta_map_map, did_map_map, H. f_equal. rewrite map_map. apply map_ext. intros. apply label_map_map.
    - apply list_map_map in H. now rewrite meta_map_map, H.
  Qed.
End MapMap.

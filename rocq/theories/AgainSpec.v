(** * C51: which parsed documents are read back from what they are printed as

    The trees for which C46 shows that they are read back from their text are described there by
    conditions on their layout ([ok], [body_ok]): which white space and comments are where, which
    places allow line breaks, which names and literals are possible.  The trees which the parser returns
    meet nearly all of them.  [regular] lists what remains to be asked of a parsed tree.  None of it
    concerns line breaks, the form of white space and comments, names, numbers, or keywords. *)
From Coq Require Import NArith ZArith Bool String List.
From Verif Require Import Res Str Dec NumberModel PrimModel PrimProofs DedentModel EAst EncModel EqSpec PrattSpec ParseBase ParseModel.
From Verif Require Import BackSpec BackBodySpec.
Import ListNotations.
Open Scope N_scope.

(** The white space after the [...] of a [for] expression without condition becomes the text behind its
    closing brace, which matters where nothing may be there. *)
Definition shut (e : xexpr) : Prop :=
  match e with XFor m _ _ _ _ _ _ true None => suf NO m = [] | _ => True end.

Section Regular.
  Context (u : unicode) (sf : f64 -> str).
  (** Items of an object: an item which replaced an earlier one with the same key may have lost what
      separates it from the next; and an item with an array, a call or a [for] expression as its value,
      ended by a line break, goes on if the next key starts like an operator or an operand. *)
  Fixpoint joined (q : bool) (l : list xitem) : Prop :=
    match l with
    | XItem _ _ v tm :: (XItem k _ _ _ :: _) as l' =>
        tm <> TNone /\
        (tm = TNewline -> wide v = true -> soft (match k with XKId i => i_name i | XKExpr e => x_text sf q e end) = true) /\
        joined q l'
    | _ => True
    end.

  Fixpoint regular (q : bool) (e : xexpr) : Prop :=
    match e with
    | XNull _ | XBool _ _ | XNum _ _ _ => True
    | XStr _ s => escape_ok s = true
    | XVar _ x => x <> lit "for"
    | XArr _ l c _ => lall (regular q) l /\ (l = [] -> c = false)
    | XObj _ l _ => lall (item_regular q) l /\ distinct_keys l /\ joined q l
    | XTpl _ es =>
        lall (elem_regular true) es /\ apart es = true /\ lits (fun _ _ => True) 34 es /\ forallb is_lit es = false /\
        (quoteless (flat_map elem_parts es) \/ literals_plain (flat_map elem_parts es))
    | XHeredoc _ d t i tr =>
        match t with
        | XTempl es _ =>
            q = false /\ i = None /\ lall (elem_regular q) es /\ apart es = true /\
            exists es0 sp s le, es = es0 ++ [XLit sp (s ++ le)] /\ (le = [10] /\ last s 0 <> 13 \/ le = [13; 10]) /\
              lits (fun s k => calm u d (escape_markers s) k = true) (hd 0 le) (es0 ++ match s with [] => [] | _ => [XLit sp s] end)
        end
    | XParen _ e => regular q e
    | XCond _ c t f => regular q c /\ regular q t /\ regular q f /\ shut f
    | XCall _ ns n _ args _ _ _ =>
        match ns ++ [n] with i :: _ => i_name i <> lit "for" | [] => True end /\ lall (regular q) args
    | XTrav _ e ops => regular q e /\ is_base e = true /\ is_num e = false /\ lall (trop_regular q) ops
    | XUnary _ _ o e => regular q e /\ shut e /\ (o = Neg -> digit_first (x_text sf q e) = false)
    | XBinary _ l om o r =>
        regular q l /\ regular q r /\ shut l /\ shut r /\ (o = OpMinus -> pre BOTH om <> []) /\
        let t := Node (operands l) o (operands r) in grouped (fun o => o) t /\ ~ chained (map fst (tail t))
    | XFor _ _ _ _ coll key val g cond =>
        regular q coll /\ oallp (regular q) key /\ regular q val /\ oallp (cond_regular q) cond /\
        match cond with
        | Some (XForCond m _) => g = false -> suf LEADING (x_meta val) ++ pre LEADING m <> []
        | None => True
        end
    end
  with cond_regular (q : bool) (c : xcond) : Prop := match c with XForCond _ e => regular q e end
  with item_regular (q : bool) (i : xitem) : Prop := match i with XItem k _ v _ => key_regular q k /\ regular q v end
  with key_regular (q : bool) (k : xkey) : Prop :=
    match k with XKId i => i_name i <> lit "for" | XKExpr e => plain e /\ regular q e end
  with trop_regular (q : bool) (o : xtrop) : Prop := match o with XTrop _ o => op_regular q o end
  with op_regular (q : bool) (o : xop) : Prop := match o with XIndex e => regular q e | _ => True end
  with tpl_regular (q : bool) (t : xtpl) : Prop :=
    match t with
    | XTempl es _ => lall (elem_regular q) es /\ apart es = true /\ lits (fun s _ => q = true -> unescaped s) 37 es
    end
  with elem_regular (q : bool) (e : xelem) : Prop :=
    match e with
    | XLit _ _ => True
    | XInterp _ e _ => regular q e
    | XIfD _ _ c t _ el _ _ _ => regular q c /\ tpl_regular q t /\ oallp (else_regular q) el
    | XForD _ _ _ _ coll t _ _ _ _ => regular q coll /\ tpl_regular q t
    end
  with else_regular (q : bool) (e : xelse) : Prop := match e with XElse _ _ t _ => tpl_regular q t end.

  Definition label_regular (l : xlabel) : Prop :=
    match l with XLId _ => True | XLStr _ s => escape_ok s = true end.
  Fixpoint struct_regular (s : xstruct) : Prop :=
    match s with
    | XAttr _ _ v => regular false v /\ shut v
    | XBlock _ i ls b => lall label_regular ls /\ spaced (suf TRAILING (i_meta i)) ls /\ body_regular b
    end
  with body_regular (b : xbody) : Prop := match b with XBody _ l _ _ => lall struct_regular l end.
End Regular.

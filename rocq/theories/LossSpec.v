(** * When printing a parsed text gives the text back

    The parser returns a tree whose nodes carry the byte ranges of their texts, and whose decor (the
    trivia around nodes) is text, except that of operators, which stays a byte range (see C12).  [faithful] checks, of
    a tree and the text [I] it was read from, that none of the following happened.  Each of them
    changes the printed text, and happens (see LossProps for a witness of each):

    - a quoted string, a block label or a template literal is not written the way the printer escapes
      it (the printer's only choice of escape sequences);
    - operands of an operator chain, or entries of an object, were dropped: then the operands of the
      binary operation do not reach to its end, or the value of an entry does not follow its key;
    - trivia (white space and comments) around a binary operator are neither nothing nor one space;
    - there are trivia before a traversal operator, or between ["..."] and [}] in a [for] expression;
    - a heredoc with [<<-] has no common indentation, or indenting its dedented template does not
      restore the text (see C13).

    (That an array without elements has no comma is checked too; the parser does not accept such a
    text.)

    The tree is visited in the order in which it is printed, because the printer's flag [escape] (is
    the text being printed part of a quoted template?) is cleared by every quoted template and not
    restored. *)
From Coq Require Import NArith Bool String List.
From Verif Require Import Res Str NumberModel PrimModel DedentModel EAst EncModel.
Import ListNotations.
Open Scope N_scope.

(** A check takes the flag [escape], and returns its verdict and the flag afterwards. *)
Definition chk := bool -> bool * bool.
Definition pass : chk := fun fl => (true, fl).
Definition must (b : bool) : chk := fun fl => (b, fl).
Definition both (f g : chk) : chk :=
  fun fl => let '(a, fl) := f fl in let '(b, fl) := g fl in (a && b, fl).
Infix "&>" := both (at level 60, right associativity).
Fixpoint every (l : list chk) : chk := match l with [] => pass | f :: l => f &> every l end.
Definition in_quotes (f : chk) : chk := fun _ => (fst (f true), false).
Definition opt_chk {A} (f : A -> chk) (o : option A) : chk := match o with Some x => f x | None => pass end.

Definition raw_len (r : option raw) : N := match r with Some (RText s) => blen s | _ => 0 end.
Definition key_meta (k : xkey) : meta := match k with XKId i => i_meta i | XKExpr e => x_meta e end.
Definition is_some {A} (o : option A) : bool := match o with Some _ => true | None => false end.

Section Faithful.
  Context (show_f64 : f64 -> str) (I : str).
  (** The text of a byte range. *)
  Definition text_of (sp : option bspan) : option str :=
    match sp with Some (a, b) => get_slice I a b | None => None end.
  Definition written (sp : option bspan) (s : str) : bool :=
    match text_of sp with Some t => seqb t s | None => false end.
  Definition text_is (sp : option bspan) (P : str -> bool) : bool :=
    match text_of sp with Some t => P t | None => false end.
  (** The trivia are nothing, or one space. *)
  Definition one_space (r : option raw) : bool :=
    match r with
    | Some REmpty => true
    | Some (RSpanned a b) => written (Some (a, b)) [32]
    | _ => false
    end.
  Definition spaced (m : meta) : bool := one_space (d_prefix (m_decor m)) && one_space (d_suffix (m_decor m)).
  Definition bare (m : meta) : bool := match d_prefix (m_decor m) with Some REmpty => true | _ => false end.
  (** The value starts where it must if it follows its key, the key's suffix, one character and the
      value's prefix. *)
  Definition follows (k v : meta) : bool :=
    match m_span k, m_span v with
    | Some (_, a), Some (b, _) => a + raw_len (d_suffix (m_decor k)) + 1 + raw_len (d_prefix (m_decor v)) =? b
    | _, _ => false
    end.
  Definition ends_at (m n : meta) : bool :=
    match m_span m, m_span n with Some (_, a), Some (_, b) => a =? b | _, _ => false end.
  (** The node ends four characters after the value [v] and its suffix. *)
  Definition closes (v m : meta) : bool :=
    match m_span v, m_span m with Some (_, a), Some (_, b) => a + raw_len (d_suffix (m_decor v)) + 4 =? b | _, _ => false end.

  Fixpoint faithful (e : xexpr) : chk :=
    match e with
    | XNull _ | XBool _ _ | XNum _ _ _ | XVar _ _ => pass
    | XStr m s => must (written (m_span m) (quoted s))
    | XArr _ l c _ => every (map faithful l) &> must (match l with [] => negb c | _ => true end)
    | XObj _ l _ => every (map item_faithful l)
    | XTpl _ t => in_quotes (every (map elem_faithful t))
    | XHeredoc m d t i r =>
        must (text_is (m_span m) (fun s => Bool.eqb (starts_with (lit "<<-") s) (is_some i))) &>
        match i with
        | Some n =>
            match t with
            | XTempl _ sp =>
                must (written sp (indent_by (fst (tpl_enc show_f64 t false)) n false))
            end
        | None => tpl_faithful t
        end
    | XParen _ e => faithful e
    | XCond _ c t f => faithful c &> faithful t &> faithful f
    | XCall _ _ _ _ l _ _ _ => every (map faithful l)
    | XTrav _ e o => faithful e &> every (map trop_faithful o)
    | XUnary _ _ _ e => faithful e
    | XBinary m l om o r => must (ends_at m (x_meta r)) &> faithful l &> must (spaced om) &> faithful r
    | XFor m _ _ _ c k v g co =>
        must (if g && negb (is_some co) then closes (x_meta v) m else true) &>
        faithful c &> opt_chk faithful k &> faithful v &> opt_chk cond_faithful co
    end
  with cond_faithful (c : xcond) : chk := match c with XForCond _ e => faithful e end
  with item_faithful (i : xitem) : chk :=
    match i with
    | XItem k _ v _ => must (follows (key_meta k) (x_meta v)) &> key_faithful k &> faithful v
    end
  with key_faithful (k : xkey) : chk := match k with XKId _ => pass | XKExpr e => faithful e end
  with trop_faithful (o : xtrop) : chk := match o with XTrop m o => must (bare m) &> op_faithful o end
  with op_faithful (o : xop) : chk := match o with XIndex e => faithful e | _ => pass end
  with tpl_faithful (t : xtpl) : chk := match t with XTempl es _ => every (map elem_faithful es) end
  with elem_faithful (e : xelem) : chk :=
    match e with
    | XLit sp s => fun fl => (written sp (if fl then encode_escaped (escape_markers s) else escape_markers s), fl)
    | XInterp _ e _ => faithful e
    | XIfD _ _ c t _ el _ _ _ => faithful c &> tpl_faithful t &> opt_chk else_faithful el
    | XForD _ _ _ _ c t _ _ _ _ => faithful c &> tpl_faithful t
    end
  with else_faithful (e : xelse) : chk := match e with XElse _ _ t _ => tpl_faithful t end.

  Definition label_faithful (l : xlabel) : chk :=
    match l with XLId _ => pass | XLStr m s => must (written (m_span m) (quoted s)) end.
  Fixpoint struct_faithful (s : xstruct) : chk :=
    match s with
    | XAttr _ _ v => faithful v
    | XBlock _ _ ls b => every (map label_faithful ls) &> body_faithful b
    end
  with body_faithful (b : xbody) : chk := match b with XBody _ l _ _ => every (map struct_faithful l) end.

  (** The checks of whole inputs: nothing is being quoted at their start. *)
  Definition expr_is_faithful (e : xexpr) : Prop := fst (faithful e false) = true.
  Definition tpl_is_faithful (t : xtpl) : Prop := fst (tpl_faithful t false) = true.
  Definition body_is_faithful (b : xbody) : Prop := fst (body_faithful b false) = true.
End Faithful.

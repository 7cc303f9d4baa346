(** * Which syntax trees are read back from the text they are printed as *)
From Coq Require Import NArith ZArith Bool String List.
From Verif Require Import Res Str Dec NumberModel PrimModel PrimProofs DedentModel EAst EncModel EqSpec PrattSpec EatLeaf ParseBase ParseModel.
Import ListNotations.
Open Scope N_scope.

(** ** White space and comments

    [gaps nl open Between s]: [s] consists of white space and comments.  Line breaks, and therefore
    line comments, are allowed if [nl]; if [open], the last line comment need not be terminated. *)
Inductive place := Between | InLine | InBlock.
Fixpoint gaps (nl open : bool) (p : place) (s : str) : bool :=
  match s with
  | [] => match p with Between => true | InLine => open | InBlock => false end
  | c :: r =>
      match p with
      | Between =>
          if (c =? 32) || (c =? 9) then gaps nl open Between r
          else if (c =? 10) || (c =? 13) then nl && gaps nl open Between r
          else if c =? 35 then (nl || open) && gaps nl open InLine r
          else if c =? 47 then
            match r with
            | d :: r => if d =? 47 then (nl || open) && gaps nl open InLine r
                        else if d =? 42 then gaps nl open InBlock r else false
            | [] => false
            end
          else false
      | InLine =>
          if c =? 10 then nl && gaps nl open Between r
          else if c =? 13 then
            match r with d :: r => (d =? 10) && (nl && gaps nl open Between r) | [] => false end
          else gaps nl open InLine r
      | InBlock =>
          if c =? 42 then
            match r with d :: r' => if d =? 47 then gaps nl open Between r' else gaps nl open InBlock r | [] => false end
          else gaps nl open InBlock r
      end
  end.
Definition gap (nl : bool) (s : str) : bool := gaps nl false Between s.
(** A gap at the end of a line or of the text. *)
Definition last_gap (nl : bool) (s : str) : bool := gaps nl true Between s.

(** ** The text of a tree

    The text written for an expression without its own decor.  It is the text of EncModel, but whether
    literals of templates are escaped ([q]) is determined by the position in the tree and not by a flag
    which changes during printing. *)
Definition pre (df : str * str) (m : meta) : str := enc_prefix (m_decor m) (fst df).
Definition suf (df : str * str) (m : meta) : str := enc_suffix (m_decor m) (snd df).
Definition around (df : str * str) (m : meta) (t : str) : str := pre df m ++ t ++ suf df m.
Definition did_text (df : str * str) (i : did) : str := around df (i_meta i) (i_name i).
Definition strip_text (marker : str) (s : strip) (t : str) : str :=
  marker ++ (if strip_start s then [126] else []) ++ t ++ (if strip_end s then [126] else []) ++ [125].
Definition commas {A} (f : str * str -> A -> str) (l : list A) : str :=
  match l with [] => [] | x :: l => f NO x ++ flat_map (fun y => [44] ++ f LEADING y) l end.
Definition assign_text (a : assign) : str := match a with AColon => [58] | AEquals => [61] end.
Definition end_text (t : oterm) : str := match t with TComma => [44] | TNewline => [10] | TNone => [] end.
Definition text_in (core : xexpr -> str) (df : str * str) (e : xexpr) : str := around df (x_meta e) (core e).
Definition literal_text (q : bool) (s : str) : str := if q then encode_escaped (escape_markers s) else escape_markers s.

Section Text.
  Context (sf : f64 -> str).
  Definition num_repr (n : num) (r : option raw) : str := match r with Some r => raw_enc r [] | None => show_num sf n end.
  Fixpoint x_text (q : bool) (e : xexpr) : str :=
    match e with
    | XNull _ => lit "null"
    | XBool _ b => if b then lit "true" else lit "false"
    | XNum _ n r => num_repr n r
    | XStr _ s => quoted s
    | XVar _ x => x
    | XArr _ l c t => [91] ++ commas (text_in (x_text q)) l ++ match l with [] => [] | _ => if c then [44] else [] end ++ raw_enc t [] ++ [93]
    | XObj _ l t => [123] ++ flat_map (item_text q) l ++ raw_enc t [] ++ [125]
    | XTpl _ es => [34] ++ flat_map (elem_text true) es ++ [34]
    | XHeredoc _ d t i r =>
        lit "<<" ++ match i with Some _ => [45] | None => [] end ++ d ++ [10] ++
        match i with Some n => indent_by (tpl_text false t) n false | None => tpl_text q t end ++ raw_enc r [] ++ d
    | XParen _ e => [40] ++ text_in (x_text q) NO e ++ [41]
    | XCond _ c t f =>
        text_in (x_text q) TRAILING c ++ [63] ++ text_in (x_text q) BOTH t ++ [58] ++ text_in (x_text q) LEADING f
    | XCall _ ns n am args ex co t =>
        flat_map (fun i => did_text NO i ++ lit "::") ns ++ did_text NO n ++
        around NO am ([40] ++ commas (text_in (x_text q)) args ++
          match args with [] => [] | _ => if ex then lit "..." else if co then [44] else [] end ++ raw_enc t [] ++ [41])
    | XTrav _ e ops => text_in (x_text q) NO e ++ flat_map (trop_text q) ops
    | XUnary _ _ o e => unop_str o ++ text_in (x_text q) NO e
    | XBinary _ l om o r => text_in (x_text q) NO l ++ around BOTH om (binop_str o) ++ text_in (x_text q) NO r
    | XFor _ im kv vv coll key val g cond =>
        let intro := around NO im (lit "for" ++ match kv with Some k => did_text LEADING k ++ [44] | None => [] end ++
                                   did_text LEADING vv ++ lit "in" ++ text_in (x_text q) BOTH coll ++ [58]) in
        match key with
        | Some k =>
            [123] ++ intro ++ text_in (x_text q) BOTH k ++ lit "=>" ++ text_in (x_text q) LEADING val ++
            (if g then lit "..." else []) ++ match cond with Some c => cond_text q c | None => [] end ++ [125]
        | None =>
            [91] ++ intro ++ text_in (x_text q) LEADING val ++ match cond with Some c => cond_text q c | None => [] end ++ [93]
        end
    end
  with cond_text (q : bool) (c : xcond) : str :=
    match c with XForCond m e => around LEADING m (lit "if" ++ text_in (x_text q) LEADING e) end
  with item_text (q : bool) (i : xitem) : str :=
    match i with XItem k a v t => key_text q k ++ assign_text a ++ text_in (x_text q) LEADING v ++ end_text t end
  with key_text (q : bool) (k : xkey) : str :=
    match k with XKId i => did_text TRAILING i | XKExpr e => text_in (x_text q) TRAILING e end
  with trop_text (q : bool) (o : xtrop) : str := match o with XTrop m o => around NO m (op_text q o) end
  with op_text (q : bool) (o : xop) : str :=
    match o with
    | XAttrSplat m => [46] ++ around NO m [42]
    | XFullSplat m => [91] ++ around NO m [42] ++ [93]
    | XGetAttr i => [46] ++ did_text NO i
    | XIndex e => [91] ++ text_in (x_text q) NO e ++ [93]
    | XLegacy m n => [46] ++ around NO m (show_N n)
    end
  with tpl_text (q : bool) (t : xtpl) : str := match t with XTempl es _ => flat_map (elem_text q) es end
  with elem_text (q : bool) (e : xelem) : str :=
    match e with
    | XLit _ s => literal_text q s
    | XInterp _ e s => strip_text (lit "${") s (text_in (x_text q) BOTH e)
    | XIfD _ p c t s el ep et es =>
        strip_text (lit "%{") s (raw_enc p SP ++ lit "if" ++ text_in (x_text q) TRAILING c) ++ tpl_text q t ++
        match el with Some e => else_text q e | None => [] end ++
        strip_text (lit "%{") es (raw_enc ep SP ++ lit "endif" ++ raw_enc et SP)
    | XForD _ p kv vv coll t s ep et es =>
        strip_text (lit "%{") s
          (raw_enc p SP ++ lit "for" ++ match kv with Some k => did_text LEADING k ++ [44] | None => [] end ++
           did_text BOTH vv ++ lit "in" ++ text_in (x_text q) BOTH coll) ++
        tpl_text q t ++ strip_text (lit "%{") es (raw_enc ep SP ++ lit "endfor" ++ raw_enc et SP)
    end
  with else_text (q : bool) (e : xelse) : str :=
    match e with
    | XElse p tr t s => strip_text (lit "%{") s (raw_enc p SP ++ lit "else" ++ raw_enc tr SP) ++ tpl_text q t
    end.
End Text.

(** ** Shapes of expressions *)
Definition is_cond (e : xexpr) : bool := match e with XCond _ _ _ _ => true | _ => false end.
(** Operands without parentheses; those to which [.x] can be appended. *)
Definition is_term (e : xexpr) : bool := match e with XCond _ _ _ _ | XBinary _ _ _ _ _ => false | _ => true end.
Definition is_base (e : xexpr) : bool :=
  match e with XCond _ _ _ _ | XBinary _ _ _ _ _ | XUnary _ _ _ _ | XTrav _ _ _ => false | _ => true end.
Definition is_num (e : xexpr) : bool := match e with XNum _ _ _ => true | _ => false end.
Definition is_var (e : xexpr) : bool := match e with XVar _ _ => true | _ => false end.
Fixpoint operands (e : xexpr) : optree xexpr binop :=
  match e with XBinary _ l _ o r => Node (operands l) o (operands r) | e => Leaf e end.
(** After an array, a call or a [for] expression line breaks are blanks: for what follows the first
    operand, and for what is looked for behind the expression. *)
Fixpoint sticky (e : xexpr) : bool :=
  match e with
  | XArr _ _ _ _ | XCall _ _ _ _ _ _ _ _ | XFor _ _ _ _ _ _ _ _ _ => true
  | XTrav _ e _ => sticky e
  | XBinary _ l _ _ _ => sticky l
  | _ => false
  end.
Fixpoint wide (e : xexpr) : bool :=
  match e with
  | XArr _ _ _ _ | XCall _ _ _ _ _ _ _ _ | XFor _ _ _ _ _ _ _ _ _ => true
  | XTrav _ e _ => wide e
  | XUnary _ _ _ e => wide e
  | XBinary _ l _ _ r => wide l || wide r
  | XCond _ a _ d => wide a || wide d
  | _ => false
  end.
(** The first character is a digit; is none of "-", "!", "[", "(" and "<". *)
Definition digit_first (t : str) : bool := match t with c :: _ => is_digit c | [] => false end.
Definition soft (t : str) : bool := match t with c :: _ => negb (existsb (N.eqb c) (lit "-![(<")) | [] => false end.

(** ** Layout *)
Definition tidy (nl : bool) (m : meta) : Prop := gap nl (pre NO m) = true /\ gap nl (suf NO m) = true.
Definition snug (m : meta) : Prop := pre NO m = [] /\ suf NO m = [].
(** A raw string which is a text, and not a reference to some input; and the empty text is [REmpty]. *)
Definition clean (t : raw) : Prop := raw_of_str (raw_enc t []) = t.
Definition raw_gap (t : raw) : Prop := clean t /\ gap true (raw_enc t []) = true.
(** What is before a closing bracket: it belongs to the last element unless a separator comes between. *)
Definition closing {A} (l : list A) (sep : bool) (t : raw) : Prop :=
  raw_gap t /\ match l with [] => sep = false | _ => sep = false -> t = REmpty end.
(** The separator after the word [for]. *)
Definition for_sep (s : str) : Prop := match s with c :: _ => existsb (N.eqb c) [32; 9; 35; 47; 10] = true | [] => False end.

(** ** Template literals

    What is written for a literal before the flag for escaping is lost: the literals and the quoted
    templates of a tree, without those inside of these quoted templates. *)
Inductive part := PLit (s : str) | PQuoted (es : list xelem).
Definition opt_parts {A} (f : A -> list part) (o : option A) : list part := match o with Some x => f x | None => [] end.
Fixpoint parts (e : xexpr) : list part :=
  match e with
  | XNull _ | XBool _ _ | XNum _ _ _ | XStr _ _ | XVar _ _ => []
  | XArr _ l _ _ => flat_map parts l
  | XObj _ l _ => flat_map item_parts l
  | XTpl _ es => [PQuoted es]
  | XHeredoc _ _ t _ _ => tpl_parts t
  | XParen _ e => parts e
  | XCond _ c t f => parts c ++ parts t ++ parts f
  | XCall _ _ _ _ args _ _ _ => flat_map parts args
  | XTrav _ e ops => parts e ++ flat_map trop_parts ops
  | XUnary _ _ _ e => parts e
  | XBinary _ l _ _ r => parts l ++ parts r
  | XFor _ _ _ _ coll key val _ cond => parts coll ++ opt_parts parts key ++ parts val ++ opt_parts cond_parts cond
  end
with cond_parts (c : xcond) : list part := match c with XForCond _ e => parts e end
with item_parts (i : xitem) : list part := match i with XItem k _ v _ => key_parts k ++ parts v end
with key_parts (k : xkey) : list part := match k with XKId _ => [] | XKExpr e => parts e end
with trop_parts (o : xtrop) : list part := match o with XTrop _ o => op_parts o end
with op_parts (o : xop) : list part := match o with XIndex e => parts e | _ => [] end
with tpl_parts (t : xtpl) : list part := match t with XTempl es _ => flat_map elem_parts es end
with elem_parts (e : xelem) : list part :=
  match e with
  | XLit _ s => [PLit s]
  | XInterp _ e _ => parts e
  | XIfD _ _ c t _ el _ _ _ => parts c ++ tpl_parts t ++ opt_parts else_parts el
  | XForD _ _ _ _ coll t _ _ _ _ => parts coll ++ tpl_parts t
  end
with else_parts (e : xelse) : list part := match e with XElse _ _ t _ => tpl_parts t end.
(** The escaped text of a literal is the same as its text. *)
Definition unescaped (s : str) : Prop := encode_escaped (escape_markers s) = escape_markers s.
Definition quoteless (l : list part) : Prop := Forall (fun p => match p with PQuoted _ => False | _ => True end) l.
Definition literals_plain (l : list part) : Prop := Forall (fun p => match p with PLit s => unescaped s | _ => True end) l.

Definition is_lit (e : xelem) : bool := match e with XLit _ _ => true | _ => false end.
(** No two literals one after the other. *)
Fixpoint apart (es : list xelem) : bool :=
  match es with e :: ((e' :: _) as r) => negb (is_lit e && is_lit e') && apart r | _ => true end.
(** The character after a literal: of a template sequence, or [k] at the end. *)
Definition next_char (k : N) (es : list xelem) : N :=
  match es with [] => k | XInterp _ _ _ :: _ => 36 | _ => 37 end.
(** Literals [s] are not empty, satisfy [F s k] if the character [k] follows, and do not end with the
    first character of the template sequence which follows. *)
Fixpoint lits (F : str -> N -> Prop) (k : N) (es : list xelem) : Prop :=
  match es with
  | [] => True
  | XLit _ s :: r =>
      let c := next_char k r in
      s <> [] /\ escape_ok s = true /\ (c = 36 \/ c = 37 -> last s 0 <> c) /\ F s c /\ lits F k r
  | _ :: r => lits F k r
  end.

(** ** Which expressions are read back

    [ok q h fl e]: the expression [e] is read back from its text at a place where line breaks are
    blanks if [h]; in the rest of an operation which starts there they are blanks if [fl]. *)
Section Ok.
  Context (u : unicode) (b : build) (pf : str -> f64) (sf : f64 -> str).
  Definition reserved (x : str) : bool := existsb (seqb x) [lit "null"; lit "true"; lit "false"; lit "for"].
  Definition variable (x : str) : Prop := is_ident u x = true /\ reserved x = false.
  Definition num_ok (t : str) (n : num) : Prop :=
    number_text b pf t n \/
    exists w t' n', t = [45] ++ w ++ t' /\ gap false w = true /\ number_text b pf t' n' /\ num_neg b n' = Done n.
  Definition sub (f : bool -> bool -> xexpr -> Prop) (nl : bool) (e : xexpr) : Prop := f nl (nl || sticky e) e.
  Definition elem_in (f : bool -> bool -> xexpr -> Prop) (nl : bool) (e : xexpr) : Prop := tidy true (x_meta e) /\ sub f nl e.
  (** Loop variables: [v] is followed by a separator, and so is the word [for]. *)
  Definition loop_ok (kv : option did) (vv : did) (df : str * str) : Prop :=
    oallp (fun k => is_ident u (i_name k) = true /\ tidy true (i_meta k)) kv /\
    is_ident u (i_name vv) = true /\ tidy true (i_meta vv) /\ suf df (i_meta vv) <> [] .
  (** A line which consists of blanks and the delimiter, as the end of a heredoc. *)
  Definition at_delim (d s : str) : bool :=
    let s := snd (span is_space s) in
    starts_with d s && match skipn (List.length d) s with c :: _ => negb (is_id_continue u c) | [] => true end.
  Definition closes (d s : str) : bool :=
    match s with
    | c :: r => if c =? 10 then at_delim d r
                else if c =? 13 then match r with c' :: r => (c' =? 10) && at_delim d r | [] => false end
                else false
    | [] => false
    end.
  (** No such line is in the text [t] which is followed by [k]. *)
  Fixpoint calm (d t : str) (k : N) : bool :=
    match t with [] => true | _ :: t' => negb (closes d (t ++ [k])) && calm d t' k end.
  (** The items of an object, what is before the closing brace. *)
  Fixpoint seps (q : bool) (l : list xitem) (t : raw) : Prop :=
    match l with
    | [] => True
    | [XItem _ _ _ tm] => tm = TNone -> t = REmpty
    | XItem _ _ v tm :: (XItem k _ _ _ :: _) as l' =>
        tm <> TNone /\ (tm = TNewline -> wide v = true -> soft (match k with XKId i => i_name i | XKExpr e => x_text sf q e end) = true) /\ seps q l' t
    end.

  Fixpoint ok (q h fl : bool) (e : xexpr) : Prop :=
    match e with
    | XNull _ | XBool _ _ => True
    | XNum _ n r => num_ok (num_repr sf n r) n
    | XStr _ s => escape_ok s = true
    | XVar _ x => variable x
    | XArr _ l c t => lall (elem_in (ok q) true) l /\ closing l c t
    | XObj _ l t => lall (item_ok q) l /\ distinct_keys l /\ raw_gap t /\ seps q l t
    | XTpl _ es =>
        lall (elem_ok true) es /\ apart es = true /\ lits (fun _ _ => True) 34 es /\ forallb is_lit es = false /\
        (quoteless (flat_map elem_parts es) \/ literals_plain (flat_map elem_parts es))
    | XHeredoc _ d t i tr =>
        match t with
        | XTempl es _ =>
            q = false /\ i = None /\ is_ident u d = true /\ clean tr /\ forallb is_space (raw_enc tr []) = true /\
            lall (elem_ok q) es /\ apart es = true /\
            exists es0 sp s le, es = es0 ++ [XLit sp (s ++ le)] /\ (le = [10] /\ last s 0 <> 13 \/ le = [13; 10]) /\
              lits (fun s k => calm d (escape_markers s) k = true) (hd 0 le) (es0 ++ match s with [] => [] | _ => [XLit sp s] end)
        end
    | XParen _ e => elem_in (ok q) true e
    | XCond _ c t f =>
        let m := h || sticky c in
        is_cond c = false /\ sub (ok q) h c /\ sub (ok q) m t /\ sub (ok q) m f /\
        pre NO (x_meta c) = [] /\ gap m (suf NO (x_meta c)) = true /\ tidy m (x_meta t) /\
        gap m (pre NO (x_meta f)) = true /\ suf NO (x_meta f) = []
    | XCall _ ns n am args ex co t =>
        let names := ns ++ [n] in
        lall (fun i => is_ident u (i_name i) = true /\ tidy h (i_meta i)) names /\
        match names with i :: _ => pre NO (i_meta i) = [] /\ i_name i <> lit "for" | [] => True end /\
        snug am /\ lall (elem_in (ok q) true) args /\ closing args (ex || co) t /\ (ex = true -> co = false)
    | XTrav _ e ops =>
        let m := h || sticky e in
        is_base e = true /\ is_num e = false /\ sub (ok q) h e /\ ops <> [] /\
        pre NO (x_meta e) = [] /\ gap m (suf NO (x_meta e)) = true /\ lall (trop_ok q m) ops
    | XUnary _ _ o e =>
        is_term e = true /\ sub (ok q) h e /\ gap false (pre NO (x_meta e)) = true /\ suf NO (x_meta e) = [] /\
        (o = Neg -> digit_first (x_text sf q e) = false)
    | XBinary _ l om o r =>
        is_cond l = false /\ is_cond r = false /\ ok q h fl l /\ ok q fl fl r /\
        snug (x_meta l) /\ snug (x_meta r) /\ tidy fl om /\
        (o = OpMinus -> pre BOTH om <> []) /\ (o = OpDiv -> match suf BOTH om with c :: _ => c <> 47 | [] => True end) /\
        let t := Node (operands l) o (operands r) in grouped (fun o => o) t /\ ~ chained (map fst (tail t))
    | XFor _ im kv vv coll key val g cond =>
        gap true (pre NO im) = true /\ suf NO im = [] /\ loop_ok kv vv LEADING /\
        for_sep (pre LEADING (i_meta match kv with Some k => k | None => vv end)) /\
        elem_in (ok q) false coll /\
        match key with
        | Some k => elem_in (ok q) false k /\ elem_in (ok q) false val
        | None => g = false /\ elem_in (ok q) true val
        end /\
        match cond with
        | Some c => cond_ok q c /\ (g = false -> suf LEADING (x_meta val) ++ match c with XForCond m _ => pre LEADING m end <> [])
        | None => True
        end
    end
  with cond_ok (q : bool) (c : xcond) : Prop :=
    match c with XForCond m e => gap true (pre NO m) = true /\ suf NO m = [] /\ elem_in (ok q) true e end
  with item_ok (q : bool) (i : xitem) : Prop :=
    match i with
    | XItem k _ v t =>
        key_ok q k /\ sub (ok q) false v /\ gap false (pre NO (x_meta v)) = true /\
        match t with TNewline => last_gap false (suf NO (x_meta v)) = true | _ => gap false (suf NO (x_meta v)) = true end
    end
  with key_ok (q : bool) (k : xkey) : Prop :=
    match k with
    | XKId i => variable (i_name i) /\ gap true (pre NO (i_meta i)) = true /\ gap false (suf NO (i_meta i)) = true
    | XKExpr e =>
        is_var e = false /\ plain e /\ sub (ok q) false e /\
        gap true (pre NO (x_meta e)) = true /\ gap false (suf NO (x_meta e)) = true
    end
  with trop_ok (q m : bool) (o : xtrop) : Prop :=
    match o with XTrop om o => gap m (pre NO om) = true /\ suf NO om = [] /\ op_ok q o end
  with op_ok (q : bool) (o : xop) : Prop :=
    match o with
    | XAttrSplat m => gap true (pre NO m) = true /\ suf NO m = []
    | XFullSplat m => tidy true m
    | XGetAttr i => is_ident u (i_name i) = true /\ gap true (pre NO (i_meta i)) = true /\ suf NO (i_meta i) = []
    | XIndex e => elem_in (ok q) true e
    | XLegacy m n => (Z.of_N n <= u64_max)%Z /\ gap true (pre NO m) = true /\ suf NO m = []
    end
  with tpl_ok (q : bool) (t : xtpl) : Prop :=
    match t with
    | XTempl es _ => lall (elem_ok q) es /\ apart es = true /\ lits (fun s _ => q = true -> unescaped s) 37 es
    end
  with elem_ok (q : bool) (e : xelem) : Prop :=
    match e with
    | XLit _ _ => True
    | XInterp _ e _ => elem_in (ok q) true e
    | XIfD _ p c t _ el ep et _ =>
        raw_gap p /\ elem_in (ok q) false c /\ tpl_ok q t /\ oallp (else_ok q) el /\ raw_gap ep /\ raw_gap et
    | XForD _ p kv vv coll t _ ep et _ =>
        raw_gap p /\ loop_ok kv vv BOTH /\ elem_in (ok q) false coll /\ tpl_ok q t /\ raw_gap ep /\ raw_gap et
    end
  with else_ok (q : bool) (e : xelse) : Prop :=
    match e with XElse p tr t _ => raw_gap p /\ raw_gap tr /\ tpl_ok q t end.
End Ok.

(** * The HCL parser

    Models crates/hcl-edit/src/parser/{trivia,number,string,repr,state,pratt,expr,template,structure,
    mod}.rs, function by function, on top of the combinators of ParseBase.

    The mutable [ExprParseState] is modelled as follows: [current] is the returned expression, [ws]
    is only ever set immediately before it is taken (state.rs:67-73, used at expr.rs:92 and 177), and
    [allow_newlines] is passed in and, where later parsers of the same state read it, returned. *)
From Coq Require Import NArith ZArith Bool String List.
From Verif Require Import Res Str Dec NumberModel PrimModel DedentModel EAst ParseBase.
Import ListNotations.
Open Scope N_scope.

(** ** Trivia, parser/trivia.rs *)

(** trivia.rs:54-58 *)
Definition inline_comment : parser unit := tag (lit "/*") ;; take_until (lit "*/") ;; tag (lit "*/").
(** trivia.rs:46-52 *)
Definition hash_line_comment : parser unit := char 35 ;; till_line_ending ;; ret tt.
Definition double_slash_line_comment : parser unit := tag (lit "//") ;; till_line_ending ;; ret tt.
(** trivia.rs:27-34 *)
Definition comment : parser unit :=
  c <- peek any ;;
  if c =? 35 then hash_line_comment
  else if c =? 47 then alt double_slash_line_comment inline_comment
  else fail.
(** trivia.rs:36-44 *)
Definition line_comment : parser unit :=
  c <- peek any ;;
  if c =? 35 then hash_line_comment
  else if c =? 47 then double_slash_line_comment
  else fail.
(** trivia.rs:7-16 *)
Definition ws : parser unit := multispace0 ;; many0 (comment ;; multispace0) ;; ret tt.
(** trivia.rs:18-25 *)
Definition sp : parser unit := space0 ;; many0 (inline_comment ;; space0) ;; ret tt.

(** ** Decoration, parser/repr.rs; [upd] is the [Decorate] and [SetSpan] implementation. *)
Section Repr.
  Context {A : Type} (upd : (meta -> meta) -> A -> A).
  (** repr.rs:5-14 *)
  Definition spanned (p : parser A) : parser A :=
    '(x, s) <- with_span p ;; ret (upd (set_span s) x).
  (** repr.rs:16-33 *)
  Definition decorated (prefix : parser unit) (inner : parser A) (suffix : parser unit) : parser A :=
    a <- pspan prefix ;; x <- spanned inner ;; b <- pspan suffix ;;
    ret (upd (fun m => set_suffix (raw_of_span b) (set_prefix (raw_of_span a) m)) x).
  (** repr.rs:35-48 *)
  Definition prefix_decorated (prefix : parser unit) (inner : parser A) : parser A :=
    a <- pspan prefix ;; x <- spanned inner ;; ret (upd (set_prefix (raw_of_span a)) x).
  (** repr.rs:50-63 *)
  Definition suffix_decorated (inner : parser A) (suffix : parser unit) : parser A :=
    x <- spanned inner ;; b <- pspan suffix ;; ret (upd (set_suffix (raw_of_span b)) x).
End Repr.

(** string.rs:173-178 *)
Definition raw_string (p : parser unit) : parser raw := pmap raw_of_span (pspan p).

(** ** Grouping of binary operators, parser/pratt.rs

    [Pr n rbp lhs nbp ops] is [PrattParser::parse_input] of the crate [pratt] (0.4, not in the
    repository) after its first token: operators of [ops] are applied to [lhs] as long as they bind
    more tightly than [rbp] and less than [nbp]; the result is paired with the remaining operators.
    Precedences are multiplied by ten, as in [Precedence::normalize]. *)
Definition oper := (meta * binop)%type.
Definition is_neither (o : binop) : bool :=
  match o with OpEq | OpNotEq | OpLessEq | OpGreaterEq | OpLess | OpGreater => true | _ => false end.
(** pratt.rs:34-56 *)
Definition lbp (o : binop) : nat := precedence o * 10.
Definition rhs_rbp (o : binop) : nat := if is_neither o then S (lbp o) else lbp o.
(** [None] is [Precedence::MAX]. *)
Definition next_bp (o : binop) : option nat := Some (if is_neither o then lbp o else S (lbp o)).
Definition below (l : nat) (n : option nat) : bool := match n with None => true | Some n => Nat.ltb l n end.
(** pratt.rs:65-82 *)
Definition infix_expr (l : xexpr) (o : oper) (r : xexpr) : xexpr :=
  let m := match m_span (x_meta l), m_span (x_meta r) with
           | Some a, Some b => Meta no_decor (Some (fst a, snd b))
           | _, _ => no_meta
           end in
  XBinary m l (fst o) (snd o) r.
Fixpoint pratt (n : nat) (rbp : nat) (lhs : xexpr) (nbp : option nat) (ops : list (oper * xexpr))
  : option (xexpr * list (oper * xexpr)) :=
  match n with
  | O => None
  | S n =>
      match ops with
      | [] => Some (lhs, [])
      | (o, e) :: rest =>
          if Nat.ltb rbp (lbp (snd o)) && below (lbp (snd o)) nbp then
            match pratt n (rhs_rbp (snd o)) e None rest with
            | Some (rhs, rest) => pratt n rbp (infix_expr lhs o rhs) (next_bp (snd o)) rest
            | None => None
            end
          else Some (lhs, ops)
      end
  end.
(** [parse_binary_op], pratt.rs:13-19: whatever the parser did not use is dropped. *)
Definition pratt_group (lhs : xexpr) (ops : list (oper * xexpr)) : option xexpr :=
  option_map fst (pratt (S (List.length ops)) 0 lhs None ops).

(** Unicode scalar values, [char::from_u32]. *)
Definition char_from_u32 (n : N) : option N :=
  if (n <? 55296) || ((57344 <=? n) && (n <? 1114112)) then Some n else None.

Section Parser.
  Context (u : unicode).
  Context (b : build).
  (** [f64::from_str] on texts of the form digits[.digits][(e|E)[+|-]digits], where it cannot fail. *)
  Context (parse_f64 : str -> f64).
  (** How operators are grouped (really [pratt_group]) and how an item is added to an object (really
      [items_insert]).  They are parameters because both lose parts of some inputs; see the theorems
      on lossless parsing. *)
  Context (group : xexpr -> list (oper * xexpr) -> option xexpr).
  Context (obj_add : xitem -> list xitem -> list xitem).

  (** ** Numbers, parser/number.rs *)

  (** number.rs:30-38 *)
  Definition exponent : parser unit :=
    one_of (fun c => (c =? 101) || (c =? 69)) ;; opt (one_of (fun c => (c =? 43) || (c =? 45))) ;;
    cut digit1 ;; ret tt.
  (** number.rs:21-28 *)
  Definition float : parser f64 :=
    pmap parse_f64 (taken (digit1 ;; alt (char 46 ;; digit1 ;; opt exponent ;; ret tt) exponent)).
  (** number.rs:17-19 *)
  Definition integer : parser Z :=
    verify_map digit1
      (fun s => let n := Z.of_N (digits_val s) in if (n <=? u64_max)%Z then Some n else None).
  (** number.rs:9-15; [verify_map(Number::from_f64)]. *)
  Definition number : parser num :=
    alt (fun s => match float s with
                  | POk f s' => match num_from_f64 b f with
                                | Done (Some n) => POk n s'
                                | Done None => PErr false s
                                | Panic => PPanic
                                end
                  | PErr c s => PErr c s
                  | PPanic => PPanic
                  | PFuel => PFuel
                  end)
        (pmap num_of_u64 integer).

  (** ** Strings and identifiers, parser/string.rs *)

  (** string.rs:128-136 *)
  Definition escaped_marker : parser str :=
    t <- take_n 3 ;;
    if seqb t (lit "$${") then ret (lit "${")
    else if seqb t (lit "%%{") then ret (lit "%{")
    else fail.
  (** string.rs:116-126 *)
  Definition any_until (literal_end : parser unit) : parser str :=
    taken (many1 (pnot (alt (pmap (fun _ => tt) escaped_marker) literal_end) ;; any)).
  (** string.rs:105-114 *)
  Definition string_literal_end : parser unit :=
    c <- any ;;
    if (c =? 34) || (c =? 92) then ret tt
    else if (c =? 36) || (c =? 37) then char 123 ;; ret tt
    else fail.
  Definition string_literal : parser str := any_until string_literal_end.
  (** string.rs:167-175 ([take_while(1..=N)] then [verify] of the length; the value of 8 digits fits
      in a [u32]) *)
  Definition hexescape (n : nat) : parser N :=
    verify_map
      (fun s => let h := firstn n (fst (span is_hex (snd s))) in
                if Nat.eqb (List.length h) n then POk (hex_value h) (fst s + blen h, skipn n (snd s))
                else PErr false s)
      char_from_u32.
  (** string.rs:138-165 *)
  Definition escaped_char : parser N :=
    char 92 ;;
    c <- any ;;
    if c =? 110 then ret 10
    else if c =? 114 then ret 13
    else if c =? 116 then ret 9
    else if c =? 92 then ret 92
    else if c =? 34 then ret 34
    else if c =? 47 then ret 47
    else if c =? 98 then ret 8
    else if c =? 102 then ret 12
    else if c =? 117 then cut (hexescape 4)
    else if c =? 85 then cut (hexescape 8)
    else cut fail.
  (** string.rs:74-82; a fragment is represented by the text it stands for *)
  Definition quoted_string_fragment : parser str :=
    alt escaped_marker (alt string_literal (pmap (fun c => [c]) escaped_char)).
  (** string.rs:84-99 *)
  Definition template_string_fragment (literal_end : parser unit) : parser str :=
    alt escaped_marker (any_until literal_end).

  (** string.rs:19-46: the loop ends at any error, also a fatal one, and goes on from where that
      error was raised. *)
  Fixpoint build_loop (n : nat) (fragment : parser str) (s : st) : pres str :=
    match n with
    | O => PFuel
    | S n =>
        match fragment s with
        | POk t s' =>
            match build_loop n fragment s' with
            | POk r s => POk (t ++ r) s
            | PErr c s => PErr c s
            | PPanic => PPanic
            | PFuel => PFuel
            end
        | PErr _ s' => POk [] s'
        | PPanic => PPanic
        | PFuel => PFuel
        end
    end.
  Definition build_string (fragment : parser str) : parser str :=
    t <- fragment ;; r <- (fun s => build_loop (S (List.length (snd s))) fragment s) ;; ret (t ++ r).

  (** string.rs:12-17 *)
  Definition pstring : parser str :=
    char 34 ;; o <- opt (build_string quoted_string_fragment) ;; char 34 ;;
    ret (match o with Some s => s | None => [] end).

  (** string.rs:186-190 *)
  Definition str_ident : parser str :=
    taken (one_of (is_id_start u) ;; take_while0 (is_id_continue u)).
  (** string.rs:180-184 *)
  Definition ident : parser did := pmap (Did no_meta) str_ident.

  (** ** Templates, parser/template.rs, and expressions, parser/expr.rs *)

  (** The recursive occurrences: [expr_with_state], [expr_term_with_state] (with the flag
      [allow_newlines]), [template] and [body]. *)
  Record recs := Recs {
    r_expr : bool -> parser xexpr;
    r_term : bool -> parser xexpr;
    r_tpl : parser (list xelem);
    r_body : parser xbody
  }.
  Context (R : recs).

  Definition decorated_expr (p : parser xexpr) : parser xexpr := decorated x_upd ws p ws.
  Definition decorated_ident : parser did := decorated did_upd ws (cut ident) ws.

  (** template.rs:207-226 *)
  Definition control {A} (intro : str) (inner : parser A) : parser (A * strip) :=
    tag intro ;; a <- opt (char 126) ;; x <- inner ;; z <- opt (char 126) ;; cut (char 125) ;;
    ret (x, strip_of (match a with Some _ => true | None => false end,
                      match z with Some _ => true | None => false end)).
  (** template.rs:101-109 *)
  Definition interpolation : parser xelem :=
    '(e, s) <- control (lit "${") (decorated_expr (r_expr R true)) ;; ret (XInterp None e s).
  (** [spanned(template)] *)
  Definition spanned_tpl : parser xtpl :=
    '(es, s) <- with_span (r_tpl R) ;; ret (XTempl es (Some s)).
  (** template.rs:146-149, 190-193, 135 *)
  Definition end_control (p : parser unit) : parser (raw * raw * strip) :=
    control (lit "%{") (a <- raw_string ws ;; p ;; z <- raw_string ws ;; ret (a, z)).
  (** template.rs:119-161 *)
  Definition if_directive : parser xelem :=
    '((pre, c), s) <- control (lit "%{") (a <- raw_string ws ;; tag (lit "if") ;;
                                         c <- decorated_expr (r_expr R false) ;; ret (a, c)) ;;
    t <- spanned_tpl ;;
    el <- opt ('((a, z), s) <- end_control (tag (lit "else")) ;; t <- spanned_tpl ;; ret (XElse a z t s)) ;;
    '((a, z), s') <- end_control (cut (tag (lit "endif"))) ;;
    ret (XIfD None pre c t s el a z s').
  (** template.rs:163-205 *)
  Definition for_directive : parser xelem :=
    '((pre, x, y, c), s) <- control (lit "%{")
        (a <- raw_string ws ;; tag (lit "for") ;; x <- decorated_ident ;;
         y <- opt (char 44 ;; decorated_ident) ;;
         cut (tag (lit "in")) ;; c <- decorated_expr (r_expr R false) ;; ret (a, x, y, c)) ;;
    t <- spanned_tpl ;;
    '((a, z), s') <- end_control (cut (tag (lit "endfor"))) ;;
    ret (match y with
         | Some y => XForD None pre (Some x) y c t s a z s'
         | None => XForD None pre None x c t s a z s'
         end).
  (** template.rs:111-117 *)
  Definition directive : parser xelem := alt if_directive for_directive.
  (** template.rs:87-99 *)
  Definition element (literal : parser str) : parser xelem :=
    '(e, s) <- with_span (alt (pmap (XLit None) literal) (alt interpolation directive)) ;;
    ret (elem_set_span s e).
  Definition elements (literal : parser str) : parser (list xelem) := many0 (element literal).
  (** template.rs:24-28 *)
  Definition string_template : parser (list xelem) :=
    char 34 ;; es <- elements (build_string quoted_string_fragment) ;; char 34 ;; ret es.
  (** template.rs:30-34 *)
  Definition marker_start : parser unit := alt (tag (lit "${")) (tag (lit "%{")).
  Definition ptemplate : parser (list xelem) := elements (build_string (template_string_fragment marker_start)).
  (** template.rs:50 *)
  Definition heredoc_end (delim : str) : parser unit :=
    line_ending ;; space0 ;; tag delim ;; pnot (one_of (is_id_continue u)).
  (** template.rs:59-67 *)
  Definition push_line_ending (le : str) (sp : bspan) (es : list xelem) : list xelem :=
    match rev es with
    | XLit (Some s) t :: r => rev (XLit (Some (fst s, snd sp)) (t ++ le) :: r)
    | _ => es ++ [XLit (Some sp) le]
    end.
  (** template.rs:36-75 *)
  Definition heredoc_template (delim : str) : parser (list xelem) :=
    o <- opt (es <- elements (build_string (template_string_fragment
                                 (alt (tag (lit "${")) (alt (tag (lit "%{")) (heredoc_end delim))))) ;;
              '(le, s) <- with_span line_ending ;; ret (push_line_ending le s es)) ;;
    ret (match o with Some es => es | None => [] end).

  (** expr.rs:28-38 *)
  Definition ws_or_sp (nl : bool) : parser unit := if nl then ws else sp.

  (** expr.rs:192-210 *)
  Definition stringlike : parser xexpr :=
    alt (pmap (XStr no_meta) pstring) (pmap (XTpl no_meta) string_template).
  (** expr.rs:212-224; [set_repr] with the consumed text *)
  Definition number_expr : parser xexpr :=
    '(n, t) <- with_taken number ;; ret (XNum no_meta n (Some (raw_of_str t))).
  (** expr.rs:226-239 *)
  Definition neg_number : parser xexpr :=
    '(n, t) <- with_taken (char 45 ;; sp ;; number) ;;
    n <- lift (num_neg b n) ;;
    ret (XNum no_meta n (Some (raw_of_str t))).
  (** expr.rs:307-314 *)
  Definition unary_operator : parser unop :=
    c <- any ;; if c =? 45 then ret Neg else if c =? 33 then ret Not else fail.
  (** expr.rs:290-305 *)
  Definition unary_op (nl : bool) : parser xexpr :=
    '(o, s) <- with_span unary_operator ;;
    e <- prefix_decorated x_upd sp (r_term R nl) ;;
    ret (XUnary no_meta (Some s) o e).

  (** expr.rs:259-288; [dec_uint] reads "0" or a digit string without leading zero *)
  Definition dec_uint : parser N :=
    verify_map
      (taken (alt (one_of (fun c => (49 <=? c) && (c <=? 57)) ;; take_while0 is_digit ;; ret tt)
                  (char 48 ;; ret tt)))
      (fun s => let n := digits_val s in if (Z.of_N n <=? u64_max)%Z then Some n else None).
  Definition traversal_operator : parser xop :=
    c <- any ;;
    if c =? 46 then
      prefix_decorated op_upd ws
        (c <- peek any ;;
         if c =? 42 then char 42 ;; ret (XAttrSplat no_meta)
         else if is_digit c then pmap (XLegacy no_meta) dec_uint
         else if is_id_start u c then pmap XGetAttr ident
         else cut fail)
    else if c =? 91 then
      o <- decorated op_upd ws
             (c <- peek any ;;
              if c =? 42 then char 42 ;; ret (XFullSplat no_meta)
              else pmap XIndex (r_expr R true)) ws ;;
      cut (char 93) ;; ret o
    else fail.
  Definition trop_upd (f : meta -> meta) (t : xtrop) : xtrop := match t with XTrop m o => XTrop (f m) o end.
  (** expr.rs:241-257 *)
  Definition traversal (nl : bool) : parser (list xtrop) :=
    many1 (prefix_decorated trop_upd (ws_or_sp nl)
             (pnot (tag (lit "..")) ;; pmap (XTrop no_meta) traversal_operator)).

  (** expr.rs:336-358 *)
  Definition binary_operator : parser binop :=
    c <- any ;;
    if c =? 61 then char 61 ;; ret OpEq
    else if c =? 33 then char 61 ;; ret OpNotEq
    else if c =? 60 then alt (char 61 ;; ret OpLessEq) (ret OpLess)
    else if c =? 62 then alt (char 61 ;; ret OpGreaterEq) (ret OpGreater)
    else if c =? 43 then ret OpPlus
    else if c =? 45 then ret OpMinus
    else if c =? 42 then ret OpMul
    else if c =? 47 then pnot (one_of (fun c => (c =? 47) || (c =? 42))) ;; ret OpDiv
    else if c =? 37 then ret OpMod
    else if c =? 38 then char 38 ;; ret OpAnd
    else if c =? 124 then char 124 ;; ret OpOr
    else fail.
  Definition oper_upd (f : meta -> meta) (o : oper) : oper := (f (fst o), snd o).
  (** expr.rs:316-334 *)
  Definition binary_ops (nl : bool) : parser (list (oper * xexpr)) :=
    many1 (o <- decorated oper_upd (ws_or_sp nl) (pmap (pair no_meta) binary_operator) (ws_or_sp nl) ;;
           e <- r_term R nl ;; ret (o, e)).
  (** expr.rs:360-377 *)
  Definition conditional (nl : bool) : parser (xexpr * xexpr) :=
    char 63 ;; t <- decorated x_upd (ws_or_sp nl) (r_expr R nl) (ws_or_sp nl) ;;
    cut (char 58) ;; f <- prefix_decorated x_upd (ws_or_sp nl) (r_expr R nl) ;; ret (t, f).

  (** expr.rs:622-644 *)
  Definition intro_t := (meta * (option did * did * xexpr))%type.
  Definition intro_upd (f : meta -> meta) (i : intro_t) : intro_t := (f (fst i), snd i).
  Definition for_intro : parser intro_t :=
    prefix_decorated intro_upd ws
      (tag (lit "for") ;; x <- decorated_ident ;; y <- opt (char 44 ;; decorated_ident) ;;
       cut (tag (lit "in")) ;; c <- decorated_expr (r_expr R false) ;; cut (char 58) ;;
       ret (no_meta, (match y with Some y => (Some x, y, c) | None => (None, x, c) end))).
  Definition cond_upd (f : meta -> meta) (c : xcond) : xcond := match c with XForCond m e => XForCond (f m) e end.
  (** expr.rs:646-656 *)
  Definition for_cond (nl : bool) : parser xcond :=
    prefix_decorated cond_upd ws (tag (lit "if") ;; pmap (XForCond no_meta) (decorated_expr (r_expr R nl))).
  (** expr.rs:602-620 *)
  Definition for_expr_or_items {A} (f i : parser A) : parser A :=
    fun s => match (ws ;; tag (lit "for") ;;
                    one_of (fun c => (c =? 32) || (c =? 9) || (c =? 35) || (c =? 47) || (c =? 10))) s with
             | POk _ _ => f s
             | PErr _ _ => i s
             | PPanic => PPanic
             | PFuel => PFuel
             end.
  (** expr.rs:393-412 *)
  Definition for_list_expr (nl : bool) : parser xexpr :=
    '(im, (kv, vv, coll)) <- for_intro ;; e <- decorated_expr (r_expr R nl) ;; c <- opt (for_cond nl) ;;
    ret (XFor no_meta im kv vv coll None e false c).
  (** expr.rs:414-436 *)
  Definition array_items (nl : bool) : parser xexpr :=
    l <- separated0 (decorated_expr (pnot (char 93) ;; r_expr R nl)) (char 44) ;;
    c <- opt (char 44) ;; t <- raw_string ws ;;
    ret (XArr no_meta l (match c with Some _ => true | None => false end) t).
  (** expr.rs:379-391: the flag is set for the rest of the state's life. *)
  Definition array : parser xexpr :=
    char 91 ;; e <- for_expr_or_items (for_list_expr true) (array_items true) ;; cut (char 93) ;; ret e.

  (** expr.rs:451-485; the second component is the flag afterwards *)
  Definition for_object_expr : parser (xexpr * bool) :=
    '(im, (kv, vv, coll)) <- for_intro ;;
    k <- decorated_expr (r_expr R false) ;; cut (tag (lit "=>")) ;; e <- decorated_expr (r_expr R false) ;;
    g <- opt (tag (lit "...") ;; raw_string ws) ;;
    c <- opt (for_cond true) ;;
    ret (match g, c with
         | None, _ => XFor no_meta im kv vv coll (Some k) e false c
         | Some t, Some c => XFor no_meta im kv vv coll (Some k) e true (Some (cond_upd (set_prefix t) c))
         | Some t, None => XFor (set_suffix t no_meta) im kv vv coll (Some k) e true None
         end, true).
  (** expr.rs:561-578: a variable becomes an identifier key. *)
  Definition key_of_expr (e : xexpr) : xkey :=
    match e with XVar _ x => XKId (Did no_meta x) | _ => XKExpr e end.
  Definition object_key : parser xkey := suffix_decorated key_upd (pmap key_of_expr (r_expr R false)) sp.
  (** expr.rs:590-600 *)
  Definition object_value_assignment : parser assign :=
    c <- any ;; if c =? 61 then ret AEquals else if c =? 58 then ret AColon else cut fail.
  (** expr.rs:534-539 *)
  Definition extend_suffix (sp : bspan) (e : xexpr) : xexpr :=
    let sp' := match d_suffix (m_decor (x_meta e)) with Some (RSpanned a _) => (a, snd sp) | _ => sp end in
    x_upd (set_suffix (raw_of_span sp')) e.
  (** expr.rs:509-553: the value and what ends it; [true] at the end of the object *)
  Definition item_end (v : xexpr) : parser (xexpr * oterm * bool) :=
    c <- peek any ;;
    if c =? 125 then ret (v, TNone, true)
    else if c =? 13 then tag [13; 10] ;; ret (v, TNewline, false)
    else if c =? 10 then char 10 ;; ret (v, TNewline, false)
    else if c =? 44 then any ;; ret (v, TComma, false)
    else if (c =? 35) || (c =? 47) then
      s <- pspan line_comment ;; line_ending ;; ret (extend_suffix s v, TNewline, false)
    else cut fail.
  (** expr.rs:503-505, 580-588 and 509-556: one object item *)
  Definition object_item (trailing : raw) : parser (xitem * bool) :=
    k <- object_key ;; a <- object_value_assignment ;; v <- decorated x_upd sp (r_expr R false) sp ;;
    '(v, t, e) <- item_end v ;;
    ret (XItem (key_upd (set_prefix trailing) k) a v t, e).
  (** expr.rs:493-557 *)
  Fixpoint object_loop (n : nat) (acc : list xitem) : parser xexpr :=
    match n with
    | O => fun _ => PFuel
    | S n =>
        trailing <- raw_string ws ;;
        c <- peek any ;;
        if c =? 125 then ret (XObj no_meta acc trailing)
        else
          '(i, last) <- object_item trailing ;;
          if (last : bool) then ret (XObj no_meta (obj_add i acc) REmpty) else object_loop n (obj_add i acc)
    end.
  Definition object_items : parser xexpr := fun s => object_loop (S (List.length (snd s))) [] s.
  (** expr.rs:438-449 *)
  Definition object (nl : bool) : parser (xexpr * bool) :=
    char 123 ;; e <- for_expr_or_items for_object_expr (pmap (fun e => (e, nl)) object_items) ;;
    cut (char 125) ;; ret e.

  (** expr.rs:658-670 *)
  Definition parenthesis : parser xexpr :=
    cut (char 40) ;; e <- decorated_expr (r_expr R true) ;; cut (char 41) ;; ret (XParen no_meta e).

  (** expr.rs:704-715 *)
  Definition heredoc_start : parser (bool * str) :=
    tag (lit "<<") ;; i <- opt (char 45) ;; d <- cut str_ident ;; cut line_ending ;;
    ret (match i with Some _ => true | None => false end, d).
  (** [HeredocTemplate::dedent] (template/mod.rs:209-212, 402-436) replaces literals in place. *)
  Definition to_tel (e : xelem) : tel (option bspan + xelem) :=
    match e with XLit _ s => TLit s | e => TOther (inr e) end.
  Fixpoint put_lits (es : list xelem) (ts : list (tel (option bspan + xelem))) : list xelem :=
    match es, ts with
    | XLit sp _ :: es, TLit s :: ts => XLit sp s :: put_lits es ts
    | e :: es, _ :: ts => e :: put_lits es ts
    | _, _ => []
    end.
  Definition tpl_dedent (es : list xelem) : list xelem * option nat :=
    let '(ts, i) := dedent (map to_tel es) in (put_lits es ts, i).
  (** expr.rs:672-702 *)
  Definition heredoc : parser xexpr :=
    '(indented, delim) <- heredoc_start ;;
    '(es, s) <- with_span (heredoc_template delim) ;;
    tr <- raw_string (space0 ;; ret tt) ;;
    cut (tag delim ;; pnot (one_of (is_id_continue u))) ;;
    ret (let '(es, i) := if indented : bool then tpl_dedent es else (es, None) in
         XHeredoc no_meta delim (XTempl es (Some s)) i tr).

  (** expr.rs:773-792 *)
  Definition func_namespace_components (nl : bool) : parser (list did) :=
    many1 (tag (lit "::") ;; decorated did_upd (ws_or_sp nl) (cut ident) (ws_or_sp nl)).
  (** expr.rs:794-849; [true] is the trailer "...", [false] is "," *)
  Definition trailer : parser bool :=
    c <- any ;; if c =? 44 then ret false else if c =? 46 then cut (tag (lit "..")) ;; ret true else fail.
  Definition func_args : parser (list xexpr * bool * bool * raw) :=
    cut (char 40) ;;
    o <- opt (l <- separated1
                (decorated_expr (peek (one_of (fun c => negb ((c =? 44) || (c =? 46) || (c =? 41)))) ;;
                                 r_expr R true)) (char 44) ;;
              t <- opt trailer ;; ret (l, t)) ;;
    tr <- raw_string ws ;;
    cut (char 41) ;;
    ret (match o with
         | Some (l, Some true) => (l, true, false, tr)
         | Some (l, Some false) => (l, false, true, tr)
         | Some (l, None) => (l, false, false, tr)
         | None => ([], false, false, tr)
         end).
  (** The next two characters, [peek(take(2))]. *)
  Definition look2 : parser (option str) :=
    fun s => POk (if Nat.leb 2 (List.length (snd s)) then Some (firstn 2 (snd s)) else None) s.
  Definition head_is (f : N -> bool) (o : option str) : bool :=
    match o with Some (c :: _) => f c | _ => false end.
  Definition opt_seqb (o : option str) (t : str) : bool := match o with Some s => seqb s t | None => false end.
  (** expr.rs:759-764 *)
  Definition keyword (x : str) : xexpr :=
    if seqb x (lit "null") then XNull no_meta
    else if seqb x (lit "true") then XBool no_meta true
    else if seqb x (lit "false") then XBool no_meta false
    else XVar no_meta x.
  (** expr.rs:717-771 *)
  Definition identlike (nl : bool) : parser (xexpr * bool) :=
    '(x, xs) <- with_span str_ident ;;
    fun s =>
      (suffix <- pspan (ws_or_sp nl) ;;
       b <- look2 ;;
       if opt_seqb b (lit "::") || head_is (N.eqb 40) b then
         let i := Did (set_span xs (set_suffix (raw_of_span suffix) no_meta)) x in
         '(ns, name) <-
            (if opt_seqb b (lit "::") then
               l <- func_namespace_components nl ;;
               lift (match rev l with n :: r => Done (i :: rev r, n) | [] => Panic end)
             else ret ([], i)) ;;
         '(l, ex, co, tr) <- func_args ;;
         ret (XCall no_meta ns name no_meta l ex co tr, true)
       else fun _ => POk (keyword x, nl) s) s.

  (** expr.rs:137-159: the term without traversals *)
  Definition term_start (nl : bool) : parser (xexpr * bool) :=
    c <- peek any ;;
    if c =? 34 then pmap (fun e => (e, nl)) stringlike
    else if c =? 91 then pmap (fun e => (e, true)) array
    else if c =? 123 then object nl
    else if is_digit c then pmap (fun e => (e, nl)) number_expr
    else if c =? 60 then pmap (fun e => (e, nl)) heredoc
    else if c =? 45 then pmap (fun e => (e, nl)) (alt neg_number (unary_op nl))
    else if c =? 33 then pmap (fun e => (e, nl)) (unary_op nl)
    else if c =? 40 then pmap (fun e => (e, nl)) parenthesis
    else if is_id_start u c then identlike nl
    else cut fail.
  (** expr.rs:131-190 *)
  Definition expr_term (nl : bool) : parser (xexpr * bool) :=
    start <- pos ;;
    '((e, nl), s) <- with_span (term_start nl) ;;
    let e := x_upd (set_span s) e in
    fun s0 =>
      (suffix <- pspan (ws_or_sp nl) ;;
       b <- look2 ;;
       if negb (opt_seqb b (lit "..")) && head_is (fun c => (c =? 46) || (c =? 91)) b then
         '(ops, s) <- with_span (traversal nl) ;;
         ret (x_upd (set_span (start, snd s))
                (XTrav no_meta (x_upd (set_suffix (raw_of_span suffix)) e) ops), nl)
       else fun _ => POk (e, nl) s0) s0.

  (** expr.rs:108-113 *)
  Definition binop_ahead (b : option str) : bool :=
    negb (opt_seqb b (lit "//") || opt_seqb b (lit "/*")) &&
    (opt_seqb b (lit "==") ||
     head_is (fun c => (c =? 33) || (c =? 60) || (c =? 62) || (c =? 43) || (c =? 45) || (c =? 42)
                       || (c =? 47) || (c =? 37) || (c =? 38) || (c =? 124)) b).
  (** expr.rs:82-127 *)
  Fixpoint expr_loop (n : nat) (nl : bool) (start : N) (e : xexpr) (s0 : st) : pres xexpr :=
    match n with
    | O => PFuel
    | S n =>
        (suffix <- pspan (ws_or_sp nl) ;;
         b <- look2 ;;
         if head_is (N.eqb 63) b then
           '((t, f), s) <- with_span (conditional nl) ;;
           ret (x_upd (set_span (start, snd s))
                  (XCond no_meta (x_upd (set_suffix (raw_of_span suffix)) e) t f))
         else if binop_ahead b then
           fun _ =>
             ('(ops, s) <- with_span (binary_ops nl) ;;
              match group e ops with
              | Some e => fun s0 => expr_loop n nl start (x_upd (set_span (start, snd s)) e) s0
              | None => fun _ => PFuel
              end) s0
         else fun _ => POk e s0) s0
    end.
  (** expr.rs:74-80 *)
  Definition pexpr (nl : bool) : parser xexpr :=
    start <- pos ;; '(e, nl) <- expr_term nl ;; fun s => expr_loop (S (List.length (snd s))) nl start e s.

  (** ** Structures, parser/structure.rs *)

  (** structure.rs:126-132 *)
  Definition attribute_expr : parser xexpr := cut (char 61) ;; prefix_decorated x_upd sp (r_expr R false).
  (** structure.rs:134-144 *)
  Definition block_label : parser xlabel := alt (pmap (XLStr no_meta) pstring) (pmap XLId ident).
  Definition block_labels : parser (list xlabel) := many0 (suffix_decorated label_upd block_label sp).
  (** structure.rs:154 *)
  Definition sp_comment : parser unit := sp ;; opt line_comment ;; ret tt.
  Definition oneline_attr : parser xstruct :=
    decorated struct_upd sp
      (k <- suffix_decorated did_upd ident sp ;; v <- attribute_expr ;; ret (XAttr no_meta k v)) sp.
  (** structure.rs:146-174 *)
  Definition block_body : parser xbody :=
    cut (char 123) ;;
    x <- alt (prefix_decorated body_upd sp_comment (line_ending ;; r_body R))
             (a <- opt oneline_attr ;; s <- raw_string sp ;;
              ret (XBody (set_suffix s no_meta) (match a with Some a => [a] | None => [] end) true false)) ;;
    cut (char 125) ;; ret x.

  (** structure.rs:57-124, with the keys seen so far ([BodyParseState::attribute_keys]) and their new
      value *)
  Definition structure (keys : list str) : parser (xstruct * list str) :=
    start <- pos ;;
    fun s0 =>
      (peek (one_of (is_id_start u)) ;;
       '(x, xs) <- with_span (cut str_ident) ;;
       suffix <- raw_string sp ;;
       c <- peek any ;;
       let i := Did (set_span xs (set_suffix suffix no_meta)) x in
       if c =? 61 then
         if existsb (seqb x) keys then fun _ => PErr true s0
         else v <- attribute_expr ;; e <- pos ;; ret (XAttr (set_span (start, e) no_meta) i v, x :: keys)
       else if c =? 123 then
         bd <- block_body ;; e <- pos ;; ret (XBlock (set_span (start, e) no_meta) i [] bd, keys)
       else if (c =? 34) || is_id_start u c then
         ls <- block_labels ;; bd <- block_body ;; e <- pos ;;
         ret (XBlock (set_span (start, e) no_meta) i ls bd, keys)
       else cut fail) s0.

  (** structure.rs:28-44: one iteration; the last component tells whether it ended at the end of the
      input. *)
  Definition body_item (keys : list str) : parser (xstruct * list str * bool) :=
    a <- pspan ws ;; '(x, keys) <- structure keys ;; z <- pspan sp_comment ;;
    e <- cut (alt (line_ending ;; ret false) (eof ;; ret true)) ;;
    ret (struct_upd (fun m => set_suffix (raw_of_span z) (set_prefix (raw_of_span a) m)) x, keys, e).
  (** structure.rs:26-45: [repeat(0..)], with the state of [BodyParseState] threaded through *)
  Fixpoint body_loop (n : nat) (keys : list str) (omit : bool) (s : st) : pres (list xstruct * bool) :=
    match n with
    | O => PFuel
    | S n =>
        match body_item keys s with
        | POk (x, keys, e) s' =>
            if Nat.eqb (List.length (snd s')) (List.length (snd s)) then PPanic
            else match body_loop n keys (omit || e) s' with
                 | POk (l, o) s => POk (x :: l, o) s
                 | PErr c s => PErr c s
                 | PPanic => PPanic
                 | PFuel => PFuel
                 end
        | PErr false _ => POk ([], omit) s
        | PErr true s => PErr true s
        | PPanic => PPanic
        | PFuel => PFuel
        end
    end.
  (** structure.rs:22-55 *)
  Definition pbody : parser xbody :=
    '((l, omit), s) <- with_span (fun s => body_loop (S (List.length (snd s))) [] false s) ;;
    suffix <- raw_string ws ;;
    ret (XBody (set_suffix suffix (set_span s no_meta)) l false omit).

  (** One level of the recursion. *)
  Definition unroll : recs :=
    Recs pexpr (fun nl => pmap fst (expr_term nl)) ptemplate pbody.
End Parser.

Section Entry.
  Context (u : unicode) (b : build) (parse_f64 : str -> f64).
  Context (group : xexpr -> list (oper * xexpr) -> option xexpr).
  Context (obj_add : xitem -> list xitem -> list xitem).
  Fixpoint recs_at (n : nat) : recs :=
    match n with
    | O => Recs (fun _ _ => PFuel) (fun _ _ => PFuel) (fun _ => PFuel) (fun _ => PFuel)
    | S n => unroll u b parse_f64 group obj_add (recs_at n)
    end.
  (** Every recursive call is made after at least one character was consumed, so this many levels
      are enough. *)
  Definition top (input : str) : recs := recs_at (S (List.length input)).
  Definition parse_body_raw (input : str) : parsed xbody := parse (r_body (top input)) input.
  Definition parse_expr_raw (input : str) : parsed xexpr := parse (r_expr (top input) false) input.
  Definition parse_tpl_raw (input : str) : parsed xtpl :=
    parse (pmap (fun es => XTempl es None) (r_tpl (top input))) input.
  (** parser/mod.rs:37-65: parse, then [despan]. *)
  Definition finish {A} (despan : A -> res A) (r : parsed A) : parsed A :=
    match r with Parsed a => match despan a with Done a => Parsed a | Panic => ParsePanic end | r => r end.
  Definition parse_body_with (input : str) : parsed xbody := finish (body_despan input) (parse_body_raw input).
  Definition parse_expr_with (input : str) : parsed xexpr := finish (x_despan input) (parse_expr_raw input).
  Definition parse_tpl_with (input : str) : parsed xtpl := finish (tpl_despan input) (parse_tpl_raw input).
End Entry.

(** The functions exported by the crate. *)
Definition parse_body u b pf := parse_body_with u b pf pratt_group items_insert.
Definition parse_expr u b pf := parse_expr_with u b pf pratt_group items_insert.
Definition parse_template u b pf := parse_tpl_with u b pf pratt_group items_insert.

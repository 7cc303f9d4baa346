(** * Printing hcl-edit syntax trees

    Models crates/hcl-edit/src/encode/{mod,expr,template,structure}.rs and the [Display]
    implementations which use them.  Writing to a [String] cannot fail, so [fmt::Result] is left out.
    The only state besides the output is the flag [EncodeState::escape]. *)
From Coq Require Import NArith ZArith Bool String List.
From Verif Require Import Res Str Dec NumberModel PrimModel DedentModel EAst.
Import ListNotations.
Open Scope N_scope.

(** An encoder takes the flag [escape] and returns the text written and the flag afterwards. *)
Definition out := bool -> str * bool.
Definition wr (s : str) : out := fun b => (s, b).
Definition cat (f g : out) : out :=
  fun b => let '(s, b) := f b in let '(t, b) := g b in (s ++ t, b).
Infix ">>>" := cat (at level 60, right associativity).
Fixpoint cats (l : list out) : out := match l with [] => wr [] | f :: l => f >>> cats l end.
(** [EncodeState::escaped], encode/mod.rs:33-41: sets the flag, and then clears it whatever it was. *)
Definition escaped (f : out) : out := fun _ => (fst (f true), false).

(** encode/mod.rs:9-12 *)
Definition SP : str := [32].
Definition NO : str * str := ([], []).
Definition LEADING : str * str := (SP, []).
Definition TRAILING : str * str := ([], SP).
Definition BOTH : str * str := (SP, SP).

(** [encode_decorated], encode/mod.rs:107-123. *)
Definition deco (d : decor) (df : str * str) (f : out) : out :=
  wr (enc_prefix d (fst df)) >>> f >>> wr (enc_suffix d (snd df)).
(** [Ident], encode/mod.rs:101-105. *)
Definition enc_did (df : str * str) (i : did) : out := deco (m_decor (i_meta i)) df (wr (i_name i)).

(** [encode_escaped], encode/mod.rs:132-149. *)
Definition escape_char (c : chr) : str :=
  if c =? 8 then lit "\b"
  else if c =? 9 then lit "\t"
  else if c =? 10 then lit "\n"
  else if c =? 12 then lit "\f"
  else if c =? 13 then lit "\r"
  else if c =? 34 then [92; 34]
  else if c =? 92 then lit "\\"
  else if (c <=? 31) || (c =? 127) then lit "\u" ++ hex4 c
  else [c].
Definition encode_escaped (s : str) : str := flat_map escape_char s.
(** [encode_quoted_string], encode/mod.rs:125-130. *)
Definition quoted (s : str) : str := [34] ++ encode_escaped (escape_markers s) ++ [34].

(** [encode_strip], encode/template.rs:181-196. *)
Definition enc_strip (marker : str) (s : strip) (f : out) : out :=
  wr marker >>> wr (if strip_start s then lit "~" else []) >>> f >>>
  wr (if strip_end s then lit "~" else []) >>> wr (lit "}").

(** A list whose elements after the first are preceded by a comma and have a leading space by
    default (encode/expr.rs:59-67, 208-217). *)
Definition comma_sep {A} (f : str * str -> A -> out) (l : list A) : out :=
  match l with
  | [] => wr []
  | x :: l => f NO x >>> cats (map (fun y => wr [44] >>> f LEADING y) l)
  end.

(** [writeln!] and [write!] of the delimiter write its text. *)
Section Enc.
  (** [Display] of a floating point number: [ryu], hcl-primitives/src/number.rs:384-392. *)
  Context (show_f64 : f64 -> str).

  Definition show_num (n : num) : str :=
    match n with PosInt z => show_Z z | NegInt z => show_Z z | NFloat f => show_f64 f end.

  (** [EncodeDecorated], encode/mod.rs:51-58, encode/expr.rs:24-47, given the encoders of
      undecorated nodes. *)
  Definition xdec (core : xexpr -> out) (df : str * str) (e : xexpr) : out :=
    deco (m_decor (x_meta e)) df (core e).

  (** The text of a node without its own decor. *)
  Fixpoint x_core (e : xexpr) : out :=
    match e with
    | XNull _ => wr (lit "null")                                          (* expr.rs:12-16 *)
    | XBool _ b => wr (if b then lit "true" else lit "false")             (* mod.rs:83-87 *)
    | XNum _ n r => wr (match r with Some r => raw_enc r [] | None => show_num n end)  (* mod.rs:70-81 *)
    | XStr _ s => wr (quoted s)                                           (* expr.rs:30-32 *)
    | XArr _ l c t =>                                                     (* expr.rs:57-80 *)
        wr (lit "[") >>> comma_sep (xdec x_core) l >>>
        wr (match l with [] => [] | _ => if c then lit "," else [] end) >>> wr (raw_enc t []) >>> wr (lit "]")
    | XObj _ l t =>                                                       (* expr.rs:82-94 *)
        wr (lit "{") >>> cats (map item_enc l) >>> wr (raw_enc t []) >>> wr (lit "}")
    | XTpl _ t =>                                                         (* template.rs:17-29 *)
        wr [34] >>> escaped (cats (map elem_enc t)) >>> wr [34]
    | XHeredoc _ d t i r =>                                               (* template.rs:31-56 *)
        wr (lit "<<") >>> wr (match i with Some _ => lit "-" | None => [] end) >>> wr d >>> wr [10] >>>
        match i with
        | Some n => wr (indent_by (fst (tpl_enc t false)) n false)
        | None => tpl_enc t
        end >>> wr (raw_enc r []) >>> wr d
    | XParen _ e => wr (lit "(") >>> xdec x_core NO e >>> wr (lit ")")    (* expr.rs:49-55 *)
    | XVar _ x => wr x
    | XCond _ c t f =>                                                    (* expr.rs:177-185 *)
        xdec x_core TRAILING c >>> wr (lit "?") >>> xdec x_core BOTH t >>> wr (lit ":") >>>
        xdec x_core LEADING f
    | XCall _ ns n am args ex co t =>                                     (* expr.rs:187-230 *)
        cats (map (fun i => enc_did NO i >>> wr (lit "::")) ns) >>> enc_did NO n >>>
        deco (m_decor am) NO
          (wr (lit "(") >>> comma_sep (xdec x_core) args >>>
           wr (match args with [] => [] | _ => if ex then lit "..." else if co then lit "," else [] end) >>>
           wr (raw_enc t []) >>> wr (lit ")"))
    | XTrav _ e ops => xdec x_core NO e >>> cats (map trop_enc ops)       (* expr.rs:253-263 *)
    | XUnary _ _ o e => wr (unop_str o) >>> xdec x_core NO e              (* expr.rs:232-237 *)
    | XBinary _ l om o r =>                                               (* expr.rs:239-251 *)
        xdec x_core NO l >>> deco (m_decor om) BOTH (wr (binop_str o)) >>> xdec x_core NO r
    | XFor _ im kv vv coll key val g cond =>                              (* expr.rs:128-168 *)
        let intro := deco (m_decor im) NO
          (wr (lit "for") >>>
           match kv with Some k => enc_did LEADING k >>> wr (lit ",") | None => wr [] end >>>
           enc_did LEADING vv >>> wr (lit "in") >>> xdec x_core BOTH coll >>> wr (lit ":")) in
        match key with
        | Some k =>
            wr (lit "{") >>> intro >>> xdec x_core BOTH k >>> wr (lit "=>") >>> xdec x_core LEADING val >>>
            wr (if g then lit "..." else []) >>>
            match cond with Some c => cond_enc c | None => wr [] end >>> wr (lit "}")
        | None =>
            wr (lit "[") >>> intro >>> xdec x_core LEADING val >>>
            match cond with Some c => cond_enc c | None => wr [] end >>> wr (lit "]")
        end
    end
  with cond_enc (c : xcond) : out :=                                      (* expr.rs:170-175 *)
    match c with
    | XForCond m e => deco (m_decor m) LEADING (wr (lit "if") >>> xdec x_core LEADING e)
    end
  with item_enc (i : xitem) : out :=                                      (* expr.rs:88-89, 105-126 *)
    match i with
    | XItem k a v t =>
        key_enc k >>> wr (match a with AColon => lit ":" | AEquals => lit "=" end) >>>
        xdec x_core LEADING v >>>
        wr (match t with TComma => lit "," | TNewline => [10] | TNone => [] end)
    end
  with key_enc (k : xkey) : out :=                                        (* expr.rs:96-103 *)
    match k with XKId i => enc_did TRAILING i | XKExpr e => xdec x_core TRAILING e end
  with trop_enc (o : xtrop) : out :=
    match o with XTrop m o => deco (m_decor m) NO (op_enc o) end
  with op_enc (o : xop) : out :=                                          (* expr.rs:265-284 *)
    match o with
    | XAttrSplat m => wr (lit ".") >>> deco (m_decor m) NO (wr (lit "*"))
    | XFullSplat m => wr (lit "[") >>> deco (m_decor m) NO (wr (lit "*")) >>> wr (lit "]")
    | XGetAttr i => wr (lit ".") >>> enc_did NO i
    | XIndex e => wr (lit "[") >>> xdec x_core NO e >>> wr (lit "]")
    | XLegacy m n => wr (lit ".") >>> deco (m_decor m) NO (wr (show_N n))
    end
  with tpl_enc (t : xtpl) : out :=                                        (* template.rs:58-66 *)
    match t with XTempl es _ => cats (map elem_enc es) end
  with elem_enc (e : xelem) : out :=
    match e with
    | XLit _ s =>                                                         (* template.rs:71-78 *)
        fun b => (if b then encode_escaped (escape_markers s) else escape_markers s, b)
    | XInterp _ e s => enc_strip (lit "${") s (xdec x_core BOTH e)        (* template.rs:85-91 *)
    | XIfD _ p c t s el ep et es =>                                       (* template.rs:102-142 *)
        enc_strip (lit "%{") s (wr (raw_enc p SP) >>> wr (lit "if") >>> xdec x_core TRAILING c) >>>
        tpl_enc t >>>
        match el with Some e => else_enc e | None => wr [] end >>>
        enc_strip (lit "%{") es (wr (raw_enc ep SP) >>> wr (lit "endif") >>> wr (raw_enc et SP))
    | XForD _ p kv vv coll t s ep et es =>                                (* template.rs:144-179 *)
        enc_strip (lit "%{") s
          (wr (raw_enc p SP) >>> wr (lit "for") >>>
           match kv with Some k => enc_did LEADING k >>> wr (lit ",") | None => wr [] end >>>
           enc_did BOTH vv >>> wr (lit "in") >>> xdec x_core BOTH coll) >>>
        tpl_enc t >>>
        enc_strip (lit "%{") es (wr (raw_enc ep SP) >>> wr (lit "endfor") >>> wr (raw_enc et SP))
    end
  with else_enc (e : xelse) : out :=                                      (* template.rs:123-132 *)
    match e with
    | XElse p tr t s =>
        enc_strip (lit "%{") s (wr (raw_enc p SP) >>> wr (lit "else") >>> wr (raw_enc tr SP)) >>> tpl_enc t
    end.
  Definition x_enc (df : str * str) (e : xexpr) : out := xdec x_core df e.

  (** encode/structure.rs:71-81 *)
  Definition label_enc (l : xlabel) : out :=
    match l with
    | XLStr m s => deco (m_decor m) TRAILING (wr (quoted s))
    | XLId i => enc_did TRAILING i
    end.

  Definition struct_meta (s : xstruct) : meta := match s with XAttr m _ _ | XBlock m _ _ _ => m end.
  Definition sdec (core : xstruct -> out) (df : str * str) (s : xstruct) : out :=
    deco (m_decor (struct_meta s)) df (core s).
  (** [Body::has_single_attribute], structure/body.rs; with [is_empty] the condition under which a
      body is printed on one line. *)
  Definition oneline_ok (l : list xstruct) : bool :=
    match l with [] => true | [XAttr _ _ _] => true | _ => false end.
  Fixpoint s_core (s : xstruct) : out :=
    match s with
    | XAttr _ k v => enc_did TRAILING k >>> wr (lit "=") >>> x_enc LEADING v   (* structure.rs:31-37 *)
    | XBlock _ i ls b =>                                                  (* structure.rs:39-69 *)
        enc_did TRAILING i >>> cats (map label_enc ls) >>> wr (lit "{") >>>
        match b with
        | XBody m l one _ =>
            deco (m_decor m) NO
              (if one && oneline_ok l
               then match l with x :: _ => sdec s_core BOTH x | [] => wr [] end
               else wr [10] >>> cats (map (fun x => sdec s_core NO x >>> wr [10]) l))
        end >>> wr (lit "}")
    end.
  Definition s_enc (df : str * str) (s : xstruct) : out := sdec s_core df s.

  (** [Encode for Body], structure.rs:8-20: the newline after the last structure may be omitted. *)
  Fixpoint structs_enc (omit : bool) (l : list xstruct) : out :=
    match l with
    | [] => wr []
    | [x] => s_enc NO x >>> wr (if omit then [] else [10])
    | x :: l => s_enc NO x >>> wr [10] >>> structs_enc omit l
    end.
  Definition body_enc (b : xbody) : out :=
    match b with XBody m l _ omit => deco (m_decor m) NO (structs_enc omit l) end.

  (** [Display] for [Expression], [Template] and [Body]: expr/mod.rs:521-526,
      template/mod.rs:445-450, structure/body.rs:695-700. *)
  Definition show_body (b : xbody) : str := fst (body_enc b false).
  Definition show_expr (e : xexpr) : str := fst (x_enc NO e false).
  Definition show_tpl (t : xtpl) : str := fst (tpl_enc t false).
End Enc.

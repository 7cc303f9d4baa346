(** * A declarative grammar of HCL with positions

    [gexpr o t e]: the text [t], found at byte offset [o], is an expression with syntax tree [e],
    where [e] has the spans and the decor (as spans) that the text dictates.  Written from the HCL
    syntax and the documentation of the syntax tree types, without reference to the parser's control
    flow: there is no backtracking, no peeking and no state.  The relation may be more liberal than
    the parser (for example in which trivia may contain newlines); ParseSound shows that every tree
    the parser returns is related to the consumed text. *)
From Coq Require Import NArith ZArith Bool String List.
From Verif Require Import Res Str Dec NumberModel PrimModel EAst ParseBase ParseModel.
Import ListNotations.
Open Scope N_scope.

(** Whitespace and comments. *)
Inductive triv : str -> Prop :=
| triv_nil : triv []
| triv_ws c t : is_multispace c = true -> triv t -> triv (c :: t)
| triv_inline body t :
    find_tag (lit "*/") (body ++ lit "*/") = Some body -> triv t ->
    triv (lit "/*" ++ body ++ lit "*/" ++ t)
| triv_hash body t : forallb not_eol body = true -> triv t -> triv ([35] ++ body ++ t)
| triv_slash body t : forallb not_eol body = true -> triv t -> triv (lit "//" ++ body ++ t).

(** The byte range of the text [t] at offset [o]; as a raw string; as the position of a node that
    has no decor yet. *)
Definition sp_of (o : N) (t : str) : bspan := (o, o + blen t).
Definition rw (o : N) (t : str) : raw := raw_of_span (sp_of o t).
Definition M (o : N) (t : str) : meta := Meta no_decor (Some (sp_of o t)).
(** Decor consisting of the texts [a], before, and [z], after a node. *)
Definition around (oa : N) (a : str) (oz : N) (z : str) (m : meta) : meta :=
  set_suffix (rw oz z) (set_prefix (rw oa a) m).

Definition eol (t : str) : Prop := t = [10] \/ t = [13; 10].
Definition opt_char (c : N) (b : bool) : str := if b then [c] else [].

(** A sequence of pieces, one after the other. *)
Inductive rep {A} (P : N -> str -> A -> Prop) : N -> str -> list A -> Prop :=
| rep_nil o : rep P o [] []
| rep_cons o t1 t2 a l : P o t1 a -> rep P (o + blen t1) t2 l -> rep P o (t1 ++ t2) (a :: l).

Section Grammar.
  Context (u : unicode) (b : build) (parse_f64 : str -> f64).
  Context (group : xexpr -> list (oper * xexpr) -> option xexpr).
  Context (obj_add : xitem -> list xitem -> list xitem).

  (** Number literals. *)
  Inductive gexpo : str -> Prop :=
  | GExpo c s d : (c = 101 \/ c = 69) -> (s = [] \/ s = [43] \/ s = [45]) ->
      forallb is_digit d = true -> d <> [] -> gexpo ([c] ++ s ++ d).
  Inductive gnum : str -> num -> Prop :=
  | GInt d : forallb is_digit d = true -> d <> [] -> (Z.of_N (digits_val d) <= u64_max)%Z ->
      gnum d (PosInt (Z.of_N (digits_val d)))
  | GFloat d r n : forallb is_digit d = true -> d <> [] ->
      (gexpo r \/ exists f x, forallb is_digit f = true /\ f <> [] /\ (x = [] \/ gexpo x) /\ r = [46] ++ f ++ x) ->
      num_from_f64 b (parse_f64 (d ++ r)) = Done (Some n) ->
      gnum (d ++ r) n.

  (** An identifier with whitespace around it. *)
  Definition gdid (o : N) (t : str) (i : did) : Prop :=
    exists a x z, t = a ++ x ++ z /\ triv a /\ is_ident u x = true /\ triv z /\
      i = Did (around o a (o + blen a + blen x) z (M (o + blen a) x)) x.
  (** The first component of a function name has only a suffix, as have the keys of attributes and the
      identifiers of blocks. *)
  Definition gsid (o : N) (t : str) (i : did) : Prop :=
    exists x z, t = x ++ z /\ is_ident u x = true /\ triv z /\
      i = Did (set_suffix (rw (o + blen x) z) (M o x)) x.
  (** A namespace separator followed by a name. *)
  Definition gns (o : N) (t : str) (i : did) : Prop :=
    exists t', t = lit "::" ++ t' /\ gdid (o + 2) t' i.

  (** Quoted strings: only the quotes matter here; the relation between the text and the value is
      the subject of the theorems on quoted strings. *)
  Definition gquoted (t : str) : Prop := exists q, t = [34] ++ q ++ [34].

  (** [gstrip]: the optional tildes of a template control sequence *)
  Definition tilde_l (s : strip) : str := opt_char 126 (strip_start s).
  Definition tilde_r (s : strip) : str := opt_char 126 (strip_end s).

  (** "%{", trivia, a keyword, trivia, "}". *)
  Definition gend (kw : str) (o : N) (t : str) (a z : raw) (s : strip) : Prop :=
    exists ta tz, t = lit "%{" ++ tilde_l s ++ ta ++ kw ++ tz ++ tilde_r s ++ [125] /\ triv ta /\ triv tz /\
      a = rw (o + 2 + blen (tilde_l s)) ta /\ z = rw (o + 2 + blen (tilde_l s) + blen ta + blen kw) tz.

  (** The variables of a [for]: one or two, the first followed by a comma if there are two. *)
  Definition gvars (o : N) (t : str) (k : option did) (v : did) : Prop :=
    (k = None /\ gdid o t v) \/
    (exists t1 t2 i, t = t1 ++ [44] ++ t2 /\ k = Some i /\ gdid o t1 i /\ gdid (o + blen t1 + 1) t2 v).

  (** The end of an object item: what belongs to the decor of the value, the terminator and its text. *)
  Definition gitem_end (z : str) (tm : oterm) (e : str) : Prop :=
    triv z /\ ((tm = TNone /\ e = []) \/ (tm = TComma /\ e = [44]) \/ (tm = TNewline /\ eol e)).

  Definition assign_str (a : assign) : str := match a with AColon => [58] | AEquals => [61] end.

  Definition cond_prefix (c : xcond) : option raw := match c with XForCond m _ => d_prefix (m_decor m) end.

  (** The parser replaces a variable used as object key by an identifier. *)
  Inductive gexpr : N -> str -> xexpr -> Prop :=
  | GKeyword o t : is_ident u t = true -> gexpr o t (x_upd (set_span (sp_of o t)) (keyword t))
  | GNum o t n : gnum t n -> gexpr o t (XNum (M o t) n (Some (raw_of_str t)))
  | GNeg o t s d n n' :
      t = [45] ++ s ++ d -> triv s -> gnum d n -> num_neg b n = Done n' ->
      gexpr o t (XNum (M o t) n' (Some (raw_of_str t)))
  | GStr o t s : gquoted t -> gexpr o t (XStr (M o t) s)
  | GArr o t tl tc tt l c :
      t = [91] ++ tl ++ tc ++ tt ++ [93] -> gargs (o + 1) tl l -> tc = opt_char 44 c -> triv tt ->
      gexpr o t (XArr (M o t) l c (rw (o + 1 + blen tl + blen tc) tt))
  | GObj o t ti tt its :
      t = [123] ++ ti ++ tt ++ [125] -> gitems (o + 1) ti its -> triv tt ->
      gexpr o t (XObj (M o t) (fold_left (fun acc i => obj_add i acc) its []) (rw (o + 1 + blen ti) tt))
  | GTpl o t te es :
      t = [34] ++ te ++ [34] -> gelems (o + 1) te es -> gexpr o t (XTpl (M o t) es)
  | GHeredoc o t d le te tr es i (indented : bool) :
      t = lit "<<" ++ opt_char 45 indented ++ d ++ le ++ te ++ tr ++ d ->
      is_ident u d = true -> eol le -> gelems (o + 2 + blen (opt_char 45 indented) + blen d + blen le) te es ->
      forallb is_space tr = true -> (indented = false -> i = None) ->
      gexpr o t (XHeredoc (M o t) d
        (XTempl es (Some (sp_of (o + 2 + blen (opt_char 45 indented) + blen d + blen le) te))) i
        (rw (o + 2 + blen (opt_char 45 indented) + blen d + blen le + blen te) tr))
  | GParen o t ti e :
      t = [40] ++ ti ++ [41] -> gdx (o + 1) ti e -> gexpr o t (XParen (M o t) e)
  | GCond o t tc z ta tb c ea eb :
      t = tc ++ z ++ [63] ++ ta ++ [58] ++ tb -> gexpr o tc c -> triv z ->
      gdx (o + blen tc + blen z + 1) ta ea -> gpx (o + blen tc + blen z + 1 + blen ta + 1) tb eb ->
      gexpr o t (XCond (M o t) (x_upd (set_suffix (rw (o + blen tc) z)) c) ea eb)
  | GCall o t tn tns tl tc tt i ns name l (ex co : bool) :
      t = tn ++ tns ++ [40] ++ tl ++ tc ++ tt ++ [41] ->
      gsid o tn i -> rep gns (o + blen tn) tns ns ->
      (i :: ns) = (removelast (i :: ns) ++ [name]) ->
      gargs (o + blen tn + blen tns + 1) tl l ->
      tc = (if ex then lit "..." else if co then [44] else []) -> (l = [] -> ex = false /\ co = false) ->
      triv tt ->
      gexpr o t (XCall (M o t) (removelast (i :: ns)) name no_meta l ex co
                   (rw (o + blen tn + blen tns + 1 + blen tl + blen tc) tt))
  | GTrav o t te z to e ops :
      t = te ++ z ++ to -> gexpr o te e -> triv z -> gtrops (o + blen te + blen z) to ops ->
      gexpr o t (XTrav (M o t) (x_upd (set_suffix (rw (o + blen te) z)) e) ops)
  | GUnary o t te op e :
      t = unop_str op ++ te -> gpx (o + 1) te e -> gexpr o t (XUnary (M o t) (Some (o, o + 1)) op e)
  | GBinary o t te to e ops e' :
      t = te ++ to -> gexpr o te e -> gops (o + blen te) to ops -> group e ops = Some e' ->
      gexpr o t (x_upd (set_span (sp_of o t)) e')
  | GForList o t ti tv tc im kv vv coll v c :
      t = [91] ++ ti ++ tv ++ tc ++ [93] -> gintro (o + 1) ti im kv vv coll ->
      gdx (o + 1 + blen ti) tv v -> gcond (o + 1 + blen ti + blen tv) tc c ->
      gexpr o t (XFor (M o t) im kv vv coll None v false c)
  | GForObject o t ti tk tv tc im kv vv coll k v c :
      t = [123] ++ ti ++ tk ++ lit "=>" ++ tv ++ tc ++ [125] -> gintro (o + 1) ti im kv vv coll ->
      gdx (o + 1 + blen ti) tk k -> gdx (o + 1 + blen ti + blen tk + 2) tv v ->
      gcond (o + 1 + blen ti + blen tk + 2 + blen tv) tc c ->
      gexpr o t (XFor (M o t) im kv vv coll (Some k) v false c)
  (** With "..." the trivia after it become the suffix of the whole expression, or replace the (empty)
      prefix of the condition. *)
  | GForGroup o t ti tk tv tt im kv vv coll k v :
      t = [123] ++ ti ++ tk ++ lit "=>" ++ tv ++ lit "..." ++ tt ++ [125] -> gintro (o + 1) ti im kv vv coll ->
      gdx (o + 1 + blen ti) tk k -> gdx (o + 1 + blen ti + blen tk + 2) tv v -> triv tt ->
      gexpr o t (XFor (set_suffix (rw (o + 1 + blen ti + blen tk + 2 + blen tv + 3) tt) (M o t))
                   im kv vv coll (Some k) v true None)
  | GForGroupCond o t ti tk tv tt tc im kv vv coll k v c :
      t = [123] ++ ti ++ tk ++ lit "=>" ++ tv ++ lit "..." ++ tt ++ tc ++ [125] ->
      gintro (o + 1) ti im kv vv coll ->
      gdx (o + 1 + blen ti) tk k -> gdx (o + 1 + blen ti + blen tk + 2) tv v -> triv tt ->
      gcond (o + 1 + blen ti + blen tk + 2 + blen tv + 3 + blen tt) tc (Some c) -> cond_prefix c = Some REmpty ->
      gexpr o t (XFor (M o t) im kv vv coll (Some k) v true
                   (Some (cond_upd (set_prefix (rw (o + 1 + blen ti + blen tk + 2 + blen tv + 3) tt)) c)))
  (** An expression with trivia before and after, or only before. *)
  with gdx : N -> str -> xexpr -> Prop :=
  | GDx o t a te z e :
      t = a ++ te ++ z -> triv a -> triv z -> gexpr (o + blen a) te e ->
      gdx o t (x_upd (around o a (o + blen a + blen te) z) (x_upd (set_span (sp_of (o + blen a) te)) e))
  with gpx : N -> str -> xexpr -> Prop :=
  | GPx o t a te e :
      t = a ++ te -> triv a -> gexpr (o + blen a) te e ->
      gpx o t (x_upd (set_prefix (rw o a)) (x_upd (set_span (sp_of (o + blen a) te)) e))
  (** Expressions separated by commas. *)
  with gargs : N -> str -> list xexpr -> Prop :=
  | GArgsNil o : gargs o [] []
  | GArgsOne o t1 t2 e l : gdx o t1 e -> gmore (o + blen t1) t2 l -> gargs o (t1 ++ t2) (e :: l)
  with gmore : N -> str -> list xexpr -> Prop :=
  | GMoreNil o : gmore o [] []
  | GMore o t1 t2 e l : gdx (o + 1) t1 e -> gmore (o + 1 + blen t1) t2 l -> gmore o ([44] ++ t1 ++ t2) (e :: l)
  (** Object items. *)
  with gitems : N -> str -> list xitem -> Prop :=
  | GItemsNil o : gitems o [] []
  | GItems o t1 t2 i l : gitem o t1 i -> gitems (o + blen t1) t2 l -> gitems o (t1 ++ t2) (i :: l)
  with gitem : N -> str -> xitem -> Prop :=
  | GItem o t p tk zk asg pv tv zv te k v tm :
      t = p ++ tk ++ zk ++ assign_str asg ++ pv ++ tv ++ zv ++ te ->
      triv p -> gexpr (o + blen p) tk k -> triv zk -> triv pv ->
      gexpr (o + blen p + blen tk + blen zk + 1 + blen pv) tv v -> gitem_end zv tm te ->
      gitem o t
        (XItem (key_upd (around o p (o + blen p + blen tk) zk)
                  (key_upd (set_span (sp_of (o + blen p) tk)) (key_of_expr k))) asg
           (x_upd (around (o + blen p + blen tk + blen zk + 1) pv
                      (o + blen p + blen tk + blen zk + 1 + blen pv + blen tv) zv)
              (x_upd (set_span (sp_of (o + blen p + blen tk + blen zk + 1 + blen pv) tv)) v)) tm)
  (** Traversal operators. *)
  with gtrops : N -> str -> list xtrop -> Prop :=
  | GTropsNil o : gtrops o [] []
  | GTrops o p t1 t2 op l :
      triv p -> gop (o + blen p) t1 op -> gtrops (o + blen p + blen t1) t2 l ->
      gtrops o (p ++ t1 ++ t2) (XTrop (set_prefix (rw o p) (M (o + blen p) t1)) op :: l)
  with gop : N -> str -> xop -> Prop :=
  | GAttrSplat o t p : t = [46] ++ p ++ [42] -> triv p ->
      gop o t (XAttrSplat (set_prefix (rw (o + 1) p) (M (o + 1 + blen p) [42])))
  | GGetAttr o t p x : t = [46] ++ p ++ x -> triv p -> is_ident u x = true ->
      gop o t (XGetAttr (Did (set_prefix (rw (o + 1) p) (M (o + 1 + blen p) x)) x))
  | GLegacy o t p d : t = [46] ++ p ++ d -> triv p -> forallb is_digit d = true ->
      (exists c r, d = c :: r /\ (c <> 48 \/ r = [])) -> (Z.of_N (digits_val d) <= u64_max)%Z ->
      gop o t (XLegacy (set_prefix (rw (o + 1) p) (M (o + 1 + blen p) d)) (digits_val d))
  | GFullSplat o t p z : t = [91] ++ p ++ [42] ++ z ++ [93] -> triv p -> triv z ->
      gop o t (XFullSplat (around (o + 1) p (o + 1 + blen p + 1) z (M (o + 1 + blen p) [42])))
  | GIndex o t te e : t = [91] ++ te ++ [93] -> gdx (o + 1) te e -> gop o t (XIndex e)
  (** Binary operators with their right operands. *)
  with gops : N -> str -> list (oper * xexpr) -> Prop :=
  | GOpsNil o : gops o [] []
  | GOps o p z op t1 t2 e l :
      triv p -> triv z -> gexpr (o + blen p + blen (binop_str op) + blen z) t1 e ->
      gops (o + blen p + blen (binop_str op) + blen z + blen t1) t2 l ->
      gops o (p ++ binop_str op ++ z ++ t1 ++ t2)
        ((around o p (o + blen p + blen (binop_str op)) z (M (o + blen p) (binop_str op)), op, e) :: l)
  (** The introduction of a [for] expression and its condition. *)
  with gintro : N -> str -> meta -> option did -> did -> xexpr -> Prop :=
  | GIntro o t p tv tc k v e :
      t = p ++ lit "for" ++ tv ++ lit "in" ++ tc ++ [58] -> triv p -> gvars (o + blen p + 3) tv k v ->
      gdx (o + blen p + 3 + blen tv + 2) tc e ->
      gintro o t (set_prefix (rw o p) (M (o + blen p) (lit "for" ++ tv ++ lit "in" ++ tc ++ [58]))) k v e
  with gcond : N -> str -> option xcond -> Prop :=
  | GNoCond o : gcond o [] None
  | GForCond o t p te e :
      t = p ++ lit "if" ++ te -> triv p -> gdx (o + blen p + 2) te e ->
      gcond o t (Some (XForCond (set_prefix (rw o p) (M (o + blen p) (lit "if" ++ te))) e))
  (** Template elements.  The relation between the text of a literal and its value is not part of the
      grammar (see the theorems on quoted strings and heredocs). *)
  with gelems : N -> str -> list xelem -> Prop :=
  | GElemsNil o : gelems o [] []
  | GElems o t1 t2 e l : gelem o t1 e -> gelems (o + blen t1) t2 l -> gelems o (t1 ++ t2) (e :: l)
  with gelem : N -> str -> xelem -> Prop :=
  | GLit o t s : t <> [] -> gelem o t (XLit (Some (sp_of o t)) s)
  | GInterp o t te e s :
      t = lit "${" ++ tilde_l s ++ te ++ tilde_r s ++ [125] -> gdx (o + 2 + blen (tilde_l s)) te e ->
      gelem o t (XInterp (Some (sp_of o t)) e s)
  | GIf o t p ti tb tl te c s es el a z s' ot :
      t = lit "%{" ++ tilde_l s ++ p ++ lit "if" ++ ti ++ tilde_r s ++ [125] ++ tb ++ tl ++ te ->
      triv p -> gdx (o + 2 + blen (tilde_l s) + blen p + 2) ti c ->
      ot = o + 2 + blen (tilde_l s) + blen p + 2 + blen ti + blen (tilde_r s) + 1 ->
      gelems ot tb es -> gelse (ot + blen tb) tl el -> gend (lit "endif") (ot + blen tb + blen tl) te a z s' ->
      gelem o t (XIfD (Some (sp_of o t)) (rw (o + 2 + blen (tilde_l s)) p) c
                   (XTempl es (Some (sp_of ot tb))) s el a z s')
  | GFor o t p tv tc tb te k v c s es a z s' ot :
      t = lit "%{" ++ tilde_l s ++ p ++ lit "for" ++ tv ++ lit "in" ++ tc ++ tilde_r s ++ [125] ++ tb ++ te ->
      triv p -> gvars (o + 2 + blen (tilde_l s) + blen p + 3) tv k v ->
      gdx (o + 2 + blen (tilde_l s) + blen p + 3 + blen tv + 2) tc c ->
      ot = o + 2 + blen (tilde_l s) + blen p + 3 + blen tv + 2 + blen tc + blen (tilde_r s) + 1 ->
      gelems ot tb es -> gend (lit "endfor") (ot + blen tb) te a z s' ->
      gelem o t (XForD (Some (sp_of o t)) (rw (o + 2 + blen (tilde_l s)) p) k v c
                   (XTempl es (Some (sp_of ot tb))) s a z s')
  with gelse : N -> str -> option xelse -> Prop :=
  | GNoElse o : gelse o [] None
  | GElse o t te tb a z s es :
      t = te ++ tb -> gend (lit "else") o te a z s -> gelems (o + blen te) tb es ->
      gelse o t (Some (XElse a z (XTempl es (Some (sp_of (o + blen te) tb))) s)).

  (** Block labels, with trivia after them. *)
  Definition glabel (o : N) (t : str) (l : xlabel) : Prop :=
    exists x z, t = x ++ z /\ triv z /\
      ((is_ident u x = true /\ l = XLId (Did (set_suffix (rw (o + blen x) z) (M o x)) x)) \/
       (gquoted x /\ exists s, l = XLStr (set_suffix (rw (o + blen x) z) (M o x)) s)).

  Definition attr_key (s : xstruct) : option str := match s with XAttr _ k _ => Some (i_name k) | _ => None end.
  (** No attribute repeats the key of an earlier one. *)
  Definition fresh (keys : list str) (s : xstruct) : Prop :=
    match attr_key s with Some k => ~ In k keys | None => True end.
  Definition add_key (keys : list str) (s : xstruct) : list str :=
    match attr_key s with Some k => k :: keys | None => keys end.

  (** Structures without the trivia around them. *)
  Inductive gstruct : N -> str -> xstruct -> Prop :=
  | GAttr o t tk te k e :
      t = tk ++ [61] ++ te -> gsid o tk k -> gpx (o + blen tk + 1) te e -> gstruct o t (XAttr (M o t) k e)
  | GBlock o t ti tl tb i ls bd :
      t = ti ++ tl ++ [123] ++ tb ++ [125] -> gsid o ti i -> rep glabel (o + blen ti) tl ls ->
      gblock (o + blen ti + blen tl + 1) tb bd -> gstruct o t (XBlock (M o t) i ls bd)
  (** What is between the braces of a block: on one line, at most one attribute; otherwise a body which
      starts on the next line. *)
  with gblock : N -> str -> xbody -> Prop :=
  | GOneLine o z : triv z -> gblock o z (XBody (set_suffix (rw o z) no_meta) [] true false)
  | GOneAttr o t p ta z z' x :
      t = p ++ ta ++ z ++ z' -> triv p -> gstruct (o + blen p) ta x -> attr_key x <> None -> triv z -> triv z' ->
      gblock o t (XBody (set_suffix (rw (o + blen p + blen ta + blen z) z') no_meta)
                    [struct_upd (around o p (o + blen p + blen ta) z) x] true false)
  | GMulti o t p le tb m l :
      t = p ++ le ++ tb -> triv p -> eol le -> gbody (o + blen p + blen le) tb (XBody m l false false) ->
      gblock o t (XBody (set_prefix (rw o p) (set_span (sp_of (o + blen p) (le ++ tb)) m)) l false false)
  with gbody : N -> str -> xbody -> Prop :=
  | GBody o t ts z l omit :
      t = ts ++ z -> gstructs [] o ts l omit -> triv z ->
      gbody o t (XBody (set_suffix (rw (o + blen ts) z) (M o ts)) l false omit)
  (** The structures of a body, each on its own line; the last line may end with the input. *)
  with gstructs : list str -> N -> str -> list xstruct -> bool -> Prop :=
  | GStructsNil ks o : gstructs ks o [] [] false
  | GStructs ks o p t1 z le t2 x l omit :
      triv p -> gstruct (o + blen p) t1 x -> fresh ks x -> triv z -> eol le ->
      gstructs (add_key ks x) (o + blen p + blen t1 + blen z + blen le) t2 l omit ->
      gstructs ks o (p ++ t1 ++ z ++ le ++ t2) (struct_upd (around o p (o + blen p + blen t1) z) x :: l) omit
  | GStructsLast ks o p t1 z x :
      triv p -> gstruct (o + blen p) t1 x -> fresh ks x -> triv z ->
      gstructs ks o (p ++ t1 ++ z) [struct_upd (around o p (o + blen p + blen t1) z) x] true.
End Grammar.

Scheme gexpr_mut := Minimality for gexpr Sort Prop
  with gdx_mut := Minimality for gdx Sort Prop
  with gpx_mut := Minimality for gpx Sort Prop
  with gargs_mut := Minimality for gargs Sort Prop
  with gmore_mut := Minimality for gmore Sort Prop
  with gitems_mut := Minimality for gitems Sort Prop
  with gitem_mut := Minimality for gitem Sort Prop
  with gtrops_mut := Minimality for gtrops Sort Prop
  with gop_mut := Minimality for gop Sort Prop
  with gops_mut := Minimality for gops Sort Prop
  with gintro_mut := Minimality for gintro Sort Prop
  with gcond_mut := Minimality for gcond Sort Prop
  with gelems_mut := Minimality for gelems Sort Prop
  with gelem_mut := Minimality for gelem Sort Prop
  with gelse_mut := Minimality for gelse Sort Prop.
Combined Scheme gexpr_all from gexpr_mut, gdx_mut, gpx_mut, gargs_mut, gmore_mut, gitems_mut, gitem_mut,
  gtrops_mut, gop_mut, gops_mut, gintro_mut, gcond_mut, gelems_mut, gelem_mut, gelse_mut.
Scheme gstruct_mut := Minimality for gstruct Sort Prop
  with gblock_mut := Minimality for gblock Sort Prop
  with gbody_mut := Minimality for gbody Sort Prop
  with gstructs_mut := Minimality for gstructs Sort Prop.
Combined Scheme gstruct_all from gstruct_mut, gblock_mut, gbody_mut, gstructs_mut.

(** * The formatter of hcl-rs

    Models crates/hcl-rs/src/format/{mod,impls,escape}.rs and [is_templated] (util.rs).

    Simplifications: the writer never fails (a [Vec<u8>]), so [Result] is left out; texts are lists
    of characters instead of UTF-8 bytes, hence the indent, an arbitrary byte string in the code, is
    a text here.  [usize] counters are unbounded above; a decrement of 0 is a panic (debug builds;
    in release builds the counter would wrap around). *)
From Coq Require Import NArith ZArith Bool String List.
From Verif Require Import Res Str Dec NumberModel PrimModel DedentModel Ast.
From Verif Require EncModel.
Import ListNotations.
Open Scope N_scope.

(** [FormatConfig], format/mod.rs:102-108, and its default, 110-120. *)
Record cfg := Cfg { c_indent : str; c_dense : bool; c_arrays : bool; c_objects : bool; c_ident_keys : bool }.
Definition default_cfg : cfg := Cfg [32; 32] false false false false.

(** [FormatState], format/mod.rs:91-100. *)
Inductive fstate := Initial | AttributeStart | AttributeEnd | BlockStart | BlockEnd | BlockBodyStart.

(** [Formatter], format/mod.rs:164-174, without the configuration. *)
Record fmt := Fmt {
  f_out : str; f_state : fstate; f_first : bool; f_indent : nat; f_has : bool; f_compact : nat;
  f_nest : list (bool * bool) }.
(** [FormatterBuilder::build], format/mod.rs:311-329. *)
Definition fresh : fmt := Fmt [] Initial false 0 false 0 [].

(** Operations on the formatter. *)
Definition fm := fmt -> res fmt.
Definition skip : fm := Done.
Definition fseq (f g : fm) : fm := fun st => rbind (f st) g.
Declare Scope fm_scope.
Notation "f ;; g" := (fseq f g) (at level 61, right associativity) : fm_scope.
Delimit Scope fm_scope with fm.
Open Scope fm_scope.
Fixpoint each (l : list fm) : fm := match l with [] => skip | f :: l => f ;; each l end.

(** [write_bytes], format/mod.rs:688-691; [write_string_fragment], 446-448. *)
Definition put (s : str) : fm := fun st =>
  Done (Fmt (f_out st ++ s) (f_state st) (f_first st) (f_indent st) (f_has st) (f_compact st) (f_nest st)).
Definition set_state (x : fstate) : fm := fun st =>
  Done (Fmt (f_out st) x (f_first st) (f_indent st) (f_has st) (f_compact st) (f_nest st)).
Definition set_first (b : bool) : fm := fun st =>
  Done (Fmt (f_out st) (f_state st) b (f_indent st) (f_has st) (f_compact st) (f_nest st)).
Definition set_has (b : bool) : fm := fun st =>
  Done (Fmt (f_out st) (f_state st) (f_first st) (f_indent st) b (f_compact st) (f_nest st)).
Definition set_indent (n : nat) : fm := fun st =>
  Done (Fmt (f_out st) (f_state st) (f_first st) n (f_has st) (f_compact st) (f_nest st)).
Definition set_compact (n : nat) : fm := fun st =>
  Done (Fmt (f_out st) (f_state st) (f_first st) (f_indent st) (f_has st) n (f_nest st)).
Definition push_nest : fm := fun st =>
  Done (Fmt (f_out st) (f_state st) (f_first st) (f_indent st) (f_has st) (f_compact st)
            ((f_first st, f_has st) :: f_nest st)).
Definition pop_nest : fm := fun st =>
  match f_nest st with
  | (a, b) :: l => Done (Fmt (f_out st) (f_state st) a (f_indent st) b (f_compact st) l)
  | [] => Done st
  end.
Definition more_indent : fm := fun st => set_indent (S (f_indent st)) st.
Definition less_indent : fm := fun st =>
  match f_indent st with O => Panic | S n => set_indent n st end.
Definition fif (b : bool) (f g : fm) : fm := if b then f else g.

(** [CharEscape] and the table [ESCAPE], format/escape.rs:19-111: like the escapes of hcl-edit, but
    for DEL, and with lower case hexadecimal digits. *)
Definition hex_lower (n : N) : chr := if n <? 10 then 48 + n else 87 + n.
Definition fesc (c : chr) : str :=
  if c =? 8 then lit "\b"
  else if c =? 9 then lit "\t"
  else if c =? 10 then lit "\n"
  else if c =? 12 then lit "\f"
  else if c =? 13 then lit "\r"
  else if c =? 34 then [92; 34]
  else if c =? 92 then [92; 92]
  else if c <=? 31 then [92; 117; 48; 48; hex_lower (c / 16); hex_lower (c mod 16)]
  else [c].
(** [write_escaped_string], format/mod.rs:452-479, and [write_quoted_string_escaped], 439-443. *)
Definition fescaped (s : str) : str := flat_map fesc (escape_markers s).
Definition fquoted (s : str) : str := [34] ++ fescaped s ++ [34].
(** [write_quoted_string], format/mod.rs:432-436. *)
Definition fraw (s : str) : str := [34] ++ s ++ [34].

(** [is_templated], util.rs:7-34.  The windows are of bytes there; a character that is not one of
    "$%{" has no such byte.  [s.len() < 3] counts bytes: a text of fewer characters but at least
    three bytes has a window with one of these, which does not match an arm except for "${" followed
    by a character of several bytes, which is three characters. *)
Fixpoint templated (skip_next : bool) (s : str) : bool :=
  match s with
  | a :: ((b :: c :: _) as s') =>
      if skip_next then templated false s'
      else if ((a =? 36) && (b =? 36) || (a =? 37) && (b =? 37)) && (c =? 123) then templated true s'
      else if ((a =? 36) || (a =? 37)) && (b =? 123) then true
      else templated false s'
  | _ => false
  end.
Definition is_templated (s : str) : bool := templated false s.

Section Format.
  (** The identifier tables, see [PrimModel]; [Display] of a floating point number, see [EncModel]. *)
  Context (u : unicode) (show_f64 : f64 -> str) (c : cfg).

  Definition fshow_num (n : num) : str := EncModel.show_num show_f64 n.

  (** [write_indent], format/mod.rs:663-669. *)
  Definition pad (n : nat) : str := concat (repeat (c_indent c) n).
  (** [write_indented], format/mod.rs:671-686. *)
  Definition indented (n : nat) (s : str) : str :=
    (match lines s with
     | [] => []
     | l :: ls => pad n ++ l ++ flat_map (fun l => [10] ++ pad n ++ l) ls
     end) ++ (if ends_nl s then [10] else []).
  Definition write_indent : fm := fun st => put (pad (f_indent st)) st.

  (** [compact_arrays], [compact_objects], [in_compact_mode], format/mod.rs:707-717. *)
  Definition in_compact (st : fmt) : bool := match f_compact st with O => false | S _ => true end.
  Definition compact_arrays (st : fmt) : bool := c_arrays c || in_compact st.
  Definition compact_objects (st : fmt) : bool := c_objects c || in_compact st.
  (** [with_compact_mode], format/mod.rs:697-705. *)
  Definition with_compact (f : fm) : fm :=
    (fun st => set_compact (S (f_compact st)) st) ;; f ;;
    (fun st => match f_compact st with O => Panic | S n => set_compact n st end).

  (** format/mod.rs:482-491 *)
  Definition begin_array : fm :=
    push_nest ;; (fun st => fif (compact_arrays st) skip more_indent st) ;; set_has false ;; set_first true ;; put (lit "[").
  (** format/mod.rs:494-509 *)
  Definition begin_array_value : fm := fun st =>
    if f_first st then
      (set_first false ;; (fun st => fif (compact_arrays st) skip (put [10] ;; write_indent) st)) st
    else if compact_arrays st then put (lit ", ") st
    else (put [44; 10] ;; write_indent) st.
  (** format/mod.rs:512-515 *)
  Definition end_array_value : fm := set_has true.
  (** format/mod.rs:518-534 *)
  Definition end_array : fm :=
    (fun st => fif (compact_arrays st) skip
       (less_indent ;; (fun st => fif (f_has st) (put [10] ;; write_indent) skip st)) st) ;;
    put (lit "]") ;; pop_nest.

  (** format/mod.rs:537-546 *)
  Definition begin_object : fm :=
    push_nest ;; (fun st => fif (compact_objects st) skip more_indent st) ;; set_has false ;; set_first true ;; put (lit "{").
  (** format/mod.rs:549-566 *)
  Definition begin_object_key : fm := fun st =>
    if f_first st then
      (set_first false ;; (fun st => fif (compact_objects st) (put [32]) (put [10] ;; write_indent) st)) st
    else if compact_objects st then put (lit ", ") st
    else (put [10] ;; write_indent) st.
  (** format/mod.rs:569-571, 574-576 *)
  Definition begin_object_value : fm := put (lit " = ").
  Definition end_object_value : fm := end_array_value.
  (** format/mod.rs:579-599 *)
  Definition end_object : fm :=
    (fun st =>
       if compact_objects st then fif (f_has st) (put [32]) skip st
       else (less_indent ;; (fun st => fif (f_has st) (put [10] ;; write_indent) skip st)) st) ;;
    put (lit "}") ;; pop_nest.

  (** [format_array] and [format_object], format/impls.rs:573-609. *)
  Definition fm_array (vs : list fm) : fm :=
    begin_array ;; each (map (fun v => begin_array_value ;; v ;; end_array_value) vs) ;; end_array.
  Definition fm_object (items : list (fm * fm)) : fm :=
    begin_object ;;
    each (map (fun i => begin_object_key ;; fst i ;; begin_object_value ;; snd i ;; end_object_value) items) ;;
    end_object.

  (** [StrKey], format/impls.rs:189-204. *)
  Definition str_key (s : str) : str := if c_ident_keys c && is_ident u s then s else fquoted s.

  (** [TemplateExpr] and [Heredoc], format/impls.rs:206-241. *)
  Definition strip_str (m : hdmode) : str := match m with HdNone => lit "<<" | HdIndent => lit "<<-" end.
  Definition fm_tplexpr (t : tplexpr) : fm :=
    match t with
    | QuotedString s => put (fraw s)
    | Heredoc d s m =>
        put (strip_str m) ;; put d ;; put [10] ;; put s ;; fif (ends_nl s) skip (put [10]) ;;
        (fun st => put (match m with HdNone => d | HdIndent => indented (f_indent st) d end) st)
    end.

  (** [FuncName], format/impls.rs:337-351. *)
  Definition fname_str (f : funcname) : str := flat_map (fun x => x ++ lit "::") (fn_namespace f) ++ fn_name f.

  (** Elements separated by ", " (format/impls.rs:316-324). *)
  Definition fm_args (l : list fm) : fm :=
    match l with [] => skip | f :: l => f ;; each (map (fun g => put (lit ", ") ;; g) l) end.

  (** [Expression] and its parts: format/impls.rs:109-137, [ObjectKey] 174-187, [Traversal] 265-305,
      [FuncCall] 307-335, [Conditional] 353-368, [Operation] 370-409, [ForExpr] 411-455. *)
  Fixpoint fm_expr (e : expr) : fm :=
    match e with
    | ENull => put (lit "null")
    | EBool b => put (if b then lit "true" else lit "false")
    | ENum n => put (fshow_num n)
    | EStr s => put (fquoted s)
    | EArr l => fm_array (map fm_expr l)
    | EObj m =>
        fm_object (map (fun p =>
          (match fst p with
           | KIdent s => put s
           | KExpr (EStr s) => put (str_key s)
           | KExpr e => fm_expr e
           end, fm_expr (snd p))) m)
    | ETpl t => fm_tplexpr t
    | EVar x => put x
    | ETrav e ops =>
        fm_expr e ;;
        each (map (fun o =>
          match o with
          | AttrSplat => put (lit ".*")
          | FullSplat => put (lit "[*]")
          | GetAttr s => put (lit ".") ;; put s
          | Index e => put (lit "[") ;; fm_expr e ;; put (lit "]")
          | LegacyIndex n => put (lit ".") ;; put (show_N n)
          end) ops)
    | ECall f args ex =>
        put (fname_str f) ;; put (lit "(") ;; with_compact (fm_args (map fm_expr args)) ;;
        put (if ex then lit "...)" else lit ")")
    | EParen e => put (lit "(") ;; fm_expr e ;; put (lit ")")
    | ECond a b d => with_compact (fm_expr a ;; put (lit " ? ") ;; fm_expr b ;; put (lit " : ") ;; fm_expr d)
    | EUnary o e => put (unop_str o) ;; fm_expr e
    | EBinary l o r => fm_expr l ;; put (lit " ") ;; put (binop_str o) ;; put (lit " ") ;; fm_expr r
    | EFor kv vv coll key val g cond =>
        let obj := match key with Some _ => true | None => false end in
        put (if obj then lit "{" else lit "[") ;; put (lit "for ") ;;
        match kv with Some k => put k ;; put (lit ", ") | None => skip end ;;
        put vv ;; put (lit " in ") ;; fm_expr coll ;; put (lit " : ") ;;
        match key with Some k => fm_expr k ;; put (lit " => ") | None => skip end ;;
        fm_expr val ;; fif (obj && g) (put (lit "...")) skip ;;
        match cond with Some x => put (lit " if ") ;; fm_expr x | None => skip end ;;
        put (if obj then lit "}" else lit "]")
    end.

  (** [Value], format/impls.rs:139-161. *)
  Fixpoint fm_value (v : value) : fm :=
    match v with
    | VNull => put (lit "null")
    | VBool b => put (if b then lit "true" else lit "false")
    | VNum n => put (fshow_num n)
    | VStr s => put (if is_templated s then fraw s else fquoted s)
    | VArr l => fm_array (map fm_value l)
    | VObj m => fm_object (map (fun p => (put (str_key (fst p)), fm_value (snd p))) m)
    end.

  (** [format_strip], [format_interpolation], [format_directive], format/impls.rs:611-651. *)
  Definition fm_strip (s : strip) (f : fm) : fm :=
    fif (strip_start s) (put (lit "~")) skip ;; f ;; fif (strip_end s) (put (lit "~")) skip.
  Definition fm_interp (s : strip) (f : fm) : fm := put (lit "${") ;; fm_strip s f ;; put (lit "}").
  Definition fm_directive (s : strip) (f : fm) : fm :=
    put (lit "%{") ;; fm_strip s (put (lit " ") ;; f ;; put (lit " ")) ;; put (lit "}").

  (** [Template], [Element] and the directives, format/impls.rs:457-560. *)
  Fixpoint fm_elem (e : elem) : fm :=
    match e with
    | ElLit s => put (escape_markers s)
    | ElInterp e s => fm_interp s (fm_expr e)
    | ElIf a t f s1 s2 s3 =>
        fm_directive s1 (put (lit "if ") ;; fm_expr a) ;; each (map fm_elem t) ;;
        match f with
        | Some t => fm_directive s2 (put (lit "else")) ;; each (map fm_elem t)
        | None => skip
        end ;;
        fm_directive s3 (put (lit "endif"))
    | ElFor kv vv coll t s1 s2 =>
        fm_directive s1
          (put (lit "for ") ;; match kv with Some k => put k ;; put (lit ", ") | None => skip end ;;
           put vv ;; put (lit " in ") ;; fm_expr coll) ;;
        each (map fm_elem t) ;; fm_directive s2 (put (lit "endfor"))
    end.
  Definition fm_template (t : template) : fm := each (map fm_elem t).

  (** [maybe_write_newline], format/mod.rs:641-661. *)
  Definition is_start (next : fstate) : bool :=
    match next with BlockStart | AttributeStart => true | _ => false end.
  Definition newline_between (now next : fstate) : bool :=
    match now with
    | AttributeEnd => if c_dense c then false else match next with BlockStart => true | _ => false end
    | BlockEnd => if c_dense c then false else is_start next
    | BlockBodyStart => true
    | _ => false
    end.
  Definition maybe_newline (next : fstate) : fm :=
    (fun st => fif (newline_between (f_state st) next) (put [10]) skip st) ;; set_state next.
  (** format/mod.rs:602-637 *)
  Definition begin_attribute : fm := maybe_newline AttributeStart ;; write_indent.
  Definition begin_attribute_value : fm := put (lit " = ").
  Definition end_attribute : fm := set_state AttributeEnd ;; put [10].
  Definition begin_block : fm := maybe_newline BlockStart ;; write_indent.
  Definition begin_block_body : fm := more_indent ;; set_state BlockBodyStart ;; put (lit " {").
  Definition end_block : fm := set_state BlockEnd ;; less_indent ;; write_indent ;; put (lit "}" ++ [10]).

  (** [BlockLabel], format/impls.rs:95-107. *)
  Definition label_str (l : blabel) : str := match l with BLIdent s => s | BLString s => fquoted s end.
  (** [Body], [Structure], [Attribute], [Block], format/impls.rs:30-93. *)
  Fixpoint fm_struct (s : struct_) : fm :=
    match s with
    | SAttribute k e => begin_attribute ;; put k ;; begin_attribute_value ;; fm_expr e ;; end_attribute
    | SBlk i ls b =>
        begin_block ;; put i ;; each (map (fun l => put (lit " ") ;; put (label_str l)) ls) ;;
        begin_block_body ;; each (map fm_struct b) ;; end_block
    end.
  Definition fm_body (b : rbody) : fm := each (map fm_struct b).

  (** [Format::format_string], format/mod.rs:66-86: formats and drains the buffer. *)
  Definition format_string (f : fm) (st : fmt) : res (str * fmt) :=
    match f st with
    | Done st =>
        Done (f_out st, Fmt [] (f_state st) (f_first st) (f_indent st) (f_has st) (f_compact st) (f_nest st))
    | Panic => Panic
    end.
  Definition format_fresh (f : fm) : res str := rmap fst (format_string f fresh).
End Format.

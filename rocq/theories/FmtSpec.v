(** * The text of a tree, without a formatter

    [show] prints an expression by recursion alone: there is no buffer, no nesting stack and no
    mutable indentation.  [FmtProofs] proves that the formatter of [FmtModel] appends this text,
    whatever state it is in, and leaves the rest of its state unchanged. *)
From Coq Require Import NArith Bool String List.
From Verif Require Import Res Str Dec NumberModel PrimModel DedentModel Ast FmtModel.
Import ListNotations.
Open Scope N_scope.

(** A bracketed sequence: [first] comes before the first element, [sep] between two and [last] after
    the last one. *)
Definition seq_text (open first sep last close : str) (ts : list str) : str :=
  open ++ match ts with [] => [] | t :: ts => first ++ t ++ flat_map (fun t => sep ++ t) ts ++ last end ++ close.

Section Show.
  Context (u : unicode) (sf : f64 -> str) (c : cfg).

  Definition newline (n : nat) : str := [10] ++ pad c n.
  Definition arr_text (compact : bool) (n : nat) (ts : list str) : str :=
    if compact then seq_text (lit "[") [] (lit ", ") [] (lit "]") ts
    else seq_text (lit "[") (newline (S n)) ([44] ++ newline (S n)) (newline n) (lit "]") ts.
  Definition obj_text (compact : bool) (n : nat) (ts : list (str * str)) : str :=
    let item (p : str * str) := fst p ++ lit " = " ++ snd p in
    if compact then seq_text (lit "{") [32] (lit ", ") [32] (lit "}") (map item ts)
    else seq_text (lit "{") (newline (S n)) (newline (S n)) (newline n) (lit "}") (map item ts).
  (** The depth of the elements. *)
  Definition deeper (compact : bool) (n : nat) : nat := if compact then n else S n.

  Definition tplexpr_text (n : nat) (t : tplexpr) : str :=
    match t with
    | QuotedString s => fraw s
    | Heredoc d s m =>
        strip_str m ++ d ++ [10] ++ s ++ (if ends_nl s then [] else [10]) ++
        match m with HdNone => d | HdIndent => indented c n d end
    end.
  Definition args_text (ts : list str) : str :=
    match ts with [] => [] | t :: ts => t ++ flat_map (fun t => lit ", " ++ t) ts end.

  (** [k]: compact mode is on, inside of calls and conditionals; [n]: depth of the indentation. *)
  Fixpoint show (k : bool) (n : nat) (e : expr) : str :=
    match e with
    | ENull => lit "null"
    | EBool b => if b then lit "true" else lit "false"
    | ENum x => fshow_num sf x
    | EStr s => fquoted s
    | EArr l => let k' := c_arrays c || k in arr_text k' n (map (show k (deeper k' n)) l)
    | EObj m =>
        let k' := c_objects c || k in
        obj_text k' n (map (fun p =>
          (match fst p with
           | KIdent s => s
           | KExpr (EStr s) => str_key u c s
           | KExpr e => show k (deeper k' n) e
           end, show k (deeper k' n) (snd p))) m)
    | ETpl t => tplexpr_text n t
    | EVar x => x
    | ETrav e ops =>
        show k n e ++
        concat (map (fun o =>
          match o with
          | AttrSplat => lit ".*"
          | FullSplat => lit "[*]"
          | GetAttr s => lit "." ++ s
          | Index e => lit "[" ++ show k n e ++ lit "]"
          | LegacyIndex i => lit "." ++ show_N i
          end) ops)
    | ECall f args ex =>
        fname_str f ++ lit "(" ++ args_text (map (show true n) args) ++ (if ex then lit "...)" else lit ")")
    | EParen e => lit "(" ++ show k n e ++ lit ")"
    | ECond a b d => show true n a ++ lit " ? " ++ show true n b ++ lit " : " ++ show true n d
    | EUnary o e => unop_str o ++ show k n e
    | EBinary l o r => show k n l ++ lit " " ++ binop_str o ++ lit " " ++ show k n r
    | EFor kv vv coll key val g cond =>
        let obj := match key with Some _ => true | None => false end in
        (if obj then lit "{" else lit "[") ++ lit "for " ++
        match kv with Some x => x ++ lit ", " | None => [] end ++
        vv ++ lit " in " ++ show k n coll ++ lit " : " ++
        match key with Some e => show k n e ++ lit " => " | None => [] end ++
        show k n val ++ (if obj && g then lit "..." else []) ++
        match cond with Some e => lit " if " ++ show k n e | None => [] end ++
        (if obj then lit "}" else lit "]")
    end.

  Fixpoint show_value (k : bool) (n : nat) (v : value) : str :=
    match v with
    | VNull => lit "null"
    | VBool b => if b then lit "true" else lit "false"
    | VNum x => fshow_num sf x
    | VStr s => if is_templated s then fraw s else fquoted s
    | VArr l => let k' := c_arrays c || k in arr_text k' n (map (show_value k (deeper k' n)) l)
    | VObj m =>
        let k' := c_objects c || k in
        obj_text k' n (map (fun p => (str_key u c (fst p), show_value k (deeper k' n) (snd p))) m)
    end.

  Definition strip_text (s : strip) (t : str) : str :=
    (if strip_start s then lit "~" else []) ++ t ++ (if strip_end s then lit "~" else []).
  Definition interp_text (s : strip) (t : str) : str := lit "${" ++ strip_text s t ++ lit "}".
  Definition directive_text (s : strip) (t : str) : str :=
    lit "%{" ++ strip_text s (lit " " ++ t ++ lit " ") ++ lit "}".
  Fixpoint show_elem (k : bool) (n : nat) (e : elem) : str :=
    match e with
    | ElLit s => escape_markers s
    | ElInterp e s => interp_text s (show k n e)
    | ElIf a t f s1 s2 s3 =>
        directive_text s1 (lit "if " ++ show k n a) ++ concat (map (show_elem k n) t) ++
        match f with
        | Some t => directive_text s2 (lit "else") ++ concat (map (show_elem k n) t)
        | None => []
        end ++
        directive_text s3 (lit "endif")
    | ElFor kv vv coll t s1 s2 =>
        directive_text s1
          (lit "for " ++ match kv with Some x => x ++ lit ", " | None => [] end ++
           vv ++ lit " in " ++ show k n coll) ++
        concat (map (show_elem k n) t) ++ directive_text s2 (lit "endfor")
    end.
  Definition show_template (k : bool) (n : nat) (t : template) : str := concat (map (show_elem k n) t).

  (** Structures.  [st] tells what was printed before: it decides whether a blank line separates the
      structure from it, or, at the start of a block, whether the line is ended. *)
  Definition after_struct (s : struct_) : fstate :=
    match s with SAttribute _ _ => AttributeEnd | SBlk _ _ _ => BlockEnd end.
  Definition before_struct (s : struct_) : fstate :=
    match s with SAttribute _ _ => AttributeStart | SBlk _ _ _ => BlockStart end.
  Definition gap (st : fstate) (s : struct_) : str :=
    if newline_between c st (before_struct s) then [10] else [].
  Section Body.
    Context (f : struct_ -> str).
    Fixpoint body_text (st : fstate) (b : rbody) : str :=
      match b with [] => [] | s :: b => gap st s ++ f s ++ body_text (after_struct s) b end.
  End Body.
  Fixpoint show_struct (k : bool) (n : nat) (s : struct_) : str :=
    match s with
    | SAttribute key e => pad c n ++ key ++ lit " = " ++ show k n e ++ [10]
    | SBlk i ls b =>
        pad c n ++ i ++ flat_map (fun l => lit " " ++ label_str l) ls ++ lit " {" ++
        body_text (show_struct k (S n)) BlockBodyStart b ++ pad c n ++ lit "}" ++ [10]
    end.
  Definition show_body (k : bool) (n : nat) (st : fstate) (b : rbody) : str := body_text (show_struct k n) st b.
End Show.

(** ** Reading a layout *)

(** The text without the characters of a class. *)
Definition squash (f : chr -> bool) (s : str) : str := filter (fun x => negb (f x)) s.
Definition is_ws (x : chr) : bool := (x =? 32) || (x =? 9) || (x =? 10) || (x =? 13).
Definition is_ws_comma (x : chr) : bool := is_ws x || (x =? 44).
Definition is_ws_comma_quote (x : chr) : bool := is_ws_comma x || (x =? 34).

(** Every line but the first gets a prefix. *)
Definition reindent (p s : str) : str := flat_map (fun x => if x =? 10 then 10 :: p else [x]) s.

(** The parts of an expression which are copied to the text as they are; a heredoc counts as a line
    break. *)
Fixpoint verbatim (e : expr) : list str :=
  match e with
  | ENull | EBool _ | ENum _ | EStr _ => []
  | EArr l => flat_map verbatim l
  | EObj m =>
      flat_map (fun p => match fst p with KIdent s => [s] | KExpr e => verbatim e end ++ verbatim (snd p)) m
  | ETpl (QuotedString s) => [s]
  | ETpl (Heredoc _ _ _) => [[10]]
  | EVar x => [x]
  | ETrav e ops =>
      verbatim e ++ flat_map (fun o => match o with GetAttr s => [s] | Index e => verbatim e | _ => [] end) ops
  | ECall f args _ => fn_namespace f ++ [fn_name f] ++ flat_map verbatim args
  | EParen e => verbatim e
  | ECond a b d => verbatim a ++ verbatim b ++ verbatim d
  | EUnary _ e => verbatim e
  | EBinary l _ r => verbatim l ++ verbatim r
  | EFor kv vv coll key val _ cond =>
      match kv with Some x => [x] | None => [] end ++ [vv] ++ verbatim coll ++
      match key with Some e => verbatim e | None => [] end ++ verbatim val ++
      match cond with Some e => verbatim e | None => [] end
  end.
(** An expression without heredocs, and without line breaks in names and raw template strings. *)
Definition unbroken (e : expr) : Prop := Forall (fun s => ~ In 10 s) (verbatim e).

(** ** Histories *)

(** The arguments of [Format::format_string] which are considered. *)
Inductive job := JExpr (e : expr) | JValue (v : value) | JTemplate (t : template) | JStruct (s : struct_) | JBody (b : rbody).
Definition fm_job u sf c (j : job) : fm :=
  match j with
  | JExpr e => fm_expr u sf c e
  | JValue v => fm_value u sf c v
  | JTemplate t => fm_template u sf c t
  | JStruct s => fm_struct u sf c s
  | JBody b => fm_body u sf c b
  end.
(** A formatter which has been used for [hist], its buffer drained each time. *)
Fixpoint used u sf c (hist : list job) (st : fmt) : res fmt :=
  match hist with
  | [] => Done st
  | j :: hist => rbind (format_string (fm_job u sf c j) st) (fun r => used u sf c hist (snd r))
  end.
Definition structs_of (j : job) : list struct_ :=
  match j with JStruct s => [s] | JBody b => b | _ => [] end.
Definition is_block (s : struct_) : bool := match s with SBlk _ _ _ => true | _ => false end.
(** A blank line separates the last structure of the history from the first one of [j]. *)
Definition separated (c : cfg) (hist : list job) (j : job) : bool :=
  match last (map Some (flat_map structs_of hist)) None, structs_of j with
  | Some l, f :: _ => negb (c_dense c) && (is_block l || is_block f)
  | _, _ => false
  end.

(** The text of a fresh formatter, by recursion alone. *)
Definition text u sf c (j : job) : str :=
  match j with
  | JExpr e => show u sf c false 0 e
  | JValue v => show_value u sf c false 0 v
  | JTemplate t => show_template u sf c false 0 t
  | JStruct s => show_struct u sf c false 0 s
  | JBody b => show_body u sf c false 0 Initial b
  end.

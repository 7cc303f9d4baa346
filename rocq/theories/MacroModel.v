(** * The construction macros [body!], [structure!], [attribute!], [block!], [expression!] and
    [value!] (crates/hcl-rs/src/macros.rs)

    The macros are sets of rewrite rules over Rust token trees, tried in order.  The model runs the
    rules: an application of a macro is a list of token trees, the outcome is the tree that the
    generated code builds, or [None] if no rule applies, rustc reports a syntax error, or the
    generated code does not compile or panics.

    Simplifications:
    - Rust's expression syntax is a parameter: [rust_expr] splits tokens into the longest expression
      at their start and the rest; [None] is a syntax error, which ends the compilation (rustc does
      not go on to the next rule then).
    - A captured [$x:expr] is handed on as one token that only [$y:expr] matches; the model applies
      the rule it ends up in ([$other:expr], macros.rs:628-632 and 895-899) at once.
    - What the generated code computes for a Rust expression is a parameter ([other], ...).
    - The generated code runs after all rewriting; the model computes results on the way.
    - The fuel bounds the number of rewrites; rustc's recursion limit is not modelled.
    - Tokens that imitate the internal states of the munchers (those starting with [@], and a
      parenthesised block identifier followed by brackets) are not modelled: [None]. *)
From Coq Require Import NArith Bool String List.
From Verif Require Import Str PrimModel Ast.
From Verif Require MapModel.
Import ListNotations.
Open Scope N_scope.

(** ** Tokens *)
Inductive delim := Paren | Bracket | Brace.
(** Identifiers and keywords with the text [stringify!] gives, literals with their source text,
    punctuation and groups. *)
Inductive tt := TId (s : str) | TLit (s : str) | TPunct (s : str) | TGroup (d : delim) (l : list tt).

Definition is_punct (s : str) (t : tt) : bool := match t with TPunct p => seqb p s | _ => false end.
Definition COMMA : tt := TPunct (lit ",").
Definition EQUALS : tt := TPunct (lit "=").
Definition MINUS : tt := TPunct (lit "-").
Definition is_comma : tt -> bool := is_punct (lit ",").
Definition is_equals : tt -> bool := is_punct (lit "=").

(** The tokens that can start a Rust expression (rustc, [Token::can_begin_expr]); keywords that
    cannot are left to [rust_expr]: both ways end in an error. *)
Definition can_begin (t : tt) : bool :=
  match t with
  | TPunct s => existsb (seqb s) [lit "!"; lit "-"; lit "*"; lit "|"; lit "||"; lit "&"; lit "&&"; lit ".."; lit "..."; lit "..="; lit "<"; lit "<<"; lit "::"; lit "#"]
  | _ => true
  end.

(** The words the rules mention, macros.rs:430-443 and 596-606. *)
Definition word {A} (null : A) (bool_ : bool -> A) (s : str) : option A :=
  if seqb s (lit "null") then Some null
  else if seqb s (lit "true") then Some (bool_ true)
  else if seqb s (lit "false") then Some (bool_ false)
  else None.

Definition obind {A B} (x : option A) (f : A -> option B) : option B :=
  match x with Some a => f a | None => None end.

Section Macros.
  Context (rust_expr : list tt -> option (list tt * list tt)).

  (** Matching [$x:expr]. *)
  Inductive frag := NoMatch | Fatal | Match (e rest : list tt).
  Definition expr_frag (toks : list tt) : frag :=
    match toks with
    | [] => NoMatch
    | t :: _ => if can_begin t then match rust_expr toks with Some (e, r) => Match e r | None => Fatal end else NoMatch
    end.
  (** Matching a group [($x:expr)]. *)
  Definition paren_expr (l : list tt) : option (list tt) :=
    match expr_frag l with Match e [] => Some e | _ => None end.

  (** ** [expression_internal!] (macros.rs:411-633) and [value_internal!] (678-900)

      The two macros have the same rules; they differ in what is built. *)
  Section Data.
    Context {A K : Type} (null : A) (bool_ : bool -> A) (arr : list A -> A) (obj : list (K * A) -> A)
            (keqb : K -> K -> bool) (other : list tt -> option A)
            (key_ident : str -> K) (key_expr : list tt -> option K).

    Definition put (k : K) (v : A) (o : list (K * A)) : list (K * A) := fst (MapModel.insert keqb k v o).

    (** [$other:expr], macros.rs:628-632 and 895-899. *)
    Definition other_rule (toks : list tt) : option A :=
      match expr_frag toks with Match e [] => other e | _ => None end.

    (** The munchers.
        - [data]: the main rules, macros.rs:596-632 and 863-899;
        - [array acc sep toks]: the rules [@array [acc] toks], macros.rs:420-473 and 687-740; [sep]
          says that the elements which were munched are followed by a comma;
        - [object o toks]: the rules [@object object () (toks) (toks)], macros.rs:485-486, 558-562 and
          575-588 (752-753, 825-829, 842-855);
        - [entry o k toks]: the rules [@object object (k) (toks) (toks)], macros.rs:505-573 and 772-840;
        - [insert o k v toks]: the rules [@object object [k] (v) toks], macros.rs:488-503 and 755-770. *)
    Fixpoint data (n : nat) (toks : list tt) {struct n} : option A :=
      match n with
      | O => None
      | S n =>
          match toks with
          | [TId s] => match word null bool_ s with Some a => Some a | None => other_rule toks end
          | [TGroup Bracket []] => Some (arr [])
          | [TGroup Bracket l] => option_map arr (array n [] false l)
          | [TGroup Brace []] => Some (obj [])
          | [TGroup Brace l] => option_map obj (object n [] l)
          | _ => other_rule toks
          end
      end
    with array (n : nat) (acc : list A) (sep : bool) (toks : list tt) {struct n} : option (list A) :=
      match n with
      | O => None
      | S n =>
          match toks with
          | [] => Some acc
          | t :: rest =>
              let empty := match acc with [] => true | _ => false end in
              let after := if empty || negb sep then (if is_comma t then array n acc true rest else None) else None in
              let next := match expr_frag toks with
                          | Fatal => None
                          | Match e [] => obind (other e) (fun a => array n (acc ++ [a]) false [])
                          | Match e (c :: rest) =>
                              if is_comma c then obind (other e) (fun a => array n (acc ++ [a]) true rest) else after
                          | NoMatch => after
                          end in
              if empty || sep then
                match t with
                | TId s => match word null bool_ s with
                           | Some a => array n (acc ++ [a]) false rest
                           | None => next
                           end
                | TGroup Bracket _ | TGroup Brace _ => obind (data n [t]) (fun a => array n (acc ++ [a]) false rest)
                | _ => next
                end
              else after
          end
      end
    with object (n : nat) (o : list (K * A)) (toks : list tt) {struct n} : option (list (K * A)) :=
      match n with
      | O => None
      | S n =>
          match toks with
          | [] => Some o
          | TId s :: rest => entry n o (key_ident s) rest
          | TLit s :: rest => obind (key_expr [TLit s]) (fun k => entry n o k rest)
          | TPunct p :: TLit s :: rest =>
              if seqb p (lit "-") then obind (key_expr [TPunct p; TLit s]) (fun k => entry n o k rest) else None
          | TGroup Paren l :: rest => obind (obind (paren_expr l) key_expr) (fun k => entry n o k rest)
          | _ => None
          end
      end
    with entry (n : nat) (o : list (K * A)) (k : K) (toks : list tt) {struct n} : option (list (K * A)) :=
      match n with
      | O => None
      | S n =>
          match toks with
          | q :: t :: rest =>
              if is_equals q then
                let next := match expr_frag (t :: rest) with
                            | Fatal => None
                            | Match e (c :: r) =>
                                if is_comma c then obind (other e) (fun v => insert n o k v (c :: r))
                                else obind (data n [t]) (fun v => insert n o k v rest)
                            | Match _ [] | NoMatch => obind (data n [t]) (fun v => insert n o k v rest)
                            end in
                match t with
                | TId s => match word null bool_ s with
                           | Some a => insert n o k a rest
                           | None => next
                           end
                | TGroup Bracket _ | TGroup Brace _ => obind (data n [t]) (fun v => insert n o k v rest)
                | _ => next
                end
              else None
          | _ => None
          end
      end
    with insert (n : nat) (o : list (K * A)) (k : K) (v : A) (toks : list tt) {struct n} : option (list (K * A)) :=
      match n with
      | O => None
      | S n =>
          match toks with
          | t :: rest => if is_comma t then object n (put k v o) rest else object n (put k v o) toks
          | [] => object n (put k v o) []
          end
      end.
  End Data.

  (** [expression!], macros.rs:402-407.  [to_expression] is [hcl::expr::to_expression(&e).unwrap()] for
      the Rust expression [e].  Keys: [object_key!], macros.rs:359-371. *)
  Context (to_expression : list tt -> option expr).
  Definition expression_macro (n : nat) (toks : list tt) : option expr :=
    data ENull EBool EArr EObj (okey_eqb expr_eqb) to_expression
         KIdent (fun e => option_map KExpr (to_expression e)) n toks.

  (** [value!], macros.rs:669-674.  [to_value] is [hcl::value::to_value(&e).unwrap()]; a key is made a
      [String] with [into] (757, 763), [to_string] for a Rust expression. *)
  Context (to_value : list tt -> option value) (to_string : list tt -> option str).
  Definition value_macro (n : nat) (toks : list tt) : option value :=
    data VNull VBool VArr VObj seqb to_value (fun s => s) to_string n toks.

  (** ** Structures.  [to_ident] is [e.into()] at the type [Identifier] for the Rust expression [e];
      for [stringify!($key)], a string, it is [Identifier::sanitized] (ident.rs:122-126). *)
  Context (u : unicode) (to_ident : list tt -> option str).
  Definition name_of (t : tt) : option str :=
    match t with
    | TId s => Some (ident_new_sanitized u s)
    | TGroup Paren l => obind (paren_expr l) to_ident
    | _ => None
    end.

  (** [block_label!], macros.rs:339-355: one label and the tokens behind it.  The munching rules are
      those of [body_internal!] (129-142) and of [block_internal!] (304-317). *)
  Definition label (toks : list tt) : option (option blabel * list tt) :=
    match toks with
    | TId s :: rest => Some (Some (BLIdent s), rest)
    | TLit s :: rest => Some (option_map BLString (to_string [TLit s]), rest)
    | TPunct p :: TLit s :: rest =>
        if seqb p (lit "-") then Some (option_map BLString (to_string [TPunct p; TLit s]), rest) else None
    | TGroup Paren l :: rest => Some (option_map BLString (obind (paren_expr l) to_string), rest)
    | _ => None
    end.

  (** [attribute_internal!], macros.rs:247-265. *)
  Fixpoint attribute_macro (n : nat) (toks : list tt) {struct n} : option struct_ :=
    match n with
    | O => None
    | S n =>
        match toks with
        | [TGroup Brace l] => attribute_macro n l
        | k :: q :: e =>
            if is_equals q then obind (name_of k) (fun k => option_map (SAttribute k) (expression_macro n e)) else None
        | _ => None
        end
    end.

  (** - [body]: [body_internal!] without [@], macros.rs:160-168;
      - [structures acc toks]: the rules [@structures [acc] toks], macros.rs:106-121;
      - [block acc ident labels toks]: the rules [@block [acc] (ident) [labels] toks], 127-142;
      - [block_macro]: [block_internal!], macros.rs:298-337, and [block_rest ident labels toks], its rules
        [(ident) [labels] toks];
      - [structure_macro]: [structure_internal!], macros.rs:209-224. *)
  Fixpoint body_macro (n : nat) (toks : list tt) {struct n} : option rbody :=
    match n with
    | O => None
    | S n =>
        match toks with
        | [TGroup Brace l] => body_macro n l
        | _ => structures n [] toks
        end
    end
  with structures (n : nat) (acc : rbody) (toks : list tt) {struct n} : option rbody :=
    match n with
    | O => None
    | S n =>
        match toks with
        | [] => Some acc
        | k :: rest =>
            let blk := obind (name_of k) (fun i => block n acc i [] rest) in
            match rest with
            | q :: e :: rest =>
                if is_equals q then obind (structure_macro n [k; q; e]) (fun s => structures n (acc ++ [s]) rest)
                else blk
            | _ => blk
            end
        end
    end
  with block (n : nat) (acc : rbody) (i : str) (ls : list blabel) (toks : list tt) {struct n} : option rbody :=
    match n with
    | O => None
    | S n =>
        match toks with
        | TGroup Brace b :: rest =>
            obind (body_macro n b) (fun b => structures n (acc ++ [SBlk i ls b]) rest)
        | _ => obind (label toks) (fun p => obind (fst p) (fun l => block n acc i (ls ++ [l]) (snd p)))
        end
    end
  with block_rest (n : nat) (i : str) (ls : list blabel) (toks : list tt) {struct n} : option struct_ :=
    match n with
    | O => None
    | S n =>
        match toks with
        | [TGroup Brace b] => option_map (SBlk i ls) (body_macro n b)
        | _ => obind (label toks) (fun p => obind (fst p) (fun l => block_rest n i (ls ++ [l]) (snd p)))
        end
    end
  with block_macro (n : nat) (toks : list tt) {struct n} : option struct_ :=
    match n with
    | O => None
    | S n =>
        match toks with
        | [TGroup Brace l] => block_macro n l
        | k :: rest => obind (name_of k) (fun i => block_rest n i [] rest)
        | [] => None
        end
    end
  with structure_macro (n : nat) (toks : list tt) {struct n} : option struct_ :=
    match n with
    | O => None
    | S n =>
        match toks with
        | [TGroup Brace l] => structure_macro n l
        | k :: q :: _ :: _ => if is_equals q then attribute_macro n toks else block_macro n toks
        | _ => block_macro n toks
        end
    end.
End Macros.

(** * C55: the construction macros build the tree that is written *)
From Coq Require Import NArith Bool String List Lia.
From Verif Require Import Str PrimModel Ast MacroModel MacroSpec MacroProofs.
Import ListNotations.
Open Scope N_scope.
Open Scope list_scope.

(** [rust_expr] stands for Rust's expression syntax, the other parameters for what the generated code
    computes for a Rust expression. *)
Section Claims.
  Context (rust_expr : list tt -> option (list tt * list tt))
          (to_expression : list tt -> option expr) (to_value : list tt -> option value)
          (to_string to_ident : list tt -> option str) (u : unicode).

  Theorem C55_expression_partial e : ok_input rust_expr e ->
    builds (fun n => expression_macro rust_expr to_expression n (tokens e)) (expr_meaning to_expression e).
  Proof. apply input_builds. Qed.
  Theorem C55_value_partial e : ok_input rust_expr e ->
    builds (fun n => value_macro rust_expr to_value to_string n (tokens e)) (value_meaning to_value to_string e).
  Proof. apply input_builds. Qed.

  (** With or without braces around the whole. *)
  Definition braces (b : bool) (l : list tt) : list tt := if b then [TGroup Brace l] else l.
  Theorem C55_attribute_partial br k v : name_ok rust_expr u k -> ok_input rust_expr v ->
    builds (fun n => attribute_macro rust_expr to_expression u to_ident n (braces br (struct_tokens (MAttr k v))))
           (struct_meaning to_expression to_string to_ident (MAttr k v)).
  Proof.
    intros K V. pose proof (attribute_builds rust_expr to_expression to_string u to_ident k v K V).
    destruct br; [now apply attribute_braces|assumption].
  Qed.
  Theorem C55_block_partial br k ls b : struct_ok rust_expr u (MBlock k ls b) ->
    builds (fun n => block_macro rust_expr to_expression to_string u to_ident n (braces br (struct_tokens (MBlock k ls b))))
           (struct_meaning to_expression to_string to_ident (MBlock k ls b)).
  Proof. intros W. destruct br; [apply block_braces|]; now apply block_builds. Qed.
  (** In [structure!] an attribute may have any value that [expression!] takes. *)
  Theorem C55_structure_partial br s :
    match s with MAttr k v => name_ok rust_expr u k /\ ok_input rust_expr v | MBlock _ _ _ => struct_ok rust_expr u s end ->
    builds (fun n => structure_macro rust_expr to_expression to_string u to_ident n (braces br (struct_tokens s)))
           (struct_meaning to_expression to_string to_ident s).
  Proof. intros W. destruct br; [apply structure_braces|]; now apply structure_builds. Qed.
  Theorem C55_body_partial br b : body_ok rust_expr u b ->
    builds (fun n => body_macro rust_expr to_expression to_string u to_ident n (braces br (body_tokens b)))
           (body_meaning to_expression to_string to_ident b).
  Proof. intros W. destruct br; [apply body_braces|]; now apply body_builds. Qed.
End Claims.
Print Assumptions C55_expression_partial.
Print Assumptions C55_value_partial.
Print Assumptions C55_attribute_partial.
Print Assumptions C55_block_partial.
Print Assumptions C55_structure_partial.
Print Assumptions C55_body_partial.

(** ** Examples: a small part of Rust's syntax (negation, calls and assignments) *)
Fixpoint calls (l : list tt) : list tt * list tt :=
  match l with
  | TGroup Paren g :: l => let (c, r) := calls l in (TGroup Paren g :: c, r)
  | _ => ([], l)
  end.
Fixpoint toy_expr (n : nat) (l : list tt) : option (list tt * list tt) :=
  match n, l with
  | S n, TPunct p :: l => if seqb p (lit "-") then option_map (fun x => (TPunct p :: fst x, snd x)) (toy_expr n l) else None
  | S n, t :: l =>
      let (c, r) := calls l in
      match r with
      | q :: r' => if is_equals q then option_map (fun x => (t :: c ++ q :: fst x, snd x)) (toy_expr n r')
                   else Some (t :: c, r)
      | [] => Some (t :: c, [])
      end
  | _, _ => None
  end.
Definition toy (l : list tt) : option (list tt * list tt) := toy_expr (List.length l) l.
(** Literals are strings with their own text. *)
Definition toy_string (l : list tt) : option str :=
  match l with
  | [TLit s] => Some s
  | [TPunct p; TLit s] => Some (p ++ s)
  | [TGroup Paren [TPunct p; TLit s]] => Some (p ++ s)
  | _ => None
  end.
Definition toy_expression (l : list tt) : option expr := option_map EStr (toy_string l).

Lemma toy_lit s : expression toy [TLit s].
Proof. split; [split; [eexists _, _; split; reflexivity|reflexivity]|reflexivity]. Qed.
Lemma toy_minus s : expression toy [MINUS; TLit s].
Proof. split; [split; [eexists _, _; split; reflexivity|reflexivity]|reflexivity]. Qed.
Lemma toy_paren g : expression toy [TGroup Paren g].
Proof. split; [split; [eexists _, _; split; reflexivity|reflexivity]|reflexivity]. Qed.
Lemma toy_alone s : alone toy (TLit s).
Proof. intros k r (x & [-> | ->]); reflexivity. Qed.
Lemma plain_lit s : ~ special (TLit s).
Proof. intros [E|[E|[E|(l & [E|E])]]]; discriminate. Qed.
Lemma plain_minus : ~ special MINUS.
Proof. intros [E|[E|[E|(l & [E|E])]]]; discriminate. Qed.
Lemma plain_paren g : ~ special (TGroup Paren g).
Proof. intros [E|[E|[E|(l & [E|E])]]]; discriminate. Qed.

(** { a = true "b" = [1, -2,] (-3) = null c = "x" d = {}, e = -4, } *)
Definition lit_ (s : string) : mexpr := MRust [TLit (lit s)].
Definition neg (s : string) : mexpr := MRust [MINUS; TLit (lit s)].
Definition sample : mexpr :=
  MObj [(MKIdent (lit "a"), MBool true, false);
        (MKLit (lit "b"), MArr [lit_ "1"; neg "2"] true, false);
        (MKParen [MINUS; TLit (lit "3")], MNull, false);
        (MKIdent (lit "c"), lit_ "x", false);
        (MKIdent (lit "d"), MObj [], true);
        (MKIdent (lit "e"), neg "4", true)].
Example sample_ok : ok toy sample.
Proof.
  cbn. repeat first [split | exact I | discriminate | apply toy_minus | apply toy_lit | (left; reflexivity) | (right; exact I)].
  all: try (intros t r E; injection E as <- _; first [apply plain_lit | apply plain_minus]).
  all: try apply (toy_minus (lit "3")).
  right. eexists. split; [reflexivity|]. apply toy_alone.
Qed.
Definition sample_expr : expr :=
  EObj [(KIdent (lit "a"), EBool true); (KExpr (EStr (lit "b")), EArr [EStr (lit "1"); EStr (lit "-2")]);
        (KExpr (EStr (lit "-3")), ENull); (KIdent (lit "c"), EStr (lit "x")); (KIdent (lit "d"), EObj []);
        (KIdent (lit "e"), EStr (lit "-4"))].
Example sample_meaning : expr_meaning toy_expression sample = Some sample_expr.
Proof. vm_compute. reflexivity. Qed.
Example sample_built : expression_macro toy toy_expression 40 (tokens sample) = Some sample_expr.
Proof. vm_compute. reflexivity. Qed.
Example sample_value_built :
  value_macro toy (fun l => option_map VStr (toy_string l)) toy_string 40 (tokens sample) =
  Some (VObj [(lit "a", VBool true); (lit "b", VArr [VStr (lit "1"); VStr (lit "-2")]); (lit "-3", VNull);
              (lit "c", VStr (lit "x")); (lit "d", VObj []); (lit "e", VStr (lit "-4"))]).
Proof. vm_compute. reflexivity. Qed.
(** x = (-1) resource "l" (-2) id { (-3) = [] b {} } *)
Definition sample_body : list mstruct :=
  [MAttr (MName (lit "x")) (MRust [TGroup Paren [MINUS; TLit (lit "1")]]);
   MBlock (MName (lit "resource")) [MLLit (lit "l"); MLParen [MINUS; TLit (lit "2")]; MLIdent (lit "id")]
     [MAttr (MNameParen [MINUS; TLit (lit "3")]) (MArr [] false); MBlock (MName (lit "b")) [] []]].
Example sample_body_ok : body_ok toy ascii_unicode sample_body.
Proof.
  repeat constructor; cbn; eauto.
  all: try apply (toy_minus (lit "2")); try apply (toy_minus (lit "3")).
  - intros t r E. injection E as <- _. apply plain_paren.
  - discriminate.
Qed.
Example sample_body_built :
  body_macro toy toy_expression toy_string ascii_unicode toy_string 40 [TGroup Brace (body_tokens sample_body)] =
  Some [SAttribute (lit "x") (EStr (lit "-1"));
        SBlk (lit "resource") [BLString (lit "l"); BLString (lit "-2"); BLIdent (lit "id")]
          [SAttribute (lit "-3") (EArr []); SBlk (lit "b") [] []]].
Proof. vm_compute. reflexivity. Qed.

(** ** What is not built *)
Ltac fuel n := do 8 (destruct n as [|n]; [reflexivity|]).
(** { a = -1 }: the last value of an object needs a comma unless it is a single token tree; the rule
    for it (macros.rs:540-543) comes after one that takes the first token (535-538). *)
Theorem C55_last_value_refuted : expression toy [MINUS; TLit (lit "1")] /\
  (forall n, expression_macro toy toy_expression n [TGroup Brace [TId (lit "a"); EQUALS; MINUS; TLit (lit "1")]] = None) /\
  (forall n, value_macro toy (fun l => option_map VStr (toy_string l)) toy_string n [TGroup Brace [TId (lit "a"); EQUALS; MINUS; TLit (lit "1")]] = None) /\
  expression_macro toy toy_expression 9 [TGroup Brace [TId (lit "a"); EQUALS; MINUS; TLit (lit "1"); COMMA]] =
    Some (EObj [(KIdent (lit "a"), EStr (lit "-1"))]).
Proof.
  split; [apply toy_minus|]. split; [intros n; fuel n; reflexivity|]. split; [intros n; fuel n; reflexivity|].
  reflexivity.
Qed.
(** a = -1 is no body, although it is an attribute. *)
Theorem C55_body_value_refuted :
  (forall n, body_macro toy toy_expression toy_string ascii_unicode toy_string n [TId (lit "a"); EQUALS; MINUS; TLit (lit "1")] = None) /\
  attribute_macro toy toy_expression ascii_unicode toy_string 5 [TId (lit "a"); EQUALS; MINUS; TLit (lit "1")] =
    Some (SAttribute (lit "a") (EStr (lit "-1"))).
Proof. split; [intros n; fuel n; reflexivity|reflexivity]. Qed.
(** { a = x (b) = y, }: a parenthesised key is taken for the arguments of a call, the rest for an
    assignment. *)
Theorem C55_parenthesised_key_refuted f n :
  expression_macro toy f (10 + n) [TGroup Brace [TId (lit "a"); EQUALS; TId (lit "x"); TGroup Paren [TId (lit "b")]; EQUALS; TId (lit "y"); COMMA]] =
  option_map (fun v => EObj [(KIdent (lit "a"), v)]) (f [TId (lit "x"); TGroup Paren [TId (lit "b")]; EQUALS; TId (lit "y")]).
Proof. cbn. destruct (f _); reflexivity. Qed.
(** Raw identifiers: labels and object keys are not identifiers then; attribute keys are changed. *)
Theorem C55_raw_identifier_refuted :
  is_ident ascii_unicode (lit "r#type") = false /\
  block_macro toy toy_expression toy_string ascii_unicode toy_string 9 [TId (lit "b"); TId (lit "r#type"); TGroup Brace []] =
    Some (SBlk (lit "b") [BLIdent (lit "r#type")] []) /\
  expression_macro toy toy_expression 9 [TGroup Brace [TId (lit "r#type"); EQUALS; TId (lit "null")]] =
    Some (EObj [(KIdent (lit "r#type"), ENull)]) /\
  attribute_macro toy toy_expression ascii_unicode toy_string 9 [TId (lit "r#type"); EQUALS; TId (lit "null")] =
    Some (SAttribute (lit "r_type") ENull).
Proof. vm_compute. auto. Qed.

(** * Deserializing expressions, and the functions of hcl-rs put together

    Models [Deserializer for Expression] (crates/hcl-rs/src/expr/de.rs) and [ObjectKey] for the types
    that ask for whatever the data contains ([deserialize_any]), [hcl::Value] and [serde_json::Value];
    and [from_str], [from_body] (de/mod.rs) for these types. *)
From Coq Require Import NArith ZArith Bool String List.
From Verif Require Import Res Str NumberModel PrimModel Ast JsonModel EvalModel EAst ParseBase ParseModel ConvModel FmtModel.
From Verif Require MapModel.
Import ListNotations.
Open Scope list_scope.

(** Serde errors carry a message; the model keeps only that there is one. *)
Section De.
  (** [format::to_interpolated_string], and how the visitor of the target type stores a number. *)
  Context (interp : expr -> str) (visit_num : num -> value).

  (** [deserialize_any] for a visitor of [String]: expr/de.rs:303-318, 390-402 and, for keys, 1082-1090.
      The visitor (serde's [StringVisitor]) accepts strings only. *)
  Fixpoint de_string (e : expr) : option str :=
    match e with
    | EStr s => Some s
    | ETpl t => Some (tpl_text t)
    | EParen e => de_string e
    | ENull | EBool _ | ENum _ | EArr _ | EObj _ => None
    | e => Some (interp e)
    end.
  Definition de_key (k : okey expr) : option str :=
    match k with KIdent s => Some s | KExpr e => de_string e end.

  (** [next_element], [next_entry] until the end or the first error. *)
  Section All.
    Context {A B : Type} (f : A -> option B).
    Fixpoint de_all (l : list A) : option (list B) :=
      match l with
      | [] => Some []
      | x :: l => match f x with Some y => option_map (cons y) (de_all l) | None => None end
      end.
  End All.

  (** [deserialize_any] for the visitor of [Value], expr/de.rs:303-318; the visitor is
      value/de.rs:14-82 or the one of serde_json, which is the same except for numbers. *)
  Fixpoint de_any (e : expr) : option value :=
    match e with
    | ENull => Some VNull
    | EBool b => Some (VBool b)
    | ENum n => Some (visit_num n)
    | EStr s => Some (VStr s)
    | EArr l => option_map VArr (de_all de_any l)
    | EObj m =>
        option_map (fun l => VObj (MapModel.from_iter seqb l))
          (de_all (fun p => match de_key (fst p), de_any (snd p) with
                            | Some k, Some v => Some (k, v)
                            | _, _ => None
                            end) m)
    | ETpl t => Some (VStr (tpl_text t))
    | EParen e => de_any e
    | e => Some (VStr (interp e))
    end.
End De.

(** How [serde_json::Value] stores a number: [visit_u64], [visit_i64] keep the class except that
    non-negative [i64]s become [u64]s (serde_json number.rs); [visit_f64] of NaN and infinity gives
    null. *)
Definition json_num (n : num) : value :=
  match n with
  | PosInt z => VNum (PosInt z)
  | NegInt z => VNum (num_of_i64 z)
  | NFloat f => if f64_finite f then VNum (NFloat f) else VNull
  end.
(** How [hcl::Value] does, value/de.rs:26-36: floats go through [Number::from_f64].  A panic of
    [from_finite_f64] is impossible for finite floats. *)
Definition hcl_num (b : build) (n : num) : value :=
  match n with
  | PosInt z => VNum (num_of_u64 z)
  | NegInt z => VNum (num_of_i64 z)
  | NFloat f => match num_from_f64 b f with Done (Some n) => VNum n | _ => VNull end
  end.

Section Pipe.
  Context (u : unicode) (b : build) (pf : str -> f64) (sf : f64 -> str).

  (** [FormatterBuilder::compact], format/mod.rs:233-235. *)
  Definition compact_cfg : cfg := Cfg [32; 32]%N false true true false.
  (** [format::to_interpolated_string], format/mod.rs:777-787: the buffer starts with [${]. *)
  Definition interpolated (e : expr) : str :=
    lit "${" ++ match format_fresh (fm_expr u sf compact_cfg e) with Done s => s | Panic => [] end ++ lit "}".
  (** [Display for Value], value/mod.rs:203-209, and for [Number]. *)
  Definition display_value (v : value) : str :=
    match format_fresh (fm_value u sf default_cfg v) with Done s => s | Panic => [] end.
  Definition display_num (n : num) : str := fshow_num sf n.
  (** [Template::from_str], template/mod.rs:187-196, as used by the evaluator.
      A panic of the parser (C15; debug builds only) counts as an error here. *)
  Definition template_of (s : str) : option template :=
    match parse_template u b pf s with Parsed t => Some (of_tpl sf t) | _ => None end.

  (** Outcome of reading a file. *)
  Inductive outcome := OOk (v : value) | OErr | OPanic | OFuel.

  (** [hcl::from_body::<serde_json::Value>], de/mod.rs:208-213. *)
  Definition json_of_body (x : rbody) : outcome :=
    match de_any interpolated json_num (expr_of_body x) with Some v => OOk v | None => OErr end.
  (** [hcl::from_str::<Body>] and [hcl::parse]: see [ParseModel] and [ConvModel]. *)
  Definition read_body (s : str) : parsed rbody :=
    match parse_body u b pf s with
    | Parsed x => Parsed (of_body sf x)
    | ParseError o => ParseError o
    | ParsePanic => ParsePanic
    | ParseFuel => ParseFuel
    end.

  (** [Body::evaluate_in_place] with [Context::default()] (hcl2json main.rs:168-171); [n] bounds the nesting of
      templates. *)
  Definition simplify (n : nat) (x : rbody) : rbody * list EvalModel.fail :=
    in_place_body (eval b template_of display_value display_num n) new_ctx x.
End Pipe.

(** * Data of user-defined types

    Types with the usual implementations of serde's traits (derived, or those which serde has for the
    types of the standard library), what they hand to a serializer, and how they are made from what a
    deserializer shows them.  These implementations are not part of /repo: they are modelled after the
    documentation of serde 1.0 and of its derive macros.  The deserializers are those of this
    repository: [ValueDeserializer] (value/de.rs), [Deserializer for Expression] and [ObjectKey]
    (expr/de.rs) and [de::Deserializer] (de/mod.rs).  All paths are in crates/hcl-rs/src. *)
From Coq Require Import NArith ZArith Bool String List.
From Verif Require Import Res Str NumberModel PrimModel Ast JsonModel EAst ParseBase ParseModel ConvModel FmtModel DeModel SerModel.
From Verif Require MapModel.
Import ListNotations.
Open Scope list_scope.

(** ** Types *)
Inductive iw := I8 | I16 | I32 | I64 | U8 | U16 | U32 | U64.
Definition signed (w : iw) : bool := match w with I8 | I16 | I32 | I64 => true | _ => false end.
Definition int_min (w : iw) : Z :=
  match w with I8 => - 2 ^ 7 | I16 => - 2 ^ 15 | I32 => - 2 ^ 31 | I64 => - 2 ^ 63 | _ => 0 end.
Definition int_max (w : iw) : Z :=
  match w with
  | I8 => 2 ^ 7 - 1 | I16 => 2 ^ 15 - 1 | I32 => 2 ^ 31 - 1 | I64 => 2 ^ 63 - 1
  | U8 => 2 ^ 8 - 1 | U16 => 2 ^ 16 - 1 | U32 => 2 ^ 32 - 1 | U64 => 2 ^ 64 - 1
  end.
Definition in_range (w : iw) (z : Z) : bool := (int_min w <=? z)%Z && (z <=? int_max w)%Z.

(** The variants of an [enum]. *)
Inductive shape (T : Type) := ShUnit | ShNew (t : T) | ShTuple (l : list T) | ShStruct (l : list (str * T)).
Arguments ShUnit {T}. Arguments ShNew {T}. Arguments ShTuple {T}. Arguments ShStruct {T}.
(** [TSeq]: [Vec]; [TTuple]: tuples, arrays and tuple structs; [TMap]: maps which keep the order of
    insertion; [TNew]: a struct with one field without name; [TBlock]: [ser::Block] and
    [ser::LabeledBlock] (ser/blocks.rs); [TValue]: [hcl::Value].  Serde attributes ([rename] aside) are
    not modelled; neither are 128-bit integers, [f32], bytes and borrowed data. *)
Inductive ty :=
| TBool | TInt (w : iw) | TF64 | TChar | TStr | TUnit | TUnitStruct
| TOption (t : ty) | TSeq (t : ty) | TTuple (l : list ty) | TMap (k t : ty)
| TNew (name : str) (t : ty) | TStruct (name : str) (l : list (str * ty)) | TEnum (l : list (str * shape ty))
| TBlock (labeled : bool) (t : ty) | TValue.

(** Data.  [XList]: the elements of a [Vec] or a tuple, or the values of the fields of a struct in the
    order of their declaration; [XVar i l]: the [i]th variant with its fields.  A newtype struct or a
    [Block] is represented by what it wraps. *)
Inductive tv :=
| XBool (b : bool) | XInt (z : Z) | XF64 (f : f64) | XChar (c : chr) | XStr (s : str) | XUnit
| XNone | XSome (x : tv) | XList (l : list tv) | XMap (l : list (tv * tv)) | XVar (i : nat) (l : list tv)
| XValue (v : value).

(** ** [Serialize] *)
Section Zip.
  Context {T A : Type} (f : T -> tv -> A).
  Fixpoint zip (ts : list T) (xs : list tv) : list A :=
    match ts, xs with t :: ts, x :: xs => f t x :: zip ts xs | _, _ => [] end.
  (** What [f] makes of the [i]th of [ts]. *)
  Context {B : Type} (g : T -> B) (d : B).
  Fixpoint pick (ts : list T) (i : nat) : B :=
    match ts, i with
    | [], _ => d
    | t :: _, O => g t
    | _ :: ts, S i => pick ts i
    end.
End Zip.

(** Data which is not of the type fails. *)
Fixpoint ser (t : ty) (x : tv) : sd :=
  match t, x with
  | TBool, XBool b => DBool b
  | TInt w, XInt z => if signed w then DI64 z else DU64 z
  | TF64, XF64 f => DF64 f
  | TChar, XChar c => DChar c
  | TStr, XStr s => DStr s
  | TUnit, XUnit => DUnit
  | TUnitStruct, XUnit => DUnitStruct
  | TOption _, XNone => DNone
  | TOption t, XSome x => DSome (ser t x)
  | TSeq t, XList l => DSeq (map (ser t) l)
  | TTuple ts, XList l => DSeq (zip ser ts l)
  | TMap k t, XMap l => DMap (map (fun p => (ser k (fst p), ser t (snd p))) l)
  | TNew name t, x => DNewtypeStruct name (ser t x)
  | TStruct name fs, XList l => DStruct name (zip (fun f x => match f with (n, t) => (n, ser t x) end) fs l)
  | TEnum vs, XVar i l =>
      pick (fun v => match v with (n, s) =>
        match s with
        | ShUnit => DUnitVariant n
        | ShNew t => match l with [x] => DNewtypeVariant n (ser t x) | _ => DFail end
        | ShTuple ts => DTupleVariant n (zip ser ts l)
        | ShStruct fs => DStructVariant n (zip (fun f x => match f with (n, t) => (n, ser t x) end) fs l)
        end end) DFail vs i
  | TBlock labeled t, x => DMarked labeled (ser t x)
  | TValue, XValue v => sd_value v
  | _, _ => DFail
  end.

(** ** Deserializers *)

(** What can be asked: [RStr] stands for [deserialize_char], [_str], [_string] and [_identifier]; [RSeq]
    also for [_tuple] and [_tuple_struct]; [RUnit] also for [_unit_struct]; [RNum] for all numbers. *)
Inductive req := RAny | RBool | RNum | RStr | RUnit | ROption | RSeq | RMap | RStruct | RNewtype | REnum.
(** The deserializers: of values, expressions, object keys, serde's [StringDeserializer], the one of a
    whole document, and serde's deserializer for a field which is missing. *)
Inductive src := SVal (v : value) | SExp (e : expr) | SKey (k : okey expr) | SText (s : str) | STop (e : expr) | SMissing.
(** The data of an enum variant: [UnitOnly] of serde, [VariantAccess] (value/de.rs:193-230), [MapAsEnum] of
    serde with the value that comes next, [VariantAccess for ObjectKey] (expr/de.rs:1126-1160). *)
Inductive access := AUnitOnly | AVal (v : value) | AExp (e : expr) | AKey (k : okey expr).
(** The method of the visitor that is called. *)
Inductive visit :=
| VisUnit | VisBool (b : bool) | VisI64 (z : Z) | VisU64 (z : Z) | VisF64 (f : f64) | VisStr (s : str)
| VisNone | VisSome (s : src) | VisNew (s : src) | VisSeq (l : list src) | VisMap (l : list (src * src))
| VisEnum (name : src) (a : access).

(** [Deserializer for Number], hcl-primitives/src/number.rs:450-462. *)
Definition visit_number (n : num) : visit :=
  match n with PosInt z => VisU64 z | NegInt z => VisI64 z | NFloat f => VisF64 f end.

(** [ValueDeserializer], value/de.rs:113-161; an enum without entries fails in [variant_seed] (179-190). *)
Definition value_any (v : value) : visit :=
  match v with
  | VNull => VisUnit
  | VBool b => VisBool b
  | VNum n => visit_number n
  | VStr s => VisStr s
  | VArr l => VisSeq (map SVal l)
  | VObj m => VisMap (map (fun p => (SText (fst p), SVal (snd p))) m)
  end.
Definition ask_value (v : value) (r : req) : option visit :=
  match r with
  | ROption => Some (match v with VNull => VisNone | _ => VisSome (SVal v) end)
  | REnum =>
      match v with
      | VStr s => Some (VisEnum (SText s) AUnitOnly)
      | VObj ((k, x) :: _) => Some (VisEnum (SText k) (AVal x))
      | _ => None
      end
  | _ => Some (value_any v)
  end.

Section De.
  (** [format::to_interpolated_string]; how [hcl::Value] stores numbers ([hcl_num]). *)
  Context (interp : expr -> str) (visit_num : num -> value) (of_value : value -> value).

  (** [Deserializer for Expression], expr/de.rs:296-517.  [deserialize_string], 390-402. *)
  Definition expr_string (e : expr) : visit :=
    match e with
    | EStr s => VisStr s
    | ETpl t => VisStr (tpl_text t)
    | e => VisStr (interp e)
    end.
  Definition expr_seq (l : list expr) : visit := VisSeq (map SExp l).
  Definition expr_map (m : list (okey expr * expr)) : visit := VisMap (map (fun p => (SKey (fst p), SExp (snd p))) m).
  (** [deserialize_any], 303-318. *)
  Fixpoint expr_any (e : expr) : visit :=
    match e with
    | ENull => VisUnit
    | EBool b => VisBool b
    | ENum n => visit_number n
    | EStr s => VisStr s
    | EArr l => expr_seq l
    | EObj m => expr_map m
    | ETpl t => VisStr (tpl_text t)
    | EParen e => expr_any e
    | e => expr_string e
    end.
  (** Simplifications: operations and templates as enums (347-348), and conditionals, calls, [for]
      expressions, traversals, operations and templates as maps (478-483) are for the types of the crate
      itself; here they are errors. *)
  Definition ask_expr (e : expr) (r : req) : option visit :=
    match r with
    | RAny => Some (expr_any e)
    | RBool => match e with EBool b => Some (VisBool b) | _ => None end
    | RNum => match e with ENum n => Some (visit_number n) | _ => None end
    | RStr => Some (expr_string e)
    | RUnit => match e with ENull => Some VisUnit | _ => None end
    | ROption => Some (match e with ENull => VisNone | _ => VisSome (SExp e) end)
    | RSeq => match e with EArr l => Some (expr_seq l) | _ => None end
    | RMap => match e with EObj m => Some (expr_map m) | _ => None end
    | RStruct => match e with EArr l => Some (expr_seq l) | EObj m => Some (expr_map m) | _ => None end
    | RNewtype => Some (VisNew (SExp e))
    | REnum =>
        match e with
        | EStr s => Some (VisEnum (SText s) AUnitOnly)
        | EObj ((k, x) :: _) => Some (VisEnum (SKey k) (AExp x))
        | _ => None
        end
    end.
  (** [Deserializer for ObjectKey], expr/de.rs:1079-1124; the name of the variant of [ObjectKey] itself is
      the name of the variant. *)
  Definition key_any (k : okey expr) : visit := match k with KIdent s => VisStr s | KExpr e => expr_any e end.
  Definition ask_key (k : okey expr) (r : req) : option visit :=
    match r with
    | REnum => Some (VisEnum (SText (match k with KIdent _ => lit "Identifier" | KExpr _ => lit "Expression" end)) (AKey k))
    | _ => Some (key_any k)
    end.
  (** [StringDeserializer] of serde. *)
  Definition ask_text (s : str) (r : req) : option visit :=
    match r with REnum => Some (VisEnum (SText s) AUnitOnly) | _ => Some (VisStr s) end.
  (** [Deserializer], de/mod.rs:215-264, over the result of [into_json_spec]. *)
  Definition ask_top (e : expr) (r : req) : option visit :=
    match r with RNewtype => ask_expr e RNewtype | REnum => ask_expr e REnum | _ => ask_expr e RAny end.
  Definition ask (s : src) (r : req) : option visit :=
    match s with
    | SVal v => ask_value v r
    | SExp e => ask_expr e r
    | SKey k => ask_key k r
    | SText s => ask_text s r
    | STop e => ask_top e r
    | SMissing => match r with ROption => Some VisNone | _ => None end
    end.
  (** [newtype_variant_seed]; and the deserializer which [tuple_variant] and [struct_variant] ask for a
      sequence or a map. *)
  Definition variant_src (a : access) : option src :=
    match a with
    | AUnitOnly => None
    | AVal v => Some (SVal v)
    | AExp e => Some (SExp e)
    | AKey (KExpr e) => Some (SExp e)
    | AKey k => Some (SKey k)
    end.
  Definition ask_variant (a : access) (r : req) : option visit :=
    match a with
    | AUnitOnly => None
    | AVal v => ask_value v r
    | AExp e => ask_expr e r
    | AKey k => ask_key k r
    end.
  Definition unit_variant (a : access) : bool :=
    match a with
    | AUnitOnly => true
    | AVal _ => false
    | a => match ask_variant a RUnit with Some VisUnit => true | _ => false end
    end.

  (** ** [Deserialize] *)

  (** The name of a field or a variant, given as a string or as an index; [None] is an error. *)
  Fixpoint position (s : str) (l : list str) : option nat :=
    match l with [] => None | x :: l => if seqb s x then Some O else option_map S (position s l) end.
  Definition index_of (z : Z) (n : nat) : option nat :=
    if (0 <=? z)%Z && (z <? Z.of_nat n)%Z then Some (Z.to_nat z) else None.
  (** A field: one that does not exist is ignored. *)
  Definition field_ref (names : list str) (k : src) : option (option nat) :=
    match ask k RStr with
    | Some (VisStr s) => Some (position s names)
    | Some (VisU64 z) => Some (index_of z (length names))
    | _ => None
    end.
  (** A variant: one that does not exist is an error. *)
  Definition variant_ref (names : list str) (k : src) : option nat :=
    match field_ref names k with Some (Some i) => Some i | _ => None end.

  (** Equality of the keys of maps. *)
  Fixpoint key_eqb (a b : tv) : bool :=
    match a, b with
    | XBool x, XBool y => Bool.eqb x y
    | XInt x, XInt y => Z.eqb x y
    | XChar x, XChar y => N.eqb x y
    | XStr x, XStr y => seqb x y
    | XUnit, XUnit | XNone, XNone => true
    | XSome x, XSome y => key_eqb x y
    | XList x, XList y => list_eqb key_eqb x y
    | XVar i x, XVar j y => Nat.eqb i j && list_eqb key_eqb x y
    | _, _ => false
    end.

  Section Seq.
    Context {T : Type} (f : T -> src -> option tv).
    (** [next_element] for each type: too few elements are an error, what is left is ignored. *)
    Fixpoint de_tuple (ts : list T) (l : list src) : option (list tv) :=
      match ts, l with
      | [], _ => Some []
      | t :: ts, s :: l => match f t s with Some x => option_map (cons x) (de_tuple ts l) | None => None end
      | _ :: _, [] => None
      end.
    (** The fields in order, where [at_ i] are the values given for the [i]th: none is asked of
        [SMissing], two are an error. *)
    Context (at_ : nat -> list src).
    Fixpoint de_fields (i : nat) (ts : list T) : option (list tv) :=
      match ts with
      | [] => Some []
      | t :: ts =>
          match at_ i with
          | [] => match f t SMissing with Some x => option_map (cons x) (de_fields (S i) ts) | None => None end
          | [s] => match f t s with Some x => option_map (cons x) (de_fields (S i) ts) | None => None end
          | _ => None
          end
      end.
  End Seq.
  Definition values_at (refs : list (option nat * src)) (i : nat) : list src :=
    flat_map (fun r => match fst r with Some j => if Nat.eqb i j then [snd r] else [] | None => [] end) refs.
  (** A visitor of a struct: maps and sequences are accepted. *)
  Definition de_struct (f : str * ty -> src -> option tv) (fs : list (str * ty)) (v : option visit) : option (list tv) :=
    match v with
    | Some (VisSeq l) => de_tuple f fs l
    | Some (VisMap l) =>
        match de_all (fun p => option_map (fun r => (r, snd p)) (field_ref (map fst fs) (fst p))) l with
        | Some refs => de_fields f (values_at refs) 0 fs
        | None => None
        end
    | _ => None
    end.
  (** [Deserialize for Value], value/de.rs:8-93. *)
  Definition de_hcl_value (s : src) : option value :=
    match s with
    | SVal v => Some (of_value v)
    | SExp e | STop e | SKey (KExpr e) => de_any interp visit_num e
    | SKey (KIdent s) | SText s => Some (VStr s)
    | SMissing => None
    end.

  Fixpoint de (t : ty) (s : src) : option tv :=
    match t with
    | TBool => match ask s RBool with Some (VisBool b) => Some (XBool b) | _ => None end
    | TInt w =>
        match ask s RNum with
        | Some (VisI64 z) | Some (VisU64 z) => if in_range w z then Some (XInt z) else None
        | _ => None
        end
    | TF64 =>
        match ask s RNum with
        | Some (VisI64 z) | Some (VisU64 z) => Some (XF64 (f64_of_Z z))
        | Some (VisF64 f) => Some (XF64 f)
        | _ => None
        end
    | TChar => match ask s RStr with Some (VisStr [c]) => Some (XChar c) | _ => None end
    | TStr => match ask s RStr with Some (VisStr s) => Some (XStr s) | _ => None end
    | TUnit | TUnitStruct => match ask s RUnit with Some VisUnit => Some XUnit | _ => None end
    | TOption t =>
        match ask s ROption with
        | Some VisNone | Some VisUnit => Some XNone
        | Some (VisSome s) => option_map XSome (de t s)
        | _ => None
        end
    | TSeq t => match ask s RSeq with Some (VisSeq l) => option_map XList (de_all (de t) l) | _ => None end
    | TTuple ts => match ask s RSeq with Some (VisSeq l) => option_map XList (de_tuple de ts l) | _ => None end
    | TMap k t =>
        match ask s RMap with
        | Some (VisMap l) =>
            option_map (fun l => XMap (MapModel.from_iter key_eqb l))
              (de_all (fun p => match de k (fst p), de t (snd p) with Some x, Some y => Some (x, y) | _, _ => None end) l)
        | _ => None
        end
    | TNew _ t =>
        match ask s RNewtype with
        | Some (VisNew s) => de t s
        | Some (VisSeq (s :: _)) => de t s
        | _ => None
        end
    | TStruct _ fs => option_map XList (de_struct (fun f => match f with (_, t) => de t end) fs (ask s RStruct))
    | TEnum vs =>
        match ask s REnum with
        | Some (VisEnum name a) =>
            match variant_ref (map fst vs) name with
            | Some i =>
                option_map (XVar i) (pick (fun v => match v with (_, s) =>
                  match s with
                  | ShUnit => if unit_variant a then Some [] else None
                  | ShNew t => match variant_src a with Some s => option_map (fun x => [x]) (de t s) | None => None end
                  | ShTuple ts => match ask_variant a RSeq with Some (VisSeq l) => de_tuple de ts l | _ => None end
                  | ShStruct fs => de_struct (fun f => match f with (_, t) => de t end) fs (ask_variant a RMap)
                  end end) None vs i)
            | None => None
            end
        | _ => None
        end
    | TBlock _ t => de t s
    | TValue => option_map XValue (de_hcl_value s)
    end.
End De.

(** [from_value::<T>], value/mod.rs:294-299. *)
Definition from_value (b : build) (interp : expr -> str) (t : ty) (v : value) : option tv :=
  de interp (hcl_num b) (de_value b) t (SVal v).
(** [from_body::<T>], de/mod.rs:209-214, and [from_str::<T>], 90-96. *)
Definition from_body (u : unicode) (b : build) (sf : f64 -> str) (t : ty) (x : rbody) : option tv :=
  de (interpolated u sf) (hcl_num b) (de_value b) t (STop (expr_of_body x)).
Definition from_text (u : unicode) (b : build) (pf : str -> f64) (sf : f64 -> str) (t : ty) (s : str) : option tv :=
  match read_body u b pf sf s with Parsed x => from_body u b sf t x | _ => None end.

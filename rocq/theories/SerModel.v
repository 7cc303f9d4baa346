(** * Serialization

    Models the serializers of hcl-rs: [ValueSerializer] (value/ser.rs), [ExpressionSerializer],
    [ObjectKeySerializer] (expr/ser/mod.rs), [BodySerializer], [StructureSerializer], [BlockSerializer],
    [LabeledBlockSerializer] (structure/ser/mod.rs), [StringSerializer], [IdentifierSerializer],
    [U64Serializer] and the internal handles (ser/mod.rs).

    A value of a type that implements [Serialize] is represented by the calls it makes ([sd]).  Error
    messages are not modelled.  All paths are in crates/hcl-rs/src. *)
From Coq Require Import NArith ZArith Bool String List.
From Verif Require Import Res Str NumberModel PrimModel Ast.
From Verif Require DeModel.
From Verif Require MapModel.
Import ListNotations.
Open Scope list_scope.

(** ** Thread-local state *)

(** [InternalHandles], ser/mod.rs:562-566.  The counter is a [usize]; wrapping around after 2^64
    handles is not modelled.  The order of the [BTreeMap] is never observed; here the newest handle
    comes first. *)
Record reg (T : Type) := Reg { last : N; live : list (N * T) }.
Arguments Reg {T}. Arguments last {T}. Arguments live {T}.
Definition reg_put {T} (v : T) (r : reg T) : reg T := Reg (N.succ (last r)) ((last r, v) :: live r).
Definition reg_get {T} (h : N) (r : reg T) : option T := option_map snd (find (fun p => N.eqb (fst p) h) (live r)).
Definition reg_del {T} (h : N) (r : reg T) : reg T := Reg (last r) (filter (fun p => negb (N.eqb (fst p) h)) (live r)).
Definition reg_new {T} : reg T := Reg 0%N [].

(** [INTERNAL_SERIALIZATION] (ser/mod.rs:282-284), [EXPR_HANDLES] (expr/ser/mod.rs:13-15),
    [STRUCTURE_HANDLES] (structure/ser/mod.rs:23-25): one of each per thread. *)
Record tls := Tls { flag : bool; exprs : reg expr; structs : reg struct_ }.
Definition tls_new : tls := Tls false reg_new reg_new.

(** A computation returns, fails or panics, and leaves a state in any case. *)
Inductive sres (A : Type) := SOk (x : A) | SErr | SPanic | SFuel.
Arguments SOk {A}. Arguments SErr {A}. Arguments SPanic {A}. Arguments SFuel {A}.
Definition M (A : Type) : Type := tls -> sres A * tls.
Definition ret {A} (x : A) : M A := fun s => (SOk x, s).
Definition err {A} : M A := fun s => (SErr, s).
Definition panic {A} : M A := fun s => (SPanic, s).
Definition bind {A B} (m : M A) (f : A -> M B) : M B :=
  fun s => match m s with
           | (SOk x, s) => f x s
           | (SErr, s) => (SErr, s)
           | (SPanic, s) => (SPanic, s)
           | (SFuel, s) => (SFuel, s)
           end.
Notation "'do!' x <- m ; k" := (bind m (fun x => k)) (at level 200, x name, m at level 100, k at level 200).
Definition fmap {A B} (f : A -> B) (m : M A) : M B := do! x <- m; ret (f x).
Definition from_opt {A} (o : option A) : M A := match o with Some x => ret x | None => err end.

(** [in_internal_serialization], ser/mod.rs:286-288. *)
Definition internal : M bool := fun s => (SOk (flag s), s).
Definition set_flag (b : bool) (s : tls) : tls := Tls b (exprs s) (structs s).
(** [with_internal_serialization], ser/mod.rs:290-299: the guard puts the old value back when it is
    dropped: after a result, an error or while unwinding. *)
Definition with_internal {A} (m : M A) : M A :=
  fun s => let (r, s') := m (set_flag true s) in (r, set_flag (flag s) s').

(** ** Data as serde sees it *)

(** What is put into a registry. *)
Inductive hval := HExpr (e : expr) | HStruct (x : struct_).
(** [EXPR_HANDLE_MARKER] expr/ser/mod.rs:11, [STRUCTURE_HANDLE_MARKER] structure/ser/mod.rs:21,
    [BLOCK_MARKER], [LABELED_BLOCK_MARKER] ser/blocks.rs:7, 159. *)
Definition expr_marker : str := 0%N :: lit "$hcl::ExprHandle".
Definition struct_marker : str := 0%N :: lit "$hcl::StructureHandle".
Definition block_marker : str := lit "$hcl::Block".
Definition labeled_marker : str := lit "$hcl::LabeledBlock".
Definition marker (h : hval) : str := match h with HExpr _ => expr_marker | HStruct _ => struct_marker end.

(** Top-level functions that user code may call from inside [Serialize::serialize]:
    [to_expression], [to_string] and the like, [to_value]. *)
Inductive top := ToExpr | ToBody | ToValue.

(** The calls made by [Serialize::serialize].  Not represented: 128-bit integers (all serializers
    reject them, as [DFail]); [f32] (converted to [f64] first); [collect_str] (the same as [DStr]
    everywhere); tuples and tuple structs (the same as [DSeq] everywhere); maps that ask for a value
    before a key. *)
Inductive sd :=
| DBool (b : bool) | DI64 (z : Z) | DU64 (z : Z) | DF64 (f : f64) | DChar (c : chr) | DStr (s : str) | DBytes (l : list N)
| DUnit | DNone | DSome (d : sd) | DUnitStruct | DUnitVariant (v : str)
| DNewtypeStruct (name : str) (d : sd) | DNewtypeVariant (v : str) (d : sd)
| DSeq (l : list sd) | DTupleVariant (v : str) (l : list sd)
| DMap (l : list (sd * sd)) | DStruct (name : str) (l : list (str * sd)) | DStructVariant (v : str) (l : list (str * sd))
| DHandle (h : hval) (plain : sd)     (** [if in_internal_serialization() { HANDLES.serialize(h) } else { plain }] *)
| DMarked (labeled : bool) (d : sd)   (** [Block] and [LabeledBlock] *)
| DFail                               (** an error raised by the type itself *)
| DPanic                              (** a panic of the type itself *)
| DCall (t : top) (d : sd) (ok bad : sd). (** calls [t] with [d], then goes on as [ok] or as [bad] *)

(** A field of a struct, by the serializer that is asked to take it. *)
Inductive skind := KBody | KStructure (id : str) | KBlock (id : str) | KLabeled (id : str).

Section Ser.
  Context (u : unicode) (b : build).
  (** Nested top-level calls; returns whether the call succeeded. *)
  Context (nested : top -> sd -> M bool).

  Definition ident_new (s : str) : M str := from_opt (ident_try_new u s).
  (** [Number::from_f64(value).map_or(null, number)]. *)
  Definition of_f64 {A} (null : A) (number : num -> A) (f : f64) : M A :=
    match num_from_f64 b f with
    | Done (Some n) => ret (number n)
    | Done None => ret null
    | Panic => panic
    end.
  (** [InternalHandles::serialize], ser/mod.rs:584-596; [k] is what the serializer does with a struct
      of the given name and the only field [handle]. *)
  Definition with_handle {A} (h : hval) (k : N -> M A) : M A := fun s =>
    match h with
    | HExpr e => k (last (exprs s)) (Tls (flag s) (reg_put e (exprs s)) (structs s))
    | HStruct x => k (last (structs s)) (Tls (flag s) (exprs s) (reg_put x (structs s)))
    end.
  (** [InternalHandles::remove], ser/mod.rs:577-582. *)
  Definition take_expr (h : N) : M expr := fun s =>
    match reg_get h (exprs s) with
    | Some e => (SOk e, Tls (flag s) (reg_del h (exprs s)) (structs s))
    | None => (SPanic, s)
    end.
  Definition take_struct (h : N) : M struct_ := fun s =>
    match reg_get h (structs s) with
    | Some e => (SOk e, Tls (flag s) (exprs s) (reg_del h (structs s)))
    | None => (SPanic, s)
    end.
  Definition handle_num (h : N) : num := num_of_u64 (Z.of_N h).

  Section Lists.
    Context {A B : Type} (f : A -> M B).
    Fixpoint mapm (l : list A) : M (list B) :=
      match l with [] => ret [] | x :: l => do! y <- f x; do! ys <- mapm l; ret (y :: ys) end.
  End Lists.
  Definition concatm {A B} (f : A -> M (list B)) (l : list A) : M (list B) := fmap (@concat B) (mapm f l).

  (** [StringSerializer], ser/mod.rs:417-463. *)
  Fixpoint ser_string (d : sd) : M str :=
    match d with
    | DChar c => ret [c]
    | DStr s => ret s
    | DUnitVariant v => ret v
    | DSome d | DNewtypeStruct _ d => ser_string d
    | DHandle h d => do! i <- internal; if i then with_handle h (fun _ => err) else ser_string d
    | DMarked _ d => ser_string d
    | DPanic => panic
    | DCall t d ok bad => do! r <- nested t d; if r then ser_string ok else ser_string bad
    | _ => err
    end.
  (** [IdentifierSerializer], ser/mod.rs:465-503. *)
  Fixpoint ser_ident (d : sd) : M str :=
    match d with
    | DChar c => ident_new [c]
    | DStr s => ident_new s
    | DUnitVariant v => ident_new v
    | DSome d | DNewtypeStruct _ d => ser_ident d
    | DHandle h d => do! i <- internal; if i then with_handle h (fun _ => err) else ser_ident d
    | DMarked _ d => ser_ident d
    | DPanic => panic
    | DCall t d ok bad => do! r <- nested t d; if r then ser_ident ok else ser_ident bad
    | _ => err
    end.
  (** [U64Serializer], ser/mod.rs:505-531: anything but a [u64] is an error.  ([u8] to [u32] are
      represented by [DU64] too; they are rejected by the code.  Only a struct forged to look like a
      handle could tell.) *)
  Fixpoint ser_u64 (d : sd) : M N :=
    match d with
    | DU64 z => ret (Z.to_N z)
    | DHandle h d => do! i <- internal; if i then with_handle h (fun _ => err) else ser_u64 d
    | DMarked _ d => do! i <- internal; if i then err else ser_u64 d
    | DPanic => panic
    | DCall t d ok bad => do! r <- nested t d; if r then ser_u64 ok else ser_u64 bad
    | _ => err
    end.
  (** [SerializeInternalHandleStruct], ser/mod.rs:533-560, over the fields. *)
  Section HandleStruct.
    Context {F : Type} (u64 : F -> M N).
    Fixpoint handle_fields (acc : option N) (l : list (str * F)) : M N :=
      match l with
      | [] => match acc with Some h => ret h | None => panic end
      | (k, x) :: l => if seqb k (lit "handle") then do! h <- u64 x; handle_fields (Some h) l else panic
      end.
  End HandleStruct.

  (** [ObjectKeySerializer], expr/ser/mod.rs:418-489; [ObjectKey::from] of anything but an [Identifier]
      gives [ObjectKey::Expression] (expr/mod.rs:299-306). *)
  Fixpoint ser_key (d : sd) : M (okey expr) :=
    match d with
    | DI64 z => ret (KExpr (ENum (num_of_i64 z)))
    | DU64 z => ret (KExpr (ENum (num_of_u64 z)))
    | DChar c => ret (KExpr (EStr [c]))
    | DStr s => ret (KExpr (EStr s))
    | DUnitVariant v => fmap KIdent (ident_new v)
    | DSome d | DNewtypeStruct _ d | DNewtypeVariant _ d => ser_key d
    | DHandle h d => do! i <- internal; if i then with_handle h (fun _ => err) else ser_key d
    | DMarked _ d => ser_key d
    | DPanic => panic
    | DCall t d ok bad => do! r <- nested t d; if r then ser_key ok else ser_key bad
    | _ => err
    end.

  (** [ValueSerializer], value/ser.rs:22-306. *)
  Definition value_obj (l : list (str * value)) : value := VObj (MapModel.from_iter seqb l).
  Fixpoint ser_value (d : sd) : M value :=
    match d with
    | DBool x => ret (VBool x)
    | DI64 z => ret (VNum (num_of_i64 z))
    | DU64 z => ret (VNum (num_of_u64 z))
    | DF64 f => of_f64 VNull VNum f
    | DChar c => ret (VStr [c])
    | DStr s => ret (VStr s)
    | DBytes l => ret (VArr (map (fun x => VNum (num_of_u64 (Z.of_N x))) l))
    | DUnit | DNone | DUnitStruct => ret VNull
    | DSome d | DNewtypeStruct _ d => ser_value d
    | DUnitVariant v => ret (VStr v)
    | DNewtypeVariant v d => do! x <- ser_value d; ret (VObj [(v, x)])
    | DSeq l => fmap VArr (mapm ser_value l)
    | DTupleVariant v l => do! xs <- mapm ser_value l; ret (VObj [(v, VArr xs)])
    | DMap l =>
        fmap value_obj (mapm (fun p => match p with (k, d) =>
          do! k <- ser_string k; do! x <- ser_value d; ret (k, x) end) l)
    | DStruct _ l => fmap value_obj (mapm (fun p => match p with (k, d) => do! x <- ser_value d; ret (k, x) end) l)
    | DStructVariant v l =>
        do! m <- mapm (fun p => match p with (k, d) => do! x <- ser_value d; ret (k, x) end) l;
        ret (VObj [(v, value_obj m)])
    | DHandle h d =>
        do! i <- internal;
        if i then with_handle h (fun n => ret (VObj [(lit "handle", VNum (handle_num n))])) else ser_value d
    | DMarked _ d => ser_value d
    | DFail => err
    | DPanic => panic
    | DCall t d ok bad => do! r <- nested t d; if r then ser_value ok else ser_value bad
    end.

  (** [ExpressionSerializer], expr/ser/mod.rs:79-416. *)
  Definition skey (s : str) : okey expr := KExpr (EStr s).
  Definition expr_obj (l : list (okey expr * expr)) : expr := EObj (eobj_collect l).
  (** [SerializeExpressionStruct], expr/ser/mod.rs:347-384, over fields that can be asked for an
      expression or for a handle. *)
  Definition expr_struct {F} (u64 : F -> M N) (ex : F -> M expr) (name : str) (l : list (str * F)) : M expr :=
    if seqb name expr_marker then do! h <- handle_fields u64 None l; take_expr h
    else fmap expr_obj (mapm (fun p => match p with (k, x) => do! e <- ex x; ret (skey k, e) end) l).
  Fixpoint ser_expr (d : sd) : M expr :=
    match d with
    | DBool x => ret (EBool x)
    | DI64 z => ret (ENum (num_of_i64 z))
    | DU64 z => ret (ENum (num_of_u64 z))
    | DF64 f => of_f64 ENull ENum f
    | DChar c => ret (EStr [c])
    | DStr s => ret (EStr s)
    | DBytes l => ret (EArr (map (fun x => ENum (num_of_u64 (Z.of_N x))) l))
    | DUnit | DNone | DUnitStruct => ret ENull
    | DSome d | DNewtypeStruct _ d => ser_expr d
    | DUnitVariant v => ret (EStr v)
    | DNewtypeVariant v d => do! v <- ident_new v; do! e <- ser_expr d; ret (EObj [(KIdent v, e)])
    | DSeq l => fmap EArr (mapm ser_expr l)
    | DTupleVariant v l => do! es <- mapm ser_expr l; ret (EObj [(skey v, EArr es)])
    | DMap l =>
        fmap expr_obj (mapm (fun p => match p with (k, d) =>
          do! k <- ser_key k; do! e <- ser_expr d; ret (k, e) end) l)
    | DStruct name l => expr_struct ser_u64 ser_expr name l
    | DStructVariant v l =>
        do! m <- mapm (fun p => match p with (k, d) => do! e <- ser_expr d; ret (skey k, e) end) l;
        ret (EObj [(skey v, expr_obj m)])
    | DHandle h d =>
        do! i <- internal;
        if i then with_handle h (fun n =>
          expr_struct ret (fun n => ret (ENum (handle_num n))) (marker h) [(lit "handle", n)])
        else ser_expr d
    | DMarked _ d => ser_expr d
    | DFail => err
    | DPanic => panic
    | DCall t d ok bad => do! r <- nested t d; if r then ser_expr ok else ser_expr bad
    end.

  (** *** Bodies, structures and blocks: structure/ser/mod.rs *)
  Definition attr (id : str) (e : expr) : list struct_ := [SAttribute id e].
  (** [serialize_labeled_blocks], 1379-1401: keeps the blocks and changes their labels. *)
  Definition relabel (f : list blabel -> list blabel) (l : list struct_) : list struct_ :=
    flat_map (fun x => match x with SAttribute _ _ => [] | SBlk id ls body => [SBlk id (f ls) body] end) l.
  (** An expression handle in body position, 344-369; [String] to [Identifier] is
      [Identifier::sanitized] (ident.rs:116-120). *)
  Definition attrs_of_expr (e : expr) : M (list struct_) :=
    match e with
    | EObj m => mapm (fun p => match fst p with
                               | KIdent s => ret (SAttribute s (snd p))
                               | KExpr (EStr s) => ret (SAttribute (ident_new_sanitized u s) (snd p))
                               | KExpr _ => err
                               end) m
    | _ => err
    end.
  (** The serializers' structs: [SerializeBodyStruct] 305-376, [SerializeStructureStruct] 741-773,
      [SerializeBlockStruct] 1030-1067, [SerializeLabeledBlockStruct] 1314-1346. *)
  Definition structs_struct {F} (u64 : F -> M N) (ex : F -> M expr) (sub : F -> skind -> M (list struct_))
      (name : str) (l : list (str * F)) (k : skind) : M (list struct_) :=
    let fields := concatm (fun p => match p with (k, x) => do! i <- ident_new k; sub x (KStructure i) end) l in
    match k with
    | KBody =>
        if seqb name struct_marker then do! h <- handle_fields u64 None l; do! x <- take_struct h; ret [x]
        else if seqb name expr_marker then do! h <- handle_fields u64 None l; do! e <- take_expr h; attrs_of_expr e
        else fields
    | KStructure id => fmap (attr id) (expr_struct u64 ex name l)
    | KBlock id => do! ss <- fields; ret [SBlk id [] ss]
    | KLabeled id =>
        concatm (fun p => match p with (k, x) => fmap (relabel (cons (BLString k))) (sub x (KBlock id)) end) l
    end.
  (** [serialize_newtype_struct]: [BodySerializer] 119-196 and [LabeledBlockSerializer]
      1120-1198 ([serialize_self]), [StructureSerializer] 550-566, [BlockSerializer] 835-847. *)
  Definition newtype_kind (name : str) (k : skind) : option skind :=
    match k with
    | KBody => Some KBody
    | KStructure id =>
        if seqb name block_marker then Some (KBlock id)
        else if seqb name labeled_marker then Some (KLabeled id) else None
    | KBlock id => if seqb name labeled_marker then Some (KLabeled id) else Some (KBlock id)
    | KLabeled id => Some (KLabeled id)
    end.
  Definition prim (m : M expr) (k : skind) : M (list struct_) :=
    match k with KStructure id => fmap (attr id) m | _ => err end.

  Fixpoint ser_structs (d : sd) (k : skind) : M (list struct_) :=
    match d with
    | DBool _ | DI64 _ | DU64 _ | DF64 _ | DChar _ | DStr _ | DBytes _ | DUnit | DNone | DUnitStruct | DUnitVariant _ =>
        prim (ser_expr d) k
    | DSome d => ser_structs d k
    | DNewtypeStruct name x =>
        match newtype_kind name k with Some k => ser_structs x k | None => prim (ser_expr x) k end
    | DNewtypeVariant v x =>
        match k with
        | KBody => do! v <- ident_new v; ser_structs x (KStructure v)
        | KStructure id => fmap (attr id) (ser_expr d)
        | KBlock id => do! v <- ident_new v; do! ss <- ser_structs x (KStructure v); ret [SBlk id [] ss]
        | KLabeled id => fmap (relabel (cons (BLString v))) (ser_structs x (KBlock id))
        end
    | DSeq l =>
        match k with
        | KStructure id => do! es <- mapm ser_expr l; ret (attr id (EArr es))
        | _ => concatm (fun x => ser_structs x k) l
        end
    | DTupleVariant v l =>
        match k with
        | KBody => do! v <- ident_new v; do! es <- mapm ser_expr l; ret (attr v (EArr es))
        | KStructure id => fmap (attr id) (ser_expr d)
        | KBlock id =>
            do! v <- ident_new v; do! ss <- concatm (fun x => ser_structs x (KBlock v)) l; ret [SBlk id [] ss]
        | KLabeled id => concatm (fun x => fmap (relabel (cons (BLString v))) (ser_structs x (KBlock id))) l
        end
    | DMap l =>
        let entries := concatm (fun p => match p with (k, x) =>
          do! i <- ser_ident k; ser_structs x (KStructure i) end) l in
        match k with
        | KBody => entries
        | KStructure id => fmap (attr id) (ser_expr d)
        | KBlock id => do! ss <- entries; ret [SBlk id [] ss]
        | KLabeled id =>
            concatm (fun p => match p with (k, x) =>
              do! l <- ser_string k; fmap (relabel (cons (BLString l))) (ser_structs x (KBlock id)) end) l
        end
    | DStruct name l => structs_struct ser_u64 ser_expr ser_structs name l k
    | DStructVariant v l =>
        let fields := concatm (fun p => match p with (k, x) => do! i <- ident_new k; ser_structs x (KStructure i) end) l in
        match k with
        | KBody => do! v <- ident_new v; do! ss <- fields; ret [SBlk v [] ss]
        | KStructure id => fmap (attr id) (ser_expr d)
        | KBlock id => do! v <- ident_new v; do! ss <- fields; ret [SBlk id [] [SBlk v [] ss]]
        | KLabeled id =>
            concatm (fun p => match p with (k, x) =>
              fmap (relabel (fun ls => BLString v :: BLString k :: ls)) (ser_structs x (KBlock id)) end) l
        end
    | DHandle h x =>
        do! i <- internal;
        if i then with_handle h (fun n =>
          structs_struct ret (fun n => ret (ENum (handle_num n))) (fun n => prim (ret (ENum (handle_num n))))
            (marker h) [(lit "handle", n)] k)
        else ser_structs x k
    | DMarked labeled x =>
        do! i <- internal;
        if i then
          match newtype_kind (if labeled then labeled_marker else block_marker) k with
          | Some k => ser_structs x k
          | None => prim (ser_expr x) k
          end
        else ser_structs x k
    | DFail => err
    | DPanic => panic
    | DCall t d ok bad => do! r <- nested t d; if r then ser_structs ok k else ser_structs bad k
    end.

  (** [Expression::from_serializable] (expr/mod.rs:76-81), [Body::from_serializable]
      (structure/body.rs:22-27), [to_value] (value/mod.rs). *)
  Definition to_expr (d : sd) : M expr := with_internal (ser_expr d).
  Definition to_body (d : sd) : M rbody := with_internal (ser_structs d KBody).
  Definition to_value (d : sd) : M value := ser_value d.
  Definition attempt {A} (m : M A) : M bool := fun s =>
    match m s with
    | (SOk _, s) => (SOk true, s)
    | (SErr, s) => (SOk false, s)
    | (SPanic, s) => (SPanic, s)
    | (SFuel, s) => (SFuel, s)
    end.
  Definition call (t : top) (d : sd) : M bool :=
    match t with
    | ToExpr => attempt (to_expr d)
    | ToBody => attempt (to_body d)
    | ToValue => attempt (to_value d)
    end.
End Ser.

(** Calls nested at most [n] deep. *)
Fixpoint calls (u : unicode) (b : build) (n : nat) : top -> sd -> M bool :=
  match n with
  | O => fun _ _ s => (SFuel, s)
  | S n => call u b (calls u b n)
  end.
(** How deep the calls in [d] are nested. *)
Fixpoint depth (d : sd) : nat :=
  let list_max := (fix go (l : list sd) := match l with [] => 0%nat | d :: l => Nat.max (depth d) (go l) end) in
  let fields_max := (fix go (l : list (str * sd)) := match l with [] => 0%nat | (_, d) :: l => Nat.max (depth d) (go l) end) in
  match d with
  | DSome d | DNewtypeStruct _ d | DNewtypeVariant _ d | DHandle _ d | DMarked _ d => depth d
  | DSeq l | DTupleVariant _ l => list_max l
  | DMap l => (fix go (l : list (sd * sd)) := match l with [] => 0%nat | (k, d) :: l => Nat.max (Nat.max (depth k) (depth d)) (go l) end) l
  | DStruct _ l | DStructVariant _ l => fields_max l
  | DCall _ d ok bad => Nat.max (S (depth d)) (Nat.max (depth ok) (depth bad))
  | _ => 0%nat
  end.
(** The top-level functions. *)
Definition run_expr u b (d : sd) : M expr := to_expr u b (calls u b (depth d)) d.
Definition run_body u b (d : sd) : M rbody := to_body u b (calls u b (depth d)) d.
Definition run_value u b (d : sd) : M value := to_value b (calls u b (depth d)) d.

(** ** The types of the crate as data *)

(** [Serialize for Value], value/ser.rs:6-20, [for Number], hcl-primitives/src/number.rs:401-412. *)
Definition sd_num (n : num) : sd := match n with PosInt z => DU64 z | NegInt z => DI64 z | NFloat f => DF64 f end.
Fixpoint sd_value (v : value) : sd :=
  match v with
  | VNull => DUnit
  | VBool b => DBool b
  | VNum n => sd_num n
  | VStr s => DStr s
  | VArr l => DSeq (map sd_value l)
  | VObj m => DMap (map (fun p => (DStr (fst p), sd_value (snd p))) m)
  end.
(** [Serialize for Expression] and the types of its variants, expr/ser/mod.rs:17-75; [ObjectKey] derives
    [Serialize], expr/mod.rs:290-297.  [interp] is [to_interpolated_string]. *)
Section Own.
  Context (interp : expr -> str).
  Fixpoint sd_plain (e : expr) : sd :=
    match e with
    | ENull => DUnit
    | EBool b => DBool b
    | ENum n => sd_num n
    | EStr s => DStr s
    | EArr l => DSeq (map (fun e => DHandle (HExpr e) (sd_plain e)) l)
    | EObj m => DMap (map (fun p =>
        (match fst p with
         | KIdent s => DNewtypeVariant (lit "Identifier") (DStr s)
         | KExpr e => DNewtypeVariant (lit "Expression") (DHandle (HExpr e) (sd_plain e))
         end, DHandle (HExpr (snd p)) (sd_plain (snd p)))) m)
    | EParen e => DHandle (HExpr e) (sd_plain e)
    | e => DStr (interp e)
    end.
  Definition sd_expr (e : expr) : sd := DHandle (HExpr e) (sd_plain e).
  (** [BlockLabel] derives [Serialize], structure/block.rs:115-121. *)
  Definition sd_label (l : blabel) : sd :=
    match l with
    | BLIdent s => DNewtypeVariant (lit "Identifier") (DStr s)
    | BLString s => DNewtypeVariant (lit "String") (DStr s)
    end.
  (** [Serialize for Structure], [Attribute], [Block], structure/ser/mod.rs:27-73; [Body],
      structure/body.rs:16-18. *)
  Fixpoint sd_struct_plain (x : struct_) : sd :=
    match x with
    | SAttribute k e => DStruct (lit "Attribute") [(lit "key", DStr k); (lit "expr", sd_expr e)]
    | SBlk id ls body => DStruct (lit "Block")
        [(lit "identifier", DStr id); (lit "labels", DSeq (map sd_label ls));
         (lit "body", DNewtypeStruct (lit "$hcl::Body") (DSeq (map (fun x => DHandle (HStruct x) (sd_struct_plain x)) body)))]
    end.
  Definition sd_struct (x : struct_) : sd := DHandle (HStruct x) (sd_struct_plain x).
  Definition sd_body (x : rbody) : sd := DNewtypeStruct (lit "$hcl::Body") (DSeq (map sd_struct x)).
End Own.

(** [from_value::<Value>] (value/mod.rs): [ValueDeserializer] (value/de.rs:113-167) with the visitor of
    [Value] (14-88); keys are strings.  Nothing can fail. *)
Fixpoint de_value (b : build) (v : value) : value :=
  match v with
  | VNull => VNull
  | VBool x => VBool x
  | VNum n => DeModel.hcl_num b n
  | VStr s => VStr s
  | VArr l => VArr (map (de_value b) l)
  | VObj m => VObj (MapModel.from_iter seqb (map (fun p => (fst p, de_value b (snd p))) m))
  end.
